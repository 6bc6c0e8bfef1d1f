(* What files that import each other make of texts. *)
From Verif Require Import TokenizeProofs TreeProofs CombProofs ScopeProofs CompileProofs SeesProofs MatchProofs ReadProofs ProjectProofs SaneProofs.
From Verif Require Import Spec SpecScript SpecSyntax SpecMatch SpecSteady.
Open Scope string_scope.
Open Scope list_scope.
Open Scope N_scope.

Section Book.
  Variables (E : env) (F : fs).

  Definition agree (lo hi : sid) (D D' : book) : Prop := forall s x, (lo <= s < hi)%nat -> D' s x = D s x.
  Lemma agree_in lo hi lo' hi' D D' : agree lo hi D D' -> (lo <= lo')%nat -> (hi' <= hi)%nat -> agree lo' hi' D D'.
  Proof. intros H H1 H2 s x Hs. apply H. lia. Qed.
  Lemma told_bounds D :
    (forall lo hi file d sc, told E F D lo hi file d sc -> (lo <= sc < hi)%nat) /\
    (forall lo hi full l es, tells E F D lo hi full l es -> (lo <= hi)%nat).
  Proof. apply told_mutind; intros; try assumption; lia. Qed.
  Lemma told_agree D D' :
    (forall lo hi file d sc, told E F D lo hi file d sc -> agree lo hi D D' -> told E F D' lo hi file d sc) /\
    (forall lo hi full l es, tells E F D lo hi full l es -> agree lo hi D D' -> tells E F D' lo hi full l es).
  Proof.
    apply told_mutind.
    - intros lo hi file full d sc es Hc Hfl Hb _ IH Hd Ha. econstructor; eauto.
      + apply IH. eapply agree_in; [exact Ha|lia|lia].
      + intros x. rewrite Ha; auto.
    - intros. now constructor.
    - intros. econstructor; eauto.
    - intros lo mid hi full names path file d isc l nes es Hj Ht IHt Hn Hl IHl Ha.
      pose proof (proj1 (told_bounds D) _ _ _ _ _ Ht). pose proof (proj2 (told_bounds D) _ _ _ _ _ Hl).
      apply (te_import E F D' lo mid hi full names path file d isc); [exact Hj| | |].
      + apply IHt. eapply agree_in; [exact Ha|lia|lia].
      + eapply Forall2_weaken; [|exact Hn]. intros n b (H1 & H2). split; [exact H1|].
        destruct H2 as [H2|(H2 & e & H3 & H4)]; [now left|right]. split; [exact H2|]. exists e. split; [|exact H4]. rewrite Ha; [exact H3|lia].
      + apply IHl. eapply agree_in; [exact Ha|lia|lia].
  Qed.

  Definition bound_entry (p : str * entry) : str * matcher := (fst p, entry_matcher (snd p)).
  Lemma last_bound x es : last_of x (map bound_entry es) = option_map entry_matcher (last_of x es).
  Proof.
    induction es as [|[y e] es IH]; [reflexivity|]. cbn [map bound_entry last_of fst snd]. rewrite IH.
    destruct (last_of x es); [reflexivity|]. cbn [option_map]. now destruct (str_eqb y x).
  Qed.
  Lemma last_within V x es e : Forall (fun p => within V (snd p)) es -> last_of x es = Some e -> within V e.
  Proof.
    induction 1 as [|[y e0] es H _ IH]; [discriminate|]. cbn [last_of]. destruct (last_of x es); [exact IH|].
    destruct (str_eqb y x); [|discriminate]. intros K. now injection K as <-.
  Qed.
  Lemma within_more (V V' : sid -> Prop) : (forall s, V s -> V' s) -> forall e, within V e -> within V' e.
  Proof. intros H. induction e; cbn [within]; intuition. Qed.
  Lemma within_all (V V' : sid -> Prop) : (forall s, V s -> V' s) -> forall es : list (str * entry), Forall (fun p => within V (snd p)) es -> Forall (fun p => within V' (snd p)) es.
  Proof. intros H es. apply Forall_impl. intros p. now apply within_more. Qed.

  Lemma last_sane x es e : Forall (fun p => sane_entry (snd p)) es -> last_of x es = Some e -> sane_entry e.
  Proof.
    induction 1 as [|[y e0] es H _ IH]; [discriminate|]. cbn [last_of]. destruct (last_of x es); [exact IH|].
    destruct (str_eqb y x); [|discriminate]. intros K. now injection K as <-.
  Qed.

  (* [D] is empty but for the scopes [V], which are between [lo] and [hi] *)
  Definition spans (lo hi : sid) (V : sid -> Prop) (D : book) (st : state) : Prop :=
    (forall s, V s -> (lo <= s < hi)%nat) /\ kept V D st /\ forall s x, ~ (lo <= s < hi)%nat -> D s x = None.

  Lemma compiled_told st :
    (forall lo hi file d m sc, compiled E F st lo hi file d m sc ->
       m = compiled_script file sc d /\ exists D V, told E F D lo hi file d sc /\ spans lo hi V D st /\ V sc /\
         (measured E -> sane_book V D /\ Forall sane (s_patterns d))) /\
    (forall lo hi full l bs, binds E F st lo hi full l bs ->
       exists D V es, tells E F D lo hi full l es /\ spans lo hi V D st /\ bs = map bound_entry es /\
         Forall (fun p => within V (snd p)) es /\
         (measured E -> sane_book V D /\
            ((forall s, In s l -> exists u, statement_text E s u) -> Forall (fun p => sane_entry (snd p)) es))).
  Proof.
    apply compiled_mutind.
    - intros lo hi file full d sc bs Hc Hfl Hb Hv _ (D & V & es & Ht & (S1 & (K1 & K2 & K3) & S3) & -> & Hes & Hsa) Hg. split; [reflexivity|].
      set (D' := fun s x => if Nat.eqb s sc then last_of x es else D s x).
      assert (Dsc : forall x, D' sc x = last_of x es) by (intros x; unfold D'; now rewrite Nat.eqb_refl).
      assert (Dn : forall s x, s <> sc -> D' s x = D s x) by (intros s x Hs; unfold D'; now rewrite (proj2 (Nat.eqb_neq _ _) Hs)).
      exists D', (fun s => s = sc \/ V s). split; [|split; [split; [|split]|split; [now left|]]].
      + econstructor; eauto. apply (proj2 (told_agree D D') _ _ _ _ _ Ht). intros s x Hs. apply Dn. lia.
      + intros s [-> |Hs]; [lia|]. apply S1 in Hs. lia.
      + split; [|split].
        * intros s [-> |Hs]; auto.
        * intros s x [-> |Hs].
          -- rewrite Hg, Dsc, last_bound. now destruct (last_of x es).
          -- rewrite Dn by (apply S1 in Hs; lia). now apply K2.
        * intros s x e [-> |Hs].
          -- rewrite Dsc. intros H. eapply within_more; [|eapply last_within; eauto]. auto.
          -- rewrite Dn by (apply S1 in Hs; lia). intros H. eapply within_more; [|eapply K3; eauto]. auto.
      + intros s x Hs. rewrite Dn by lia. apply S3. lia.
      + intros HM. destruct (Hsa HM) as [Z1 Z2]. destruct Hc as (src & _ & _ & _ & _ & Hsrc). split.
        * intros s x e [-> |Hs].
          -- rewrite Dsc. intros H. eapply last_sane; [|exact H]. apply Z2. eapply script_statements; eauto.
          -- rewrite Dn by (apply S1 in Hs; lia). intros H. eapply Z1; eauto.
        * eapply script_patterns_sane; eauto.
    - intros lo hi full Hl. exists (fun _ _ => None), (fun _ => False), []. split; [now constructor|]. split; [|split; [reflexivity|split; [constructor|]]].
      split; [contradiction|]. split; [|reflexivity]. split; [contradiction|]. split; [contradiction|discriminate].
      intros _. split; [intros s x e []|constructor].
    - intros lo hi full d x m l bs Hd Hfl _ (D & V & es & Ht & Hs & -> & Hes & Hsa).
      assert (He : exists e, own_entry d = Some (x, e) /\ entry_matcher e = m /\ within V e).
      { destruct d; cbn in Hd; try discriminate; injection Hd as <- <-; eexists; split; try reflexivity; split; try reflexivity; exact Logic.I. }
      destruct He as (e & He & <- & Hw). exists D, V, ((x, e) :: es). split; [now constructor|]. split; [exact Hs|]. split; [reflexivity|].
      split; [constructor; auto|]. intros HM. destruct (Hsa HM) as [Z1 Z2]. split; [exact Z1|]. intros Hw'. constructor.
      + destruct (Hw' d (or_introl eq_refl)) as [u Hu]. cbn [snd]. eapply statement_sane; eauto.
      + apply Z2. intros s Hin. apply Hw'. now right.
    - intros lo mid hi full names path file d root isc l nbs bs Hj Hc (-> & D1 & V1 & Ht1 & (A1 & (A2 & A3 & A4) & A5) & Hisc & Hsa1) Hn Hb
        (D2 & V2 & es & Ht2 & (B1 & (B2 & B3 & B4) & B5) & -> & Hes & Hsa2).
      pose proof (proj1 (told_bounds D1) _ _ _ _ _ Ht1) as G1. pose proof (proj2 (told_bounds D2) _ _ _ _ _ Ht2) as G2.
      set (D := fun s x => if (s <? mid)%nat then D1 s x else D2 s x).
      assert (L1 : forall s x, (s < mid)%nat -> D s x = D1 s x) by (intros s x Hs; unfold D; now rewrite (proj2 (Nat.ltb_lt _ _) Hs)).
      assert (L2 : forall s x, (mid <= s)%nat -> D s x = D2 s x) by (intros s x Hs; unfold D; now rewrite (proj2 (Nat.ltb_ge _ _) Hs)).
      assert (Hnes : exists nes, Forall2 (import_entry D file names d isc) names nes /\ nbs = map bound_entry nes /\
        Forall (fun p => within (fun s => V1 s \/ V2 s) (snd p)) nes /\ (measured E -> Forall (fun p => sane_entry (snd p)) nes)).
      { set (root := m_set_name _ _) in Hn.
        assert (Hroot : root = entry_matcher (Whole (root_alias names (s_name file d)) isc (s_patterns d))) by reflexivity.
        assert (Hone : forall n b, import_binds st root isc n b -> exists e, import_entry D file names d isc n e /\ b = bound_entry e /\
          within (fun s => V1 s \/ V2 s) (snd e) /\ (measured E -> sane_entry (snd e))).
        { intros n [y m] [H1 H2]. cbn [fst snd] in *. subst y. destruct H2 as [[H2 ->]|(H2 & m0 & H3 & ->)].
          - exists (snd n, Whole (root_alias names (s_name file d)) isc (s_patterns d)). split; [split; [reflexivity|now left]|].
            split; [unfold bound_entry; cbn [fst snd]; now rewrite <- Hroot|]. cbn [snd within sane_entry]. split; [now left|]. intros HM. apply sane_list. now apply Hsa1.
          - rewrite A3 in H3 by exact Hisc. destruct (D1 isc (fst n)) as [e0|] eqn:He0; [|discriminate]. cbn [option_map] in H3. injection H3 as <-.
            exists (snd n, Renamed isc e0 (snd n)). split.
            + split; [reflexivity|]. right. split; [exact H2|]. exists e0. split; [|reflexivity]. rewrite L1; [exact He0|lia].
            + split; [reflexivity|]. cbn [snd within sane_entry]. split; [split; [now left|]|].
              * eapply within_more; [|eapply A4; eauto]. auto.
              * intros HM. destruct (Hsa1 HM) as [Z _]. eapply Z; eauto. }
        clearbody root. set (R := import_entry D file names d isc) in *. clearbody R. clear -Hn Hone. induction Hn as [|n b ns bs0 Hb _ (nes & I1 & -> & I3 & I4)]; [exists []; split; [constructor|split; [reflexivity|split; [constructor|intros _; constructor]]]|].
        destruct (Hone n b Hb) as (e & O1 & -> & O3 & O4). exists (e :: nes). split; [now constructor|]. split; [reflexivity|]. split; [now constructor|].
        intros HM. constructor; auto. }
      destruct Hnes as (nes & N1 & -> & N3 & N4).
      exists D, (fun s => V1 s \/ V2 s), (nes ++ es). split; [|split; [split; [|split]|split; [|split]]].
      + apply (te_import E F D lo mid hi full names path file d isc); [exact Hj| |exact N1|].
        * apply (proj1 (told_agree D1 D) _ _ _ _ _ Ht1). intros s x Hs. apply L1. lia.
        * apply (proj2 (told_agree D2 D) _ _ _ _ _ Ht2). intros s x Hs. apply L2. lia.
      + intros s [Hs|Hs]; [apply A1 in Hs|apply B1 in Hs]; lia.
      + split; [|split].
        * intros s [Hs|Hs]; auto.
        * intros s x [Hs|Hs]; [rewrite L1 by (apply A1 in Hs; lia); now apply A3|rewrite L2 by (apply B1 in Hs; lia); now apply B3].
        * intros s x e [Hs|Hs]; [rewrite L1 by (apply A1 in Hs; lia)|rewrite L2 by (apply B1 in Hs; lia)]; intros H;
            (eapply within_more; [|first [eapply A4; eassumption|eapply B4; eassumption]]; auto).
      + intros s x Hs. destruct (Nat.lt_ge_cases s mid) as [Hm|Hm]; [rewrite L1 by exact Hm; apply A5|rewrite L2 by exact Hm; apply B5]; lia.
      + now rewrite map_app.
      + apply Forall_app. split; [exact N3|]. eapply within_all; [|exact Hes]. auto.
      + intros HM. destruct (Hsa1 HM) as [Z1 _], (Hsa2 HM) as [Z2 Z3]. split.
        * intros s x e [Hs|Hs]; [rewrite L1 by (apply A1 in Hs; lia)|rewrite L2 by (apply B1 in Hs; lia)]; intros H;
            first [eapply Z1; eassumption|eapply Z2; eassumption].
        * intros Hw. apply Forall_app. split; [now apply N4|]. apply Z3. intros s Hin. apply Hw. now right.
  Qed.

  (* a context has a scope of its own *)
  Lemma context_kept lo V D st Q label : spans lo (next_sid st) V D st ->
    kept (fun s => V s \/ s = next_sid st) D (snd (context_new Q label st)).
  Proof.
    intros (S1 & (K1 & K2 & K3) & S3). set (s0 := next_sid st) in *.
    assert (Hnone : forall x, D s0 x = None) by (intros x; apply S3; lia).
    cbn [context_new snd]. split; [|split].
    - intros s [Hv| ->]; unfold valid_scope, sc_new in *; cbn [st_scopes]; rewrite app_length; cbn [List.length]; [apply K1 in Hv; lia|]. unfold s0, next_sid. lia.
    - intros s y [Hv| ->].
      + rewrite <- (K2 s y Hv). unfold sc_get, stack_of, sc_new. cbn [st_scopes]. rewrite app_nth1; [reflexivity|exact (K1 s Hv)].
      + rewrite Hnone. cbn [option_map].
        unfold sc_get, stack_of, sc_new, s0, next_sid. cbn [st_scopes]. rewrite app_nth2, Nat.sub_diag by lia. reflexivity.
    - intros s y e [Hv| ->] He; [|rewrite Hnone in He; discriminate]. eapply within_more; [|eapply K3; eauto]. auto.
  Qed.
  Lemma project_kept file d : tame E -> tidy E -> sound E F file d -> forall st, exists n sc st1 D V,
    (forall depth fuel, (n <= depth)%nat -> (n <= fuel)%nat ->
       compile_file depth fuel E F false file st = Ret (ScriptOk (compiled_script file sc d) sc) st1) /\
    told E F D (next_sid st) (next_sid st1) file d sc /\ spans (next_sid st) (next_sid st1) V D st1 /\ V sc /\
    (measured E -> sane_book V D /\ Forall sane (s_patterns d)).
  Proof.
    intros HE HT Hs st. destruct (project_compiles E F file d HE HT Hs st) as (n & m & sc & st1 & Hc & Hcd & _).
    destruct (proj1 (compiled_told st1) _ _ _ _ _ _ Hcd) as (-> & D & V & H). exists n, sc, st1, D, V. auto.
  Qed.

  (* a file and what it imports, compiled and used *)
  Theorem project_reads file d : tame E -> tidy E -> sound E F file d -> forall st, exists n sc st1 D,
    (forall depth fuel, (n <= depth)%nat -> (n <= fuel)%nat ->
       compile_file depth fuel E F false file st = Ret (ScriptOk (compiled_script file sc d) sc) st1) /\
    told E F D (next_sid st) (next_sid st1) file d sc /\ (forall x, D (next_sid st1) x = None) /\
    forall Q label x D', ascii_only (p_src Q) -> slen (p_src Q) < isize_bound ->
      enters_entry (p_src Q) D (next_sid st1) (Whole (s_name file d) sc (s_patterns d)) (p_src Q) x D' ->
      exists t st2, Tokenizes E Q (fst (context_new Q label st1)) (compiled_script file sc d) (snd (context_new Q label st1)) t st2 /\
        results (p_src Q) st2 x t.
  Proof.
    intros HE HT Hs st. destruct (project_kept file d HE HT Hs st) as (n & sc & st1 & D & V & Hc & Ht & Hsp & Hsc & _).
    exists n, sc, st1, D. split; [exact Hc|]. split; [exact Ht|]. split; [intros x; apply (proj2 (proj2 Hsp)); lia|].
    intros Q label x D' Qa Qs Hx.
    destruct (entry_results E Q (fun s => V s \/ s = next_sid st1) HE Qa Qs D (next_sid st1) (Whole (s_name file d) sc (s_patterns d)) x D' HT Hx)
      with (c := fst (context_new Q label st1)) (st := snd (context_new Q label st1)) as (t & st2 & H1 & _ & H2).
    - now left.
    - now right.
    - reflexivity.
    - reflexivity.
    - reflexivity.
    - eapply context_kept; eauto.
    - exists t, st2. split; [exact H1|exact H2].
  Qed.
End Book.
