(* Steady scripts make something of every text. *)
From Verif Require Import AtomProofs SeesProofs MatchProofs ReadProofs Spec SpecScript SpecSyntax SpecMatch SpecSteady.
Open Scope string_scope.
Open Scope list_scope.
Open Scope N_scope.
Local Transparent slen.

(* ---------- delimited sequences ---------- *)

Lemma scans_text ep esc text raw v : scans ep esc text raw v -> exists r, text = raw ++ ep ++ r.
Proof.
  induction 1 as [t|x t raw v _ _ _ [r ->]|x t raw v _ _ _ [r ->]]; [now exists t| |].
  - exists r. now rewrite <- app_assoc.
  - now exists r.
Qed.
Lemma prefix_dec p t : has_prefix p t \/ ~ has_prefix p t.
Proof. rewrite <- has_prefix_iff. destruct (starts_with p t); [now left|now right]. Qed.
Lemma scans_dec ep esc : ep <> [] -> forall n text, (List.length text <= n)%nat ->
  (exists raw v, scans ep esc text raw v) \/ forall raw v, ~ scans ep esc text raw v.
Proof.
  intros Hep. induction n as [|n IH]; intros text Hn.
  - destruct text; [|cbn in Hn; lia]. right. intros raw v H. inversion H as [t Ht|x t ra va _ He _ Ht|]; subst.
    + now apply app_eq_nil in Ht as [-> _].
    + now apply app_eq_nil in Ht as [_ Ht].
  - destruct (prefix_dec ep text) as [[t ->]|Hno]; [left; eexists _, _; constructor|].
    assert (Hesc : (esc <> [] /\ has_prefix esc text) \/ (esc <> [] -> ~ has_prefix esc text)).
    { destruct esc as [|e esc]; [right; congruence|]. destruct (prefix_dec (e :: esc) text); [left|right]; auto. split; [discriminate|assumption]. }
    destruct Hesc as [[He [u ->]]|He].
    + destruct u as [|x u].
      * right. intros raw v H. inversion H as [t Ht|x t ra va _ _ _ Ht|x t ra va _ Hx _ Ht]; subst.
        -- apply Hno. now exists t.
        -- apply app_inv_head in Ht. discriminate.
        -- apply Hx; [exact He|]. rewrite Ht. now exists [].
      * destruct (IH u) as [(raw & v & H)|H].
        -- rewrite app_length in Hn. cbn [List.length] in Hn. destruct esc; [congruence|]. cbn in Hn. lia.
        -- left. eexists _, _. apply scan_escape; eauto.
        -- right. intros raw v K. inversion K as [t Ht|y t ra va _ _ Kt Ht|y t ra va _ Hx _ Ht]; subst.
           ++ apply Hno. now exists t.
           ++ apply app_inv_head in Ht. injection Ht as <- <-. exact (H _ _ Kt).
           ++ apply Hx; [exact He|]. rewrite Ht. now exists (x :: u).
    + destruct text as [|x t].
      * right. intros raw v H. inversion H as [t Ht|x t ra va _ _ _ Ht|]; subst.
        -- now apply app_eq_nil in Ht as [-> _].
        -- now apply app_eq_nil in Ht as [_ Ht].
      * destruct (IH t) as [(raw & v & H)|H]; [cbn in Hn; lia| |].
        -- left. eexists _, _. apply scan_byte; eauto.
        -- right. intros raw v K. inversion K as [u Ht|y u ra va _ Hne _ Ht|y u ra va _ _ Kt Ht]; subst.
           ++ apply Hno. now exists u.
           ++ apply (He Hne). now exists (y :: u).
           ++ exact (H _ _ Kt).
Qed.

(* ---------- outcomes ---------- *)

Definition shrinks (w : str) (x : reading) : Prop :=
  match x with
  | Took _ r => (List.length r < List.length w)%nat
  | Passed r => r = w \/ (List.length r < List.length w)%nat
  | _ => True
  end.
Lemma shrinks_under o w x : shrinks w x -> shrinks w (under o w x).
Proof. destruct o, x; cbn; auto. destruct (_ =? _); cbn; auto. Qed.
Lemma shrinks_labelled l w x : shrinks w x -> shrinks w (labelled l x).
Proof. now destruct x as [[] r| | |]. Qed.
Lemma shrinks_renamed n w x : shrinks w x -> shrinks w (renamed_as n x).
Proof. now destruct x as [[] r| | |]. Qed.
Lemma shrinks_dropped w x : shrinks w x -> shrinks w (dropped x).
Proof. destruct x; cbn; auto. Qed.
Lemma passed_labelled l w x : x <> Passed w -> labelled l x <> Passed w.
Proof. now destruct x as [[] r| | |]. Qed.
Lemma passed_renamed n w x : x <> Passed w -> renamed_as n x <> Passed w.
Proof. now destruct x as [[] r| | |]. Qed.
Lemma passed_dropped w x : shrinks w x -> x <> Passed w -> dropped x <> Passed w.
Proof. destruct x as [n r|r| |]; cbn; try congruence. intros H _ K. injection K as ->. lia. Qed.
Lemma length_slen (a b : str) : (List.length a < List.length b)%nat <-> slen a < slen b.
Proof. unfold slen. lia. Qed.

Section Total.
  Variables (source : str) (V : sid -> Prop) (rank : sid -> str -> nat) (firm : sid -> str -> bool).

  Fixpoint good (s : sid) (e : entry) (n : nat) : Prop :=
    match e with
    | Own name o i k l r => steady_core (rank s) (firm s) (Some n) k /\ (is_given name = true -> notable (rank s) (firm s) name k)
    | Renamed s1 e _ => V s1 /\ good s1 e n
    | Whole name s1 ps => V s1 /\ steady_all (rank s1) (firm s1) (Some n) ps /\
        (V s -> steady_all (rank s1) (firm s1) (Some (rank s name)) ps)
    end.
  Fixpoint firm_entry (s : sid) (e : entry) : Prop :=
    match e with
    | Own _ o i k _ r => firm_layers (firm s) o i k r
    | Renamed s1 e _ => firm_entry s1 e
    | Whole _ _ _ => True
    end.
  Definition ranked (D : book) : Prop := forall s x e, V s -> D s x = Some e -> good s e (rank s x) /\ (firm s x = true -> firm_entry s e).

  Lemma ranked_put D s x e : ranked D -> (V s -> good s e (rank s x) /\ (firm s x = true -> firm_entry s e)) -> ranked (put D s x e).
  Proof.
    intros H He s' y e' Hs Hp. unfold put in Hp. destruct (Nat.eqb_spec s s') as [<-|_]; cbn [andb] in Hp; [|eauto].
    destruct (str_eqb x y) eqn:Exy; [|eauto]. apply str_eqb_eq in Exy as <-. injection Hp as <-. auto.
  Qed.
  Lemma own_is_given d name : own_name d name = true -> is_given name = true.
  Proof. unfold own_name. now destruct (is_given name). Qed.
  Lemma ranked_noted D s name k : ranked D -> (is_given name = true -> notable (rank s) (firm s) name k) -> ranked (noted D s name k).
  Proof.
    intros H Hn.
    assert (G : is_given name = true -> ranked (put D s name (Own name Unsigned Unsigned k [] Once))).
    { intros Hg. apply ranked_put; [exact H|]. intros _. specialize (Hn Hg). inversion Hn as [x k0 Hc Hf]; subst. split.
      - split; [exact Hc|]. intros _. exact Hn.
      - intros Hfirm. split; [reflexivity|]. split; [reflexivity|]. auto. }
    unfold noted. destruct k; (match goal with |- ranked (if ?b then _ else _) => destruct b eqn:Eb end); auto; apply G; eauto using own_is_given.
  Qed.

  Definition pat_ends (W : nat) (s : sid) (p : pat) : Prop := forall D w, List.length w = W -> ranked D ->
    exists x D', reads source D s p w x D' /\ ranked D' /\ shrinks w x /\ (firm_pat (firm s) p -> x <> Passed w).
  Definition core_ends (W : nat) (s : sid) (name : str) (k : core pat) : Prop := forall D w, List.length w = W -> ranked D ->
    exists x D', reads_core source D s name k w x D' /\ ranked D' /\ shrinks w x /\ (firm_core (firm s) k -> x <> Passed w).
  Definition each_ends (W : nat) (s : sid) (ps : list pat) : Prop := forall D w, List.length w = W -> ranked D ->
    exists x D', tries source D s ps w x D' /\ ranked D' /\ shrinks w x /\ x <> Passed w.
  Definition all_ends (W : nat) (s : sid) (ps : list pat) : Prop := forall D name w0 kids w, List.length w = W -> ranked D ->
    (List.length w <= List.length w0)%nat -> (kids <> [] -> (List.length w < List.length w0)%nat) ->
    exists x D', walks source D s name ps w0 kids w x D' /\ ranked D' /\ shrinks w0 x /\ x <> Passed w0.
  Definition entry_ends (W : nat) (s : sid) (e : entry) : Prop := forall D w, List.length w = W -> ranked D ->
    exists x D', enters_entry source D s e w x D' /\ ranked D' /\ shrinks w x /\ (firm_entry s e -> x <> Passed w).

  Definition level_ends (W : nat) (level : option nat) : Prop := forall s, V s ->
    (forall p, steady (rank s) (firm s) level p -> pat_ends W s p) /\
    (forall k, steady_core (rank s) (firm s) level k -> forall name, (is_given name = true -> notable (rank s) (firm s) name k) -> core_ends W s name k) /\
    (forall ps, steady_each (rank s) (firm s) level ps -> each_ends W s ps) /\
    (forall ps, steady_all (rank s) (firm s) level ps -> all_ends W s ps).

  Lemma gathered_shrinks name w0 kids w : (kids <> [] -> (List.length w < List.length w0)%nat) -> shrinks w0 (gathered source name w0 kids w).
  Proof. destruct kids; cbn; [auto|]. intros H. apply H. discriminate. Qed.
  Lemma gathered_not_passed name w0 kids w r : gathered source name w0 kids w <> Passed r.
  Proof. now destruct kids. Qed.

  (* ---------- repetitions and signs ---------- *)

  Lemma rounds_end W s name i k l lo : (forall W', (W' <= W)%nat -> core_ends W' s name k) ->
    forall left D w0 count kids w, List.length w0 = W -> (List.length w <= W)%nat -> ranked D ->
    (kids <> [] -> (List.length w < List.length w0)%nat) -> (count = 0 -> w = w0) ->
    exists x D', rounds source D s name i k l lo w0 left count kids w x D' /\ ranked D' /\ shrinks w0 x /\
      (0 < lo \/ 0 < left \/ 0 < count -> x <> Passed w0).
  Proof.
    intros Hcore left. induction left as [|left IH] using N.peano_ind; intros D w0 count kids w Hw0 Hw HD Hk Hc.
    - destruct (N.lt_ge_cases count lo) as [Hlt|Hge].
      + exists Missed, D. split; [now apply rn_short|]. split; [exact HD|]. split; [exact Logic.I|discriminate].
      + destruct (N.eq_0_gt_0_cases lo) as [-> |Hlo].
        * destruct (N.eq_0_gt_0_cases count) as [-> |Hcount].
          -- specialize (Hc eq_refl). subst w. destruct kids as [|n kids]; [|exfalso; specialize (Hk ltac:(discriminate)); lia].
             exists (Passed w0), D. split; [apply rn_none|]. split; [exact HD|]. split; [now left|]. intros [H|[H|H]]; lia.
          -- eexists _, D. split; [apply rn_full; auto|]. split; [exact HD|]. split; [now apply gathered_shrinks|]. intros _. apply gathered_not_passed.
        * eexists _, D. split; [apply rn_full; auto|]. split; [exact HD|]. split; [now apply gathered_shrinks|]. intros _. apply gathered_not_passed.
    - destruct (Hcore (List.length w) Hw D w eq_refl HD) as (x & D1 & Hx & HD1 & Hs & _).
      apply (shrinks_labelled l), (shrinks_under i) in Hs.
      assert (Hpos : 0 < N.succ left) by lia. assert (Hpred : N.succ left - 1 = left) by lia.
      destruct (under i w (labelled l x)) as [n r|r| |id] eqn:Hu; cbn [shrinks] in Hs.
      + destruct (IH D1 w0 (count + 1) (kids ++ [n]) r Hw0) as (y & D' & H1 & H2 & H3 & H4); [lia|exact HD1|intros _; lia|lia|].
        exists y, D'. split; [|split; [exact H2|split; [exact H3|intros _; apply H4; lia]]].
        eapply rn_took; [exact Hpos|exact Hx|exact Hu|]. rewrite Hpred. exact H1.
      + assert (Hr : (List.length r <= List.length w)%nat) by (destruct Hs as [-> |]; lia).
        destruct (IH D1 w0 (count + 1) kids r Hw0) as (y & D' & H1 & H2 & H3 & H4); [lia|exact HD1|intros K; specialize (Hk K); lia|lia|].
        exists y, D'. split; [|split; [exact H2|split; [exact H3|intros _; apply H4; lia]]].
        eapply rn_passed; [exact Hpos|exact Hx|exact Hu|]. rewrite Hpred. exact H1.
      + eexists _, D1. split; [eapply rn_end; eauto|]. split; [exact HD1|]. split; [now apply gathered_shrinks|]. intros _. apply gathered_not_passed.
      + exists (Unknown id), D1. split; [eapply rn_unknown; eauto|]. split; [exact HD1|]. split; [exact Logic.I|discriminate].
  Qed.
  Lemma layers_end W s name o i k l r : (forall W', (W' <= W)%nat -> core_ends W' s name k) ->
    forall D w, List.length w = W -> ranked D ->
    exists x D', layers source D s name o i k l r w x D' /\ ranked D' /\ shrinks w x /\ (firm_layers (firm s) o i k r -> x <> Passed w).
  Proof.
    intros Hcore D w Hw HD. destruct (bounds r) as [[lo hi]|] eqn:Hb.
    - destruct (rounds_end W s name i k l lo Hcore (hi - lo) D w 0 [] w Hw) as (x & D' & H1 & H2 & H3 & H4); [lia|exact HD|congruence|reflexivity|].
      exists (under o w x), D'. split; [eapply ly_repeated; eauto|]. split; [exact H2|]. split; [now apply shrinks_under|].
      intros [-> Hf]. rewrite Hb in Hf. apply H4. lia.
    - assert (r = Once) as -> by (destruct r; cbn in Hb; congruence).
      destruct (Hcore W (le_n _) D w Hw HD) as (x & D' & H1 & H2 & H3 & H4).
      exists (under o w (under i w (labelled l x))), D'. split; [now apply ly_once|]. split; [exact H2|].
      split; [now apply shrinks_under, shrinks_under, shrinks_labelled|].
      intros [-> [-> Hf]]. apply passed_labelled. auto.
  Qed.

  (* ---------- patterns ---------- *)

  Section Step.
    Variables (W : nat).
    Hypothesis Small : forall W', (W' < W)%nat -> forall level, level_ends W' level.

    Lemma level_step level : (forall s e n, V s -> below level n -> good s e n -> entry_ends W s e) -> level_ends W level.
    Proof.
      intros HB s Hs.
      enough (G :
        (forall level' p, steady (rank s) (firm s) level' p -> level' = level -> pat_ends W s p) /\
        (forall level' k, steady_core (rank s) (firm s) level' k -> level' = level ->
           forall name, (is_given name = true -> notable (rank s) (firm s) name k) -> core_ends W s name k) /\
        (forall level' ps, steady_each (rank s) (firm s) level' ps -> level' = level -> each_ends W s ps) /\
        (forall level' ps, steady_all (rank s) (firm s) level' ps -> level' = level -> all_ends W s ps) /\
        (forall x k, notable (rank s) (firm s) x k -> True)).
      { destruct G as (G1 & G2 & G3 & G4 & _). split; [|split; [|split]]; intros; eauto. }
      apply steady_mutind; try (intros; exact Logic.I).
      - intros level' c o i k l r Hk IH Hc _ -> D w Hw HD.
        assert (Hnote : forall n, c = CapturedAs n -> is_given (capture_name c) = true -> notable (rank s) (firm s) (capture_name c) k).
        { intros n -> _. cbn [capture_name]. eauto. }
        assert (Hn : is_given (capture_name c) = true -> notable (rank s) (firm s) (capture_name c) k).
        { destruct c as [| |n]; [discriminate|discriminate|]. exact (Hnote n eq_refl). }
        assert (Hcore : forall W', (W' <= W)%nat -> core_ends W' s (capture_name c) k).
        { intros W' HW. destruct (Nat.eq_dec W' W) as [-> |Hne]; [now apply IH|]. apply (Small W' ltac:(lia) level s Hs); auto. }
        destruct (layers_end W s (capture_name c) o i k l r Hcore D w Hw HD) as (x & D' & H1 & H2 & H3 & H4).
        destruct c as [| |n].
        + exists (dropped x), D'. split; [now apply rd_plain|]. split; [exact H2|]. split; [now apply shrinks_dropped|].
          intros Hf. apply passed_dropped; auto.
        + exists x, D'. split; [apply rd_captured; [discriminate|exact H1]|]. auto.
        + exists x, D'. split; [apply rd_captured; [discriminate|exact H1]|]. auto.
      - intros level' v Hv _ name Hn D w Hw HD. destruct (prefix_dec v w) as [[r ->]|Hno].
        + eexists _, _. split; [now apply rc_text|]. split; [now apply ranked_noted|]. split; [|discriminate].
          cbn. rewrite app_length. destruct v; [congruence|]. cbn. lia.
        + eexists _, _. split; [now apply rc_text_not|]. split; [now apply ranked_noted|]. split; [exact Logic.I|discriminate].
      - intros level' a b x Ha Hb _ name Hn D w Hw HD.
        destruct (prefix_dec a w) as [[t ->]|Hno].
        + destruct (scans_dec b x Hb (List.length t) t (le_n _)) as [(raw & v & Hsc)|Hsc].
          * destruct (scans_text _ _ _ _ _ Hsc) as [r ->].
            eexists _, _. split; [apply rc_sequence; eauto|]. split; [now apply ranked_noted|]. split; [|discriminate].
            cbn. rewrite !app_length. destruct a; [congruence|]. cbn. lia.
          * eexists _, _. split; [apply rc_sequence_not; auto|]; [|split; [now apply ranked_noted|split; [exact Logic.I|discriminate]]].
            intros t' raw v Ht. apply app_inv_head in Ht as <-. apply Hsc.
        + eexists _, _. split; [apply rc_sequence_not; auto|]; [|split; [now apply ranked_noted|split; [exact Logic.I|discriminate]]].
          intros t raw v ->. exfalso. apply Hno. now exists t.
      - intros level' body flags f Hf _ name Hn D w Hw HD.
        assert (Hcase : (exists n, f w = Some (0, n)) \/ forall n, f w <> Some (0, n)).
        { destruct (f w) as [[lo n]|]; [|right; discriminate]. destruct (N.eq_dec lo 0) as [-> |Hne]; [left; eauto|right]. intros n' K. injection K as -> _. auto. }
        destruct Hcase as [[n Hm]|Hm].
        + pose proof (Hf w n Hm) as Hle. destruct (N.eq_dec n 0) as [-> |Hne].
          * eexists _, _. split; [now apply rc_regex_empty|]. split; [now apply ranked_noted|]. split; [now left|].
            intros Hfirm. exfalso. exact (Hfirm w Hm).
          * set (u := firstn (N.to_nat n) w). set (r := skipn (N.to_nat n) w).
            assert (Hur : w = u ++ r) by (symmetry; apply firstn_skipn).
            assert (Hu : slen u = n). { unfold u, slen in *. rewrite firstn_length. lia. }
            clearbody u r. subst w. eexists _, _. split; [apply rc_regex; [rewrite Hu; exact Hm|intros ->; apply Hne; rewrite <- Hu; reflexivity]|].
            split; [now apply ranked_noted|]. split; [|discriminate]. cbn. rewrite app_length. unfold slen in Hu. lia.
        + eexists _, _. split; [now apply rc_regex_not|]. split; [now apply ranked_noted|]. split; [exact Logic.I|discriminate].
      - intros level' id Hid -> name Hn D w Hw HD.
        pose proof (ranked_noted D s name (KName id) HD Hn) as HD1. destruct (noted D s name (KName id) s id) as [e|] eqn:He.
        + destruct (HD1 s id e Hs He) as [Hg Hfe]. destruct (HB s e (rank s id) Hs Hid Hg _ w Hw HD1) as (x & D' & H1 & H2 & H3 & H4).
          exists x, D'. split; [eapply rc_name; eauto|]. split; [exact H2|]. split; [exact H3|]. intros Hf. apply H4, Hfe, Hf.
        + eexists _, _. split; [now apply rc_unknown|]. split; [exact HD1|]. split; [exact Logic.I|discriminate].
      - intros level' ps _ IH -> name Hn D w Hw HD. destruct (IH eq_refl _ w Hw (ranked_noted D s name (KSwitch ps) HD Hn)) as (x & D' & H1 & H2 & H3 & H4).
        exists x, D'. split; [now apply rc_switch|]. auto.
      - intros level' ps _ IH -> name Hn D w Hw HD.
        destruct (IH eq_refl _ (given name "Program") w [] w Hw (ranked_noted D s name (KProgram ps) HD Hn)) as (x & D' & H1 & H2 & H3 & H4); [lia|congruence|].
        exists x, D'. split; [now apply rc_program|]. auto.
      - intros level' _ D w Hw HD. exists Missed, D. split; [constructor|]. split; [exact HD|]. split; [exact Logic.I|discriminate].
      - intros level' p ps _ IHp _ IH -> D w Hw HD. destruct (IHp eq_refl D w Hw HD) as (x & D1 & H1 & H2 & H3 & _).
        assert (Hdec : (x = Missed \/ x = Passed w) \/ (x <> Missed /\ x <> Passed w)).
        { destruct x as [n r|r| |id]; cbn [shrinks] in H3; try (right; split; discriminate); [|left; auto].
          destruct H3 as [-> |H3]; [left; auto|]. right. split; [discriminate|]. intros K. injection K as ->. lia. }
        destruct Hdec as [Hx|[Hx1 Hx2]].
        + destruct (IH eq_refl D1 w Hw H2) as (y & D' & K1 & K2 & K3 & K4). exists y, D'. split; [eapply tr_next; eauto|]. auto.
        + exists x, D1. split; [now apply tr_this|]. auto.
      - intros level' _ D name w0 kids w Hw HD _ Hk. eexists _, D. split; [constructor|]. split; [exact HD|].
        split; [now apply gathered_shrinks|apply gathered_not_passed].
      - intros level' p ps _ IHp Hps IH -> D name w0 kids w Hw HD Hle Hk. destruct (IHp eq_refl D w Hw HD) as (x & D1 & H1 & H2 & H3 & _).
        destruct x as [n r|r| |id]; cbn [shrinks] in H3.
        + destruct (proj2 (proj2 (proj2 (Small (List.length r) ltac:(lia) level s Hs))) ps Hps D1 name w0 (kids ++ [n]) r eq_refl H2) as (y & D' & K1 & K2 & K3 & K4); [lia|lia|].
          exists y, D'. split; [eapply wl_took; eauto|]. auto.
        + assert (Hgo : exists y D', walks source D1 s name ps w0 kids r y D' /\ ranked D' /\ shrinks w0 y /\ y <> Passed w0).
          { destruct H3 as [-> |H3].
            - now apply IH.
            - apply (proj2 (proj2 (proj2 (Small (List.length r) ltac:(lia) level s Hs))) ps Hps D1 name w0 kids r eq_refl H2); [lia|]. intros K. specialize (Hk K). lia. }
          destruct Hgo as (y & D' & K1 & K2 & K3 & K4). exists y, D'. split; [eapply wl_passed; eauto|]. auto.
        + exists Missed, D1. split; [now apply wl_missed|]. split; [exact H2|]. split; [exact Logic.I|discriminate].
        + exists (Unknown id), D1. split; [now apply wl_unknown|]. split; [exact H2|]. split; [exact Logic.I|discriminate].
      - intros level' p ps _ IHp Hfirm Hps _ -> D name w0 kids w Hw HD Hle Hk. destruct (IHp eq_refl D w Hw HD) as (x & D1 & H1 & H2 & H3 & H4).
        specialize (H4 Hfirm). destruct x as [n r|r| |id]; cbn [shrinks] in H3.
        + destruct (proj2 (proj2 (proj2 (Small (List.length r) ltac:(lia) None s Hs))) ps Hps D1 name w0 (kids ++ [n]) r eq_refl H2) as (y & D' & K1 & K2 & K3 & K4); [lia|lia|].
          exists y, D'. split; [eapply wl_took; eauto|]. auto.
        + destruct H3 as [-> |H3]; [congruence|].
          destruct (proj2 (proj2 (proj2 (Small (List.length r) ltac:(lia) None s Hs))) ps Hps D1 name w0 kids r eq_refl H2) as (y & D' & K1 & K2 & K3 & K4); [lia|intros K; specialize (Hk K); lia|].
          exists y, D'. split; [eapply wl_passed; eauto|]. auto.
        + exists Missed, D1. split; [now apply wl_missed|]. split; [exact H2|]. split; [exact Logic.I|discriminate].
        + exists (Unknown id), D1. split; [now apply wl_unknown|]. split; [exact H2|]. split; [exact Logic.I|discriminate].
    Qed.

    Lemma entry_step n : level_ends W (Some n) -> forall e s, V s -> good s e n -> entry_ends W s e.
    Proof.
      intros HL. induction e as [name o i k l r|s1 e IH name|name s1 ps]; intros s Hs Hg D w Hw HD; cbn [good] in Hg.
      - destruct Hg as [Hk Hn].
        assert (Hcore : forall W', (W' <= W)%nat -> core_ends W' s name k).
        { intros W' HW. destruct (Nat.eq_dec W' W) as [-> |Hne]; [|apply (Small W' ltac:(lia) (Some n) s Hs); auto]. apply (HL s Hs); auto. }
        destruct (layers_end W s name o i k l r Hcore D w Hw HD) as (x & D' & H1 & H2 & H3 & H4).
        exists x, D'. split; [now constructor|]. auto.
      - destruct Hg as [H1 Hg]. destruct (IH s1 H1 Hg D w Hw HD) as (x & D' & K1 & K2 & K3 & K4).
        exists (renamed_as name x), D'. split; [now constructor|]. split; [exact K2|]. split; [now apply shrinks_renamed|].
        intros Hf. apply passed_renamed. auto.
      - destruct Hg as (H1 & H2 & H3).
        assert (HD1 : ranked (put D s name (Whole name s1 ps))).
        { apply ranked_put; [exact HD|]. intros _. cbn [good firm_entry]. auto. }
        destruct (proj2 (proj2 (proj2 (HL s1 H1))) ps H2 _ name w [] w Hw HD1) as (x & D' & K1 & K2 & K3 & K4); [lia|congruence|].
        exists x, D'. split; [now constructor|]. auto.
    Qed.
  End Step.

  Theorem steady_ends W : forall level, level_ends W level.
  Proof.
    induction W as [W IHW] using (well_founded_induction Wf_nat.lt_wf).
    assert (Hn : forall n, level_ends W (Some n)).
    { induction n as [n IHn] using (well_founded_induction Wf_nat.lt_wf). apply level_step; [exact IHW|].
      intros s e m Hs Hm Hg. cbn [below] in Hm. apply (entry_step W IHW m (IHn m Hm) e s Hs Hg). }
    intros [n|]; [apply Hn|]. apply level_step; [exact IHW|]. intros s e m Hs _ Hg. exact (entry_step W IHW m (Hn m) e s Hs Hg).
  Qed.
End Total.

(* ---------- scripts ---------- *)

Lemma last_entry_in x ss e : last_entry x ss = Some e -> exists d, In d ss /\ own_entry d = Some (x, e).
Proof.
  induction ss as [|d ss IH]; [discriminate|]. cbn [last_entry]. destruct (last_entry x ss) as [e'|].
  - intros H. destruct (IH H) as (d' & H1 & H2). exists d'. split; [now right|exact H2].
  - destruct (own_entry d) as [[y e']|] eqn:Hd; [|discriminate]. destruct (str_eqb y x) eqn:Hy; [|discriminate].
    intros H. injection H as <-. apply str_eqb_eq in Hy as ->. exists d. split; [now left|exact Hd].
Qed.
Lemma own_book_ranked V rank firm sc d : Forall (steady_statement rank firm) (s_statements d) ->
  ranked V (fun _ => rank) (fun _ => firm) (own_book sc d).
Proof.
  intros Hall s x e Hs He. unfold own_book in He. destruct (Nat.eqb s sc); [|discriminate].
  apply last_entry_in in He as (st & Hin & He). rewrite Forall_forall in Hall. specialize (Hall st Hin).
  destruct st as [y whole|y o i k l r|]; cbn [own_entry] in He; [| |discriminate]; injection He as <- <-; cbn [steady_statement good firm_entry] in *.
  - destruct Hall as [H1 H2]. split; [split; [now constructor|discriminate]|]. intros Hf. split; [reflexivity|]. split; [reflexivity|]. cbn. auto.
  - destruct Hall as [H1 H2]. inversion H1; subst. auto.
Qed.
Lemma script_has_reading source d sc s0 name : s0 <> sc -> steady_script d ->
  exists x D', enters_entry source (own_book sc d) s0 (Whole name sc (s_patterns d)) source x D'.
Proof.
  intros Hne (rank & firm & Hall & Hps). set (V := fun s => s = sc).
  destruct (steady_ends source V (fun _ => rank) (fun _ => firm) (List.length source) None sc eq_refl) as (_ & _ & _ & Hw).
  destruct (Hw _ Hps (put (own_book sc d) s0 name (Whole name sc (s_patterns d))) name source [] source eq_refl) as (x & D' & H & _).
  - apply ranked_put; [now apply own_book_ranked|]. intros Hs. unfold V in Hs. congruence.
  - lia.
  - congruence.
  - exists x, D'. now constructor.
Qed.

(* a steady script, compiled, comes to an end with every text *)
Theorem script_ends E P F compile name ff : tame E -> tidy E -> scope_tame E ->
  ascii_only (p_src P) -> slen (p_src P) < isize_bound ->
  forall d st, script_text E d (p_src P) -> (forall ns path, ~ In (Import ns path) (s_statements d)) -> script_fault d = None ->
  steady_script d -> let sc := S (next_sid st) in
  exists fuel st1, compile_with fuel E F compile P name ff false st = Ret (ScriptOk (compiled_script name sc d) sc) st1 /\
    forall Q label, ascii_only (p_src Q) -> slen (p_src Q) < isize_bound ->
      exists x D' t st2, 
        enters_entry (p_src Q) (own_book sc d) (next_sid st1) (Whole (s_name name d) sc (s_patterns d)) (p_src Q) x D' /\
        Tokenizes E Q (fst (context_new Q label st1)) (compiled_script name sc d) (snd (context_new Q label st1)) t st2 /\
        results (p_src Q) st2 x t.
Proof.
  intros HE HT HS Ha Hsm d st Hd Hi Hf Hst. cbv zeta.
  destruct (script_reads E P F compile name ff HE HT HS Ha Hsm d st Hd Hi Hf) as (fuel & st1 & Hc & Hlt & Hread).
  exists fuel, st1. split; [exact Hc|]. intros Q label Qa Qs.
  destruct (script_has_reading (p_src Q) d (S (next_sid st)) (next_sid st1) (s_name name d)) as (x & D' & Hx); [lia|exact Hst|].
  destruct (Hread Q label x D' Qa Qs Hx) as (t & st2 & H1 & H2). eauto 8.
Qed.
