(* Scripts that import each other without circles. *)
From Verif Require Import TokenizeProofs ScopeProofs TreeProofs CombProofs ImportProofs.
From Verif Require Import SpecScript SpecMore CompileProofs ScriptProofs SpecSyntax.
Open Scope string_scope.
Open Scope list_scope.
Open Scope N_scope.

Lemma grown_refl st : grown st st.
Proof. exists [], []. now rewrite !app_nil_r. Qed.
Lemma grown_trans st st1 st2 : grown st st1 -> grown st1 st2 -> grown st st2.
Proof.
  intros (h & s & H1 & H2) (h' & s' & H3 & H4). exists (h ++ h'), (s ++ s').
  rewrite H3, H1, H4, H2, <- !app_assoc. auto.
Qed.
Lemma grown_new st : grown st (sc_new st).
Proof. exists [], [[]]. unfold sc_new. cbn. now rewrite app_nil_r. Qed.
Lemma grown_sid st st' : grown st st' -> (next_sid st <= next_sid st')%nat.
Proof. intros (h & s & _ & H). unfold next_sid. rewrite H, app_length. lia. Qed.
Lemma grown_stack st st' s : grown st st' -> valid_scope st s -> valid_scope st' s /\ stack_of st' s = stack_of st s.
Proof.
  intros (h & l & _ & H) V. unfold valid_scope, stack_of in *. rewrite H, app_length. split; [lia|]. now rewrite app_nth1.
Qed.
Lemma upd_app {A} (l1 l2 : list A) n v : (List.length l1 <= n)%nat -> exists l, upd n v (l1 ++ l2) = l1 ++ l.
Proof.
  revert n. induction l1 as [|x l1 IH]; intros n H; [cbn; eauto|].
  destruct n as [|n]; [cbn in H; lia|]. cbn in *. destruct (IH n ltac:(lia)) as [l Hl]. exists l. now rewrite Hl.
Qed.
Lemma grown_set st st' sc n v : grown st st' -> (next_sid st <= sc)%nat -> grown st (sc_set st' sc n v).
Proof.
  intros (h & s & H1 & H2) Hn. unfold sc_set, set_stack. unfold grown. cbn [st_heap st_scopes]. rewrite H1, H2.
  destruct (upd_app (st_scopes st) s sc (stack_set (stack_of st' sc) n v) Hn) as [l Hl]. exists h, l. auto.
Qed.

Lemma Forall2_weaken {A B} (R S : A -> B -> Prop) l l' : (forall a b, R a b -> S a b) -> Forall2 R l l' -> Forall2 S l l'.
Proof. intros H. induction 1; constructor; auto. Qed.

(* ---------- one file ---------- *)

Lemma tokenizes_later E P c m st r st' n : tokenize n E P c m st = Ret r st' ->
  forall k, (n <= k)%nat -> tokenize k E P c m st = Ret r st'.
Proof.
  intros H k Hk. unfold tokenize in *. rewrite (exec_mono E P n k); auto.
  intros He. rewrite He in H. discriminate.
Qed.

Lemma compiles_in E P d name ff : tame E -> tidy E -> ascii_only (p_src P) -> slen (p_src P) < isize_bound ->
  script_text E d (p_src P) -> faultless (s_patterns d) -> forall st, exists st1 n, grown st st1 /\
    forall F comp fuel st', (n <= fuel)%nat ->
      all_stated F comp (next_sid st1) ff (s_statements d) (sc_new st1) st' ->
      compile_with fuel E F comp P name ff false st =
        Ret (ScriptOk (compiled_script name (next_sid st1) d) (next_sid st1)) st'.
Proof.
  intros HE HT Ha Hs Hd Hps st.
  set (F0 := mkFs (fun _ _ => None) (fun _ => None) (fun _ => None)). set (c0 := fun (_ : str) (_ : state) => @OOF script_res).
  destruct (script_parses E P F0 c0 name ff HE HT Ha Hs d empty_state Hd) as (r0 & st0 & H0 & _).
  destruct (script_parses E P F0 c0 name ff HE HT Ha Hs d st Hd) as (root & st1 & [n Hn] & Hname & _).
  assert (Hg : grown st st1).
  { destruct (parse_moved E P name name r0 st0 n st H0) as [H|H]; rewrite Hn in H; [discriminate|].
    injection H as _ ->. eexists _, _. split; reflexivity. }
  exists st1, n. split; [exact Hg|]. intros F comp fuel st' Hf Hall.
  destruct (script_parses E P F comp name ff HE HT Ha Hs d st Hd) as (root2 & st2 & Ht2 & Hn2 & Hsay & _).
  destruct (tokenizes_det _ _ _ _ _ _ _ _ _ (ex_intro _ n Hn) Ht2) as [E1 E2]. injection E1 as <-. subst st2.
  destruct (Hsay _ name _ _ Hall Hps) as (l & Hl & Hw).
  unfold compile_with. unfold script_ctx, script_start, script_ctx in Hn. destruct (context_new P name st) as [c s0] eqn:Hc. cbn [fst snd] in Hn.
  rewrite (tokenizes_later _ _ _ _ _ _ _ _ Hn fuel Hf).
  assert (Hb : build_matcher E P F comp root name ff st1 = Ret (ScriptOk (compiled_script name (next_sid st1) d) (next_sid st1)) st').
  { apply build_matcher_spec.
    - eapply (hoisted_tree E P); [exact HE|exact HT|]. exists n. exact Hn.
    - split; [exact Hname|]. split; [reflexivity|]. exists l, (s_name name d), (map meaning (s_patterns d)). auto. }
  rewrite Hb. reflexivity.
Qed.

(* ---------- scopes that stay ---------- *)

Definition stay (lo : sid) (st st' : state) : Prop :=
  forall s, (lo <= s)%nat -> valid_scope st s -> valid_scope st' s /\ stack_of st' s = stack_of st s.
Lemma stay_get lo st st' s x : stay lo st st' -> (lo <= s)%nat -> valid_scope st s -> sc_get st' s x = sc_get st s x.
Proof. intros H Hl V. unfold sc_get. destruct (H s Hl V) as [_ ->]. reflexivity. Qed.

Section Project.
  Variables (E : env) (F : fs).
  Notation compiled := (compiled E F).
  Notation binds := (binds E F).

  Lemma compiled_scope st lo hi file d m sc : compiled st lo hi file d m sc -> (lo <= sc < hi)%nat /\ valid_scope st sc.
  Proof. intros H. inversion H; subst. auto. Qed.
  Lemma stay_up lo lo' st st' : stay lo st st' -> (lo <= lo')%nat -> stay lo' st st'.
  Proof. intros H Hl s Hs. apply H. lia. Qed.
  Lemma import_binds_stay lo st st' root isc n b : stay lo st st' -> (lo <= isc)%nat -> valid_scope st isc ->
    import_binds st root isc n b -> import_binds st' root isc n b.
  Proof.
    intros Hs Hl V [H1 [H2|(H2 & m & H3 & H4)]]; (split; [exact H1|]); [now left|]. right. split; [exact H2|].
    exists m. split; [|exact H4]. now rewrite (stay_get lo st).
  Qed.
  Lemma compiled_stay st st' :
    (forall lo hi file d m sc, compiled st lo hi file d m sc -> stay lo st st' -> compiled st' lo hi file d m sc) /\
    (forall lo hi full l bs, binds st lo hi full l bs -> stay lo st st' -> binds st' lo hi full l bs).
  Proof.
    apply compiled_mutind.
    - intros lo hi file full d sc bs Hc Hfl Hl V _ IH Hg Hs. econstructor; eauto.
      + apply Hs; [lia|exact V].
      + apply IH. eapply stay_up; [exact Hs|lia].
      + intros x. rewrite <- Hg. apply (stay_get lo); [exact Hs|lia|exact V].
    - intros. now constructor.
    - intros. econstructor; eauto.
    - intros lo mid hi full names path file d root isc l nbs bs Hj Hc IHc Hn Hb IHb Hs.
      destruct (compiled_scope _ _ _ _ _ _ _ Hc) as [Hl V]. econstructor; eauto.
      + eapply Forall2_weaken; [|exact Hn]. intros n b. apply import_binds_stay with (lo := lo); [exact Hs|lia|exact V].
      + apply IHb. eapply stay_up; [exact Hs|lia].
  Qed.

  (* ---------- names ---------- *)

  Lemma last_of_app {A} x (l l' : list (str * A)) :
    last_of x (l ++ l') = match last_of x l' with Some m => Some m | None => last_of x l end.
  Proof.
    induction l as [|[y v] l IH]; cbn [app last_of]; [now destruct (last_of x l')|]. rewrite IH. now destruct (last_of x l').
  Qed.
  Lemma last_of_in {A} x (l : list (str * A)) : In x (map fst l) -> exists m, last_of x l = Some m.
  Proof.
    induction l as [|[y v] l IH]; intros H; [contradiction|]. cbn [last_of]. destruct (last_of x l) as [m|] eqn:Hm; [eauto|].
    destruct H as [H|H]; [|destruct (IH H); congruence]. cbn in H. subst y. rewrite str_eqb_refl. eauto.
  Qed.
  Lemma binds_names st lo hi full l bs : binds st lo hi full l bs -> map fst bs = flat_map names_of l.
  Proof.
    induction 1 as [lo hi full _|lo hi full d x m l bs Hd _ _ IH|lo mid hi full names path file d root isc l nbs bs Hj Hc Hn _ IH]; [reflexivity| |].
    - cbn. rewrite IH. destruct d; cbn in Hd; try discriminate; injection Hd as <- <-; reflexivity.
    - cbn [flat_map names_of]. rewrite map_app, IH. f_equal. clear IH Hc.
      induction Hn as [|n b ns bs' [Hb _] _ IH]; [reflexivity|]. cbn. now rewrite Hb, IH.
  Qed.

  (* ---------- importing ---------- *)

  Lemma imports_all sc root isc (d : script) : forall names st, valid_scope st sc -> valid_scope st isc -> sc <> isc ->
    (forall x, In x (given_names d) -> exists m, sc_get st isc x = Some (VMatcher m)) ->
    Forall (can_import d) names ->
    exists st' nbs, imports sc root isc names st st' /\ Forall2 (import_binds st root isc) names nbs /\
      (forall x, sc_get st' sc x = match last_of x nbs with Some m => Some (VMatcher m) | None => sc_get st sc x end) /\
      st_heap st' = st_heap st /\ next_sid st' = next_sid st /\
      (forall lo, (sc < lo)%nat -> stay lo st st') /\ forall st0, grown st0 st -> (next_sid st0 <= sc)%nat -> grown st0 st'.
  Proof.
    induction names as [|[x y] names IH]; intros st V Vi Hne Hex Hall.
    - exists st, []. split; [constructor|]. split; [constructor|]. repeat split; auto.
    - inversion Hall as [|n l Hn Hl]; subst.
      assert (Hb : exists m, import_binds st root isc (x, y) (y, m) /\
        forall st', imports sc root isc names (sc_set st sc y (VMatcher m)) st' -> imports sc root isc ((x, y) :: names) st st').
      { destruct Hn as [[H1 H2]|[H1 H2]]; cbn [fst snd] in *.
        - subst x. exists root. split; [split; [reflexivity|now left]|]. intros st' H. now apply im_root.
        - destruct (Hex x H2) as [m Hm]. exists (MSetScope (Some isc) (MMap m (MapRename y))). split.
          + split; [reflexivity|]. right. split; [exact H1|]. exists m. auto.
          + intros st' H. eapply im_definition; eauto. }
      destruct Hb as (m & Hb & Him).
      assert (Hget : forall z, sc_get (sc_set st sc y (VMatcher m)) isc z = sc_get st isc z).
      { intros z. apply get_set_other. left. exact Hne. }
      destruct (IH (sc_set st sc y (VMatcher m))) as (st' & nbs & H1 & H2 & H3 & H4 & H5 & H6 & H7).
      + now apply valid_set.
      + now apply valid_set.
      + exact Hne.
      + intros z Hz. rewrite Hget. now apply Hex.
      + exact Hl.
      + assert (Hst : forall lo, (sc < lo)%nat -> stay lo st (sc_set st sc y (VMatcher m))).
        { intros lo Hlo s Hs Vs. split; [now apply valid_set|]. unfold sc_set. apply stack_set_other. lia. }
        exists st', ((y, m) :: nbs). split; [now apply Him|]. split.
        { constructor; [exact Hb|]. eapply Forall2_weaken; [|exact H2]. intros n b [B1 B2]. split; [exact B1|].
          destruct B2 as [B2|(B2 & m0 & B3 & B4)]; [now left|right]. split; [exact B2|]. exists m0. rewrite <- Hget. auto. }
        split.
        { intros z. rewrite H3. cbn [last_of]. destruct (last_of z nbs); [reflexivity|].
          destruct (str_eqb y z) eqn:He.
          - apply str_eqb_eq in He. subst z. now apply get_set_same.
          - apply get_set_other. right. intros ->. now rewrite str_eqb_refl in He. }
        split; [rewrite H4; reflexivity|]. split; [rewrite H5; unfold next_sid, sc_set, set_stack; cbn; apply upd_length|]. split.
        * intros lo Hlo s Hs Vs. destruct (Hst lo Hlo s Hs Vs) as [V1 S1]. destruct (H6 lo Hlo s Hs V1) as [V2 S2]. split; congruence || auto. 
        * intros st0 Hg Hlo. apply H7; [now apply grown_set|exact Hlo].
  Qed.

  Hypothesis HE : tame E.
  Hypothesis HT : tidy E.
  (* whatever compiles files like compile_file when all goes well *)
  Variable comp : nat -> nat -> str -> state -> res script_res.
  Hypothesis Hcomp : forall file full src d depth fuel st m sc st', fs_canon F file = Some full -> fs_read F full = Some src ->
    ascii_only src -> slen src < isize_bound -> script_text E d src ->
    compile_with fuel E F (comp depth fuel) (parser_named src full) file (Some full) false st = Ret (ScriptOk m sc) st' ->
    comp (S depth) fuel file st = Ret (ScriptOk m sc) st'.

  Definition makes (file : str) (d : script) : Prop := forall st, exists n m sc st',
    (forall depth fuel, (n <= depth)%nat -> (n <= fuel)%nat -> comp depth fuel file st = Ret (ScriptOk m sc) st') /\
    compiled st' (next_sid st) (next_sid st') file d m sc /\ grown st st'.
  (* [sc]: the definitions of the importing file *)
  Definition states (full : str) (l : list statement) : Prop := forall sc st, valid_scope st sc ->
    exists n st' bs,
      (forall depth fuel, (n <= depth)%nat -> (n <= fuel)%nat ->
         all_stated F (comp depth fuel) sc (Some full) l st st') /\
      binds st' (next_sid st) (next_sid st') full l bs /\ valid_scope st' sc /\
      (forall x, sc_get st' sc x = match last_of x bs with Some m => Some (VMatcher m) | None => sc_get st sc x end) /\
      (forall lo, (sc < lo)%nat -> stay lo st st') /\
      (forall st0, grown st0 st -> (next_sid st0 <= sc)%nat -> grown st0 st').

  Lemma project_made_by :
    (forall file d, sound E F file d -> makes file d) /\
    (forall full l, sound_statements E F full l -> states full l).
  Proof.
    apply sound_mutind.
    - intros file full d Hc _ IH Hps st. pose proof Hc as (src & H1 & H2 & H3 & H4 & H5).
      destruct (compiles_in E (parser_named src full) d file (Some full) HE HT H3 H4 H5 Hps st) as (st1 & n1 & Hg & Hcp).
      assert (V : valid_scope (sc_new st1) (next_sid st1)).
      { unfold valid_scope, sc_new, next_sid. cbn. rewrite app_length. cbn. lia. }
      destruct (IH (next_sid st1) (sc_new st1) V) as (n2 & st' & bs & Hall & Hb & V' & Hget & _ & Hgrow).
      pose proof (grown_sid _ _ Hg) as Hsid.
      exists (S (Nat.max n1 n2)), (compiled_script file (next_sid st1) d), (next_sid st1), st'. split; [|split].
      + intros depth fuel Hd Hf. destruct depth as [|depth]; [lia|]. eapply Hcomp; eauto.
        apply Hcp; [lia|]. apply Hall; lia.
      + assert (Hlt : (next_sid st <= next_sid st1 < next_sid st')%nat) by (unfold valid_scope in V'; unfold next_sid in *; lia).
        apply (cp_file E F st' _ _ file full d (next_sid st1) bs); [exact Hc|exact Hps|exact Hlt|exact V'| |].
        * replace (S (next_sid st1)) with (next_sid (sc_new st1)); [exact Hb|]. unfold next_sid, sc_new. cbn. rewrite app_length. cbn. lia.
        * intros x. rewrite Hget. destruct (last_of x bs); [reflexivity|]. cbn [option_map].
          unfold sc_get, stack_of, sc_new, next_sid. cbn [st_scopes]. rewrite app_nth2, Nat.sub_diag by lia. reflexivity.
      + apply Hgrow; [|lia]. eapply grown_trans; [exact Hg|apply grown_new].
    - intros full sc st V. exists 0%nat, st, []. split; [intros; constructor|]. split; [now constructor|]. split; [exact V|].
      split; [reflexivity|]. split; [intros lo _ s _ Vs; auto|auto].
    - intros full d x m l Hd Hfd _ IH sc st V.
      destruct (IH sc (sc_set st sc x (VMatcher m))) as (n & st' & bs & Hall & Hb & V' & Hget & Hst & Hgrow); [now apply valid_set|].
      exists n, st', ((x, m) :: bs). split; [|split; [|split; [|split; [|split]]]].
      + intros depth fuel H1 H2. econstructor; [|now apply Hall].
        destruct d; cbn in Hd; try discriminate; injection Hd as <- <-; constructor. exact Hfd.
      + constructor; [exact Hd|exact Hfd|]. replace (next_sid st) with (next_sid (sc_set st sc x (VMatcher m))); [exact Hb|].
        unfold next_sid, sc_set, set_stack. cbn. apply upd_length.
      + exact V'.
      + intros z. rewrite Hget. cbn [last_of]. destruct (last_of z bs); [reflexivity|].
        destruct (str_eqb x z) eqn:He.
        * apply str_eqb_eq in He. subst z. now apply get_set_same.
        * apply get_set_other. right. intros ->. now rewrite str_eqb_refl in He.
      + intros lo Hlo s Hs Vs. destruct (Hst lo Hlo s Hs) as [V2 S2]; [now apply valid_set|]. split; [exact V2|].
        rewrite S2. unfold sc_set. apply stack_set_other. lia.
      + intros st0 Hg Hlo. apply Hgrow; [now apply grown_set|exact Hlo].
    - intros full names path file d l Hj _ IHf Hnames _ IH sc st V.
      destruct (IHf st) as (n1 & root & isc & st1 & Hcf & Hcd & Hg1).
      destruct (compiled_scope _ _ _ _ _ _ _ Hcd) as [Hlo Vi].
      assert (Hsc : (S sc <= isc)%nat) by (unfold valid_scope in V; unfold next_sid in Hlo; lia).
      destruct (grown_stack _ _ sc Hg1 V) as [V1 Sk1].
      assert (Hex : forall x, In x (given_names d) -> exists m, sc_get st1 isc x = Some (VMatcher m)).
      { intros x Hx. inversion Hcd as [lo0 hi0 file0 full0 d0 sc0 bs0 K1 K0 K2 K3 K4 K5]; subst. rewrite K5.
        unfold given_names in Hx. rewrite <- (binds_names _ _ _ _ _ _ K4) in Hx. destruct (last_of_in _ _ Hx) as [m Hm].
        exists m. now rewrite Hm. }
      destruct (imports_all sc (m_set_name (root_alias names (m_name root)) root) isc d names st1 V1 Vi ltac:(lia) Hex Hnames)
        as (st2 & nbs & I1 & I2 & I3 & I4 & I5 & I6 & I7).
      assert (V2 : valid_scope st2 sc) by (unfold valid_scope, next_sid in *; lia).
      destruct (IH sc st2 V2) as (n2 & st' & bs & Hall & Hb & V' & Hget & Hst & Hgrow).
      assert (Hstay : stay (S sc) st1 st').
      { intros s Hs Vs. destruct (I6 (S sc) ltac:(lia) s Hs Vs) as [W1 W2]. destruct (Hst (S sc) ltac:(lia) s Hs W1) as [W3 W4].
        split; [exact W3|congruence]. }
      exists (Nat.max n1 n2), st', (nbs ++ bs). split; [|split; [|split; [|split; [|split]]]].
      + intros depth fuel H1 H2. econstructor; [|apply Hall; lia].
        eapply sd_import; [reflexivity|exact Hj|apply Hcf; lia|exact I1].
      + apply (bi_import E F st' _ (next_sid st1) _ full names path file d root isc l nbs bs); [exact Hj| | |rewrite <- I5; exact Hb].
        * apply (proj1 (compiled_stay st1 st') _ _ _ _ _ _ Hcd). eapply stay_up; [exact Hstay|].
          unfold valid_scope in V. unfold next_sid. lia.
        * eapply Forall2_weaken; [|exact I2]. intros nm b. now apply import_binds_stay with (lo := S sc).
      + exact V'.
      + intros x. rewrite Hget, last_of_app. destruct (last_of x bs); [reflexivity|]. rewrite I3.
        destruct (last_of x nbs); [reflexivity|]. unfold sc_get. now rewrite Sk1.
      + intros lo Hl s Hs Vs. destruct (grown_stack _ _ s Hg1 Vs) as [W1 W2].
        destruct (Hstay s ltac:(lia) W1) as [W3 W4]. split; [exact W3|congruence].
      + intros st0 Hg0 Hl0. apply Hgrow; [|exact Hl0]. apply I7; [|exact Hl0]. eapply grown_trans; eauto.
  Qed.
End Project.

Lemma project_made E F : tame E -> tidy E ->
  (forall file d, sound E F file d -> makes E F (fun depth fuel => compile_file depth fuel E F false) file d) /\
  (forall full l, sound_statements E F full l -> states E F (fun depth fuel => compile_file depth fuel E F false) full l).
Proof.
  intros HE HT. apply project_made_by; auto. intros file full src d depth fuel st m sc st' H1 H2 _ _ _ H.
  cbn [compile_file]. now rewrite H1, H2.
Qed.
Theorem project_compiles E F file d : tame E -> tidy E -> sound E F file d -> forall st, exists n m sc st',
  (forall depth fuel, (n <= depth)%nat -> (n <= fuel)%nat -> compile_file depth fuel E F false file st = Ret (ScriptOk m sc) st') /\
  compiled E F st' (next_sid st) (next_sid st') file d m sc /\ grown st st'.
Proof. intros H1 H2 H3. exact (proj1 (project_made E F H1 H2) file d H3). Qed.
