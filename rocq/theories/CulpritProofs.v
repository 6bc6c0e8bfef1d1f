(* Scripts that import each other, something being wrong with one of them. *)
From Verif Require Import TokenizeProofs ScopeProofs TreeProofs CombProofs ImportProofs.
From Verif Require Import SpecScript SpecMore CompileProofs ScriptProofs SpecSyntax ProjectProofs FaultProofs.
Open Scope string_scope.
Open Scope list_scope.
Open Scope N_scope.

Lemma refuses_in E P d name ff : tame E -> tidy E -> ascii_only (p_src P) -> slen (p_src P) < isize_bound ->
  script_text E d (p_src P) -> forall st, exists st1 n, grown st st1 /\
    forall F comp fuel b, (n <= fuel)%nat ->
      script_wrong F comp (next_sid st1) ff d (sc_new st1) b ->
      exists t, blames P b t /\ ends_in P t (compile_with fuel E F comp P name ff false st).
Proof.
  intros HE HT Ha Hs Hd st.
  set (F0 := mkFs (fun _ _ => None) (fun _ => None) (fun _ => None)). set (c0 := fun (_ : str) (_ : state) => @OOF script_res).
  destruct (script_parses E P F0 c0 name ff HE HT Ha Hs d empty_state Hd) as (r0 & st0 & H0 & _).
  destruct (script_parses E P F0 c0 name ff HE HT Ha Hs d st Hd) as (root & st1 & [n Hn] & Hname & _).
  assert (Hg : grown st st1).
  { destruct (parse_moved E P name name r0 st0 n st H0) as [H|H]; rewrite Hn in H; [discriminate|].
    injection H as _ ->. eexists _, _. split; reflexivity. }
  exists st1, n. split; [exact Hg|]. intros F comp fuel b Hf Hw.
  destruct (script_parses E P F comp name ff HE HT Ha Hs d st Hd) as (root2 & st2 & Ht2 & Hn2 & _ & Hsay & _).
  destruct (tokenizes_det _ _ _ _ _ _ _ _ _ (ex_intro _ n Hn) Ht2) as [E1 E2]. injection E1 as <-. subst st2.
  destruct (Hsay _ name _ _ Hw) as (l & t & Hl & Hb & Hfail).
  exists t. split; [exact Hb|]. eapply parsed_fails; eauto.
  - exact (tokenizes_later _ _ _ _ _ _ _ _ Hn fuel Hf).
  - eapply blame_placed; eauto.
Qed.

(* the fuel is that of the parse *)
Lemma compile_later E F compile P name ff st n r st' : compile_with n E F compile P name ff false st = Ret r st' ->
  forall k, (n <= k)%nat -> compile_with k E F compile P name ff false st = Ret r st'.
Proof.
  intros H k Hk. unfold compile_with in *. destruct (context_new P name st) as [c st0].
  destruct (tokenize n E P c (Script_ E) _) as [x sx|p|] eqn:Ht; try discriminate.
  now rewrite (tokenizes_later _ _ _ _ _ _ _ _ Ht k Hk).
Qed.
Lemma compile_parses E F compile P name ff st n r st' : compile_with n E F compile P name ff false st = Ret r st' ->
  exists x sx, tokenize n E P (script_ctx P name st) (Script_ E) (script_start E P name st) = Ret x sx.
Proof.
  unfold compile_with, script_start, script_ctx. destruct (context_new P name st) as [c st0]. cbn [fst snd].
  destruct (tokenize n E P c (Script_ E) _) as [x sx|p|] eqn:Ht; intros H; try discriminate; eauto.
Qed.
Lemma refused_always E F P name ff (Q : list parse_error -> Prop) st :
  (forall compile, exists fuel l st', Q l /\ compile_with fuel E F compile P name ff false st = Ret (ScriptErr l) st') ->
  exists n, forall compile fuel, (n <= fuel)%nat -> exists l st', Q l /\
    compile_with fuel E F compile P name ff false st = Ret (ScriptErr l) st'.
Proof.
  intros H. destruct (H (fun _ _ => @OOF script_res)) as (n & l & st' & _ & Hn).
  destruct (compile_parses _ _ _ _ _ _ _ _ _ _ Hn) as (x & sx & Hp).
  exists n. intros compile fuel Hf. destruct (H compile) as (k & l' & s' & HQ & Hk). exists l', s'. split; [exact HQ|].
  pose proof (compile_later _ _ _ _ _ _ _ _ _ _ Hk (Nat.max k fuel) ltac:(lia)) as Hm. rewrite <- Hm.
  unfold compile_with. unfold script_start, script_ctx in Hp. destruct (context_new P name st) as [c st0]. cbn [fst snd] in Hp.
  rewrite (tokenizes_later _ _ _ _ _ _ _ _ Hp fuel Hf), (tokenizes_later _ _ _ _ _ _ _ _ Hp (Nat.max k fuel)) by lia. reflexivity.
Qed.

Lemma names_later sc root isc file ns l s s1 b : imports sc root isc ns s s1 -> names_wrong sc root isc file l s1 b ->
  names_wrong sc root isc file (ns ++ l) s b.
Proof.
  intros H Hw. induction H as [s|y ids s s1 Hy _ IH|x y m ids s s1 Hx Hg _ IH]; [exact Hw| |].
  - cbn [app]. eapply nw_later; [|exact (IH Hw)]. apply im_root; [exact Hy|constructor].
  - cbn [app]. eapply nw_later; [|exact (IH Hw)]. eapply im_definition; [exact Hx|exact Hg|constructor].
Qed.

Lemma ends_inherited c inner out : ends_as c inner ->
  (forall l st, inner = Ret (ScriptErr l) st -> exists st', out = Ret (ScriptErr l) st') ->
  (forall p, inner = Pan p -> out = Pan p) -> ends_as c out.
Proof.
  intros H H1 H2. destruct c as [p|Q|P b]; cbn [ends_as] in *.
  - now apply H2.
  - destruct H as (l & st & HQ & H). destruct (H1 _ _ H) as [st' H']. eauto.
  - destruct H as (t & Hb & H). exists t. split; [exact Hb|]. destruct t as [msg place|l|p]; cbn [ends_in] in *.
    + destruct H as (text & st & H3 & H4). destruct (H1 _ _ H4) as [st' H5]. eauto.
    + destruct H as [st H]. eapply H1; eauto.
    + now apply H2.
Qed.
Lemma ends_either c out : ends_as c out -> (exists l st, out = Ret (ScriptErr l) st) \/ (exists p, out = Pan p).
Proof.
  destruct c as [p|Q|P b]; cbn [ends_as]; [eauto|intros (l & st & _ & H); eauto|].
  intros (t & _ & H). destruct t; cbn [ends_in] in H; [destruct H as (text & st & _ & H)|destruct H as [st H]|]; eauto.
Qed.

Section Culprit.
  Variables (E : env) (F : fs).
  Hypothesis HE : tame E.
  Hypothesis HT : tidy E.

  Definition stops (file : str) (c : cause) : Prop := forall st, exists n,
    forall depth fuel, (n <= depth)%nat -> (n <= fuel)%nat -> ends_as c (compile_file depth fuel E F false file st).
  Definition stops_in (src full : str) (l : list statement) (c : cause) : Prop := forall sc st, valid_scope st sc ->
    exists n, forall depth fuel, (n <= depth)%nat -> (n <= fuel)%nat ->
      exists b, statements_wrong F (compile_file depth fuel E F false) sc (Some full) l st b /\
        forall out t, blames (parser_named src full) b t -> ends_in (parser_named src full) t out -> ends_as c out.

  Lemma new_valid st : valid_scope (sc_new st) (next_sid st).
  Proof. unfold valid_scope, sc_new, next_sid. cbn. rewrite app_length. cbn. lia. Qed.

  Lemma culprit_stops :
    (forall file c, culprit E F file c -> stops file c) /\
    (forall src full l c, culprit_in E F src full l c -> stops_in src full l c).
  Proof.
    destruct (project_made E F HE HT) as [Hmade Hstates].
    apply culprit_mutind.
    - intros file H st. exists 1%nat. intros depth fuel Hd _. destruct depth as [|depth]; [lia|]. cbn [compile_file]. now rewrite H.
    - intros file full H1 H2 st. exists 1%nat. intros depth fuel Hd _. destruct depth as [|depth]; [lia|]. cbn [compile_file]. now rewrite H1, H2.
    - intros file full src Q (H1 & H2 & H) st.
      destruct (refused_always E F (parser_named src full) file (Some full) Q st (fun compile => H compile st)) as [n Hn]. exists (S n). intros depth fuel Hd Hf. destruct depth as [|depth]; [lia|]. cbn [compile_file].
      rewrite H1, H2. apply Hn. lia.
    - intros file full src d c (H1 & H2 & H3 & H4 & H5) _ IH st.
      destruct (refuses_in E (parser_named src full) d file (Some full) HE HT H3 H4 H5 st) as (st1 & n1 & Hg & Hr).
      destruct (IH (next_sid st1) (sc_new st1) (new_valid st1)) as (n2 & Hw).
      exists (S (Nat.max n1 n2)). intros depth fuel Hd Hf. destruct depth as [|depth]; [lia|]. cbn [compile_file]. rewrite H1, H2.
      destruct (Hw depth fuel ltac:(lia) ltac:(lia)) as (b & Hb & Hout).
      destruct (Hr F (compile_file depth fuel E F false) fuel b ltac:(lia) (xf_statement _ _ _ _ _ _ _ Hb)) as (t & T1 & T2). eapply Hout; eauto.
    - intros file full src d f (H1 & H2 & H3 & H4 & H5) Hs Hf st.
      destruct (refuses_in E (parser_named src full) d file (Some full) HE HT H3 H4 H5 st) as (st1 & n1 & Hg & Hr).
      destruct (Hstates _ _ Hs (next_sid st1) (sc_new st1) (new_valid st1)) as (n2 & st' & bs & Hall & _).
      exists (S (Nat.max n1 n2)). intros depth fuel Hd Hfu. destruct depth as [|depth]; [lia|]. cbn [compile_file]. rewrite H1, H2.
      destruct (Hr F (compile_file depth fuel E F false) fuel (Faulty f) ltac:(lia)) as (t & T1 & T2); [|exists t; auto].
      eapply xf_pattern; [|exact Hf]. apply Hall; lia.
    - intros src full d l f Hf sc st V. exists 0%nat. intros depth fuel _ _. exists (Faulty f). split; [apply sx_here; now apply sw_fault|].
      intros out t Hb He. exists t. auto.
    - intros src full names path l Hj sc st V. exists 0%nat. intros depth fuel _ _. exists (Broken PUnwrap). split; [apply sx_here; eapply sw_path; eauto|].
      intros out t Hb He. cbn [blames] in Hb. subst t. exact He.
    - intros src full names path file l c Hj _ IH sc st V. destruct (IH st) as [n Hn]. exists n. intros depth fuel Hd Hf.
      specialize (Hn depth fuel Hd Hf). destruct (ends_either _ _ Hn) as [(errs & st' & Ho)|(p & Ho)].
      + exists (Inherits errs). split; [apply sx_here; eapply sw_refused; eauto|].
        intros out t Hb He. cbn [blames] in Hb. subst t. cbn [ends_in] in He. eapply ends_inherited; [exact Hn| |]; rewrite Ho; [|discriminate].
        intros l0 st0 H. injection H as <- <-. exact He.
      + exists (Broken p). split; [apply sx_here; eapply sw_crash; eauto|].
        intros out t Hb He. cbn [blames] in Hb. subst t. cbn [ends_in] in He. eapply ends_inherited; [exact Hn| |]; rewrite Ho; [discriminate|].
        intros p0 H. injection H as <-. exact He.
    - intros src full names n more path file d l Hj Hs Hnames Hno sc st V.
      destruct (Hmade _ _ Hs st) as (n1 & root & isc & st1 & Hcf & Hcd & Hg1).
      destruct (compiled_scope _ _ _ _ _ _ _ _ _ Hcd) as [Hlo Vi].
      assert (Hsc : (S sc <= isc)%nat) by (unfold valid_scope in V; unfold next_sid in Hlo; lia).
      destruct (grown_stack _ _ sc Hg1 V) as [V1 Sk1].
      assert (Hex : forall x, (In x (given_names d) -> exists m, sc_get st1 isc x = Some (VMatcher m)) /\
        (~ In x (given_names d) -> sc_get st1 isc x = None)).
      { intros x. inversion Hcd as [lo0 hi0 file0 full0 d0 sc0 bs0 K1 K0 K2 K3 K4 K5]; subst. rewrite K5.
        unfold given_names. rewrite <- (binds_names _ _ _ _ _ _ _ _ K4). split; intros Hx.
        - destruct (last_of_in _ _ Hx) as [m Hm]. exists m. now rewrite Hm.
        - destruct (last_of x bs0) as [m|] eqn:Hm; [|reflexivity]. exfalso. apply Hx. clear -Hm.
          revert m Hm. induction bs0 as [|[y v] l IH]; intros m Hm; [discriminate|]. cbn [last_of] in Hm. cbn [map fst].
          destruct (last_of x l) as [m'|]; [right; eauto|]. left. destruct (str_eqb y x) eqn:He; [now apply str_eqb_eq|discriminate]. }
      destruct (imports_all sc (m_set_name (root_alias (names ++ n :: more) (m_name root)) root) isc d names st1 V1 Vi ltac:(lia)
        (fun x => proj1 (Hex x)) Hnames) as (st2 & nbs & I1 & I2 & I3 & I4 & I5 & I6 & I7).
      exists n1. intros depth fuel Hd Hf. exists (name_blame file n). split.
      + apply sx_here. eapply sw_names; [reflexivity|exact Hj|apply Hcf; assumption|].
        eapply names_later; [exact I1|]. destruct n as [x y]. unfold name_blame. cbn [fst].
        destruct (str_eqb x "_") eqn:Hx.
        * apply str_eqb_eq in Hx. subst x. destruct (str_eqb y "_") eqn:Hy.
          -- apply str_eqb_eq in Hy. subst y. apply nw_unnamed.
          -- exfalso. apply Hno. left. split; [reflexivity|]. cbn. intros ->. now rewrite str_eqb_refl in Hy.
        * assert (Hne : x <> lit "_") by (intros ->; now rewrite str_eqb_refl in Hx). apply nw_missing; [exact Hne|].
          intros m Hm. assert (Hno' : ~ In x (given_names d)) by (intros Hin; apply Hno; right; auto).
          destruct (I6 (S sc) ltac:(lia) isc Hsc Vi) as [_ W]. unfold sc_get in Hm. rewrite W in Hm.
          pose proof (proj2 (Hex x) Hno') as Hn. unfold sc_get in Hn. congruence.
      + intros out t Hb He. exists t. auto.
    - intros src full d l c Hs _ IH sc st V.
      destruct (Hstates _ _ Hs sc st V) as (n1 & st' & bs & Hall & _ & V' & _).
      destruct (IH sc st' V') as (n2 & Hw). exists (Nat.max n1 n2). intros depth fuel Hd Hf.
      destruct (Hw depth fuel ltac:(lia) ltac:(lia)) as (b & Hb & Hout). exists b. split; [|exact Hout].
      pose proof (Hall depth fuel ltac:(lia) ltac:(lia)) as Ha. inversion Ha as [|d0 l0 s1 s2 s3 A1 A2]; subst. inversion A2; subst.
      eapply sx_later; eauto.
  Qed.

  (* ---------- there is always a reason ---------- *)

  Lemma can_import_dec d n : can_import d n \/ ~ can_import d n.
  Proof.
    destruct n as [x y]. unfold can_import. cbn [fst snd].
    destruct (str_eqb x "_") eqn:Hx.
    - apply str_eqb_eq in Hx. subst x. destruct (str_eqb y "_") eqn:Hy.
      + apply str_eqb_eq in Hy. subst y. right. intros [[_ H]|[H _]]; now apply H.
      + left. left. split; [reflexivity|]. intros ->. now rewrite str_eqb_refl in Hy.
    - assert (Hne : x <> lit "_") by (intros ->; now rewrite str_eqb_refl in Hx).
      destruct (in_dec (list_eq_dec ascii_dec) x (given_names d)) as [Hi|Hi]; [left; right; auto|].
      right. intros [[H _]|[_ H]]; auto.
  Qed.
  Lemma names_dec d names : Forall (can_import d) names \/
    exists pre n post, names = pre ++ n :: post /\ Forall (can_import d) pre /\ ~ can_import d n.
  Proof.
    induction names as [|n names IH]; [left; constructor|]. destruct (can_import_dec d n) as [Hn|Hn].
    - destruct IH as [IH|(pre & m & post & -> & H1 & H2)]; [left; now constructor|]. right. exists (n :: pre), m, post. auto.
    - right. exists [], n, names. auto.
  Qed.
  Lemma contains_has file full src d : has_script E F file full src d -> contains E F file full d.
  Proof. intros H. exists src. exact H. Qed.

  Theorem explored_fate file : explored E F file -> (exists d, sound E F file d) \/ (exists c, culprit E F file c).
  Proof.
    induction 1 as [file H|file full H1 H2|file full src Q H|file full src d Hd _ IH].
    - right. eexists. now apply cu_lost.
    - right. eexists. eapply cu_unreadable; eauto.
    - right. eexists. eapply cu_no_script; eauto.
    - assert (G : forall l, incl l (s_statements d) -> sound_statements E F full l \/ exists c, culprit_in E F src full l c).
      { induction l as [|x l IHl]; intros Hin; [left; constructor|].
        assert (Hx : sound_statements E F full [x] \/ exists c, forall l, culprit_in E F src full (x :: l) c).
        { destruct (statement_fault x) as [f|] eqn:Hf; [right; eexists; intros l'; apply (ci_fault E F src full x _ f Hf)|].
          destruct x as [y whole|y o i k a q|names path].
          - left. eapply so_own; [reflexivity|exact Hf|constructor].
          - left. eapply so_own; [reflexivity|exact Hf|constructor].
          - destruct (fs_join F full path) as [next|] eqn:Hj; [|right; eexists; intros l'; apply ci_path; exact Hj].
            destruct (IH names path next (Hin _ (or_introl eq_refl)) Hj) as [[d' Hs]|[c Hc]].
            + destruct (names_dec d' names) as [Hall|(pre & n & post & -> & N1 & N2)].
              * left. eapply so_import; eauto. constructor.
              * right. eexists. intros l'. eapply ci_name; eauto.
            + right. exists c. intros l'. eapply ci_import; eauto. }
        destruct Hx as [Hx|[c Hc]]; [|right; eauto].
        destruct (IHl (fun y Hy => Hin y (or_intror Hy))) as [Hl|[c Hc]].
        - left. inversion Hx; subst; [eapply so_own; eauto|eapply so_import; eauto].
        - right. exists c. now apply ci_later. }
      destruct (G (s_statements d) (incl_refl _)) as [Hs|[c Hc]].
      + destruct (first_fault (map fault_of (s_patterns d))) as [f|] eqn:Hf.
        * right. eexists. eapply cu_pattern; eauto.
        * left. exists d. econstructor; [eapply contains_has; eauto|exact Hs|now apply no_fault_each].
      + right. exists c. eapply cu_statement; eauto.
  Qed.
  Theorem explored_ends file : explored E F file -> forall st,
    (exists d, sound E F file d /\ exists n, forall depth fuel, (n <= depth)%nat -> (n <= fuel)%nat ->
       exists m sc st', compile_file depth fuel E F false file st = Ret (ScriptOk m sc) st') \/
    (exists c, culprit E F file c /\ exists n, forall depth fuel, (n <= depth)%nat -> (n <= fuel)%nat ->
       ends_as c (compile_file depth fuel E F false file st)).
  Proof.
    intros H st. destruct (explored_fate file H) as [[d Hs]|[c Hc]].
    - left. exists d. split; [exact Hs|]. destruct (proj1 (project_made E F HE HT) _ _ Hs st) as (n & m & sc & st' & Hn & _).
      exists n. intros depth fuel H1 H2. eauto.
    - right. exists c. split; [exact Hc|]. exact (proj1 culprit_stops _ _ Hc st).
  Qed.
  (* a file is not both *)
  Theorem sound_or_culprit file d c : sound E F file d -> culprit E F file c -> False.
  Proof.
    intros Hs Hc. destruct (proj1 (project_made E F HE HT) _ _ Hs empty_state) as (n & m & sc & st' & Hn & _).
    destruct (proj1 culprit_stops _ _ Hc empty_state) as (k & Hk).
    specialize (Hn (Nat.max n k) (Nat.max n k) ltac:(lia) ltac:(lia)). specialize (Hk (Nat.max n k) (Nat.max n k) ltac:(lia) ltac:(lia)).
    destruct (ends_either _ _ Hk) as [(l & s & H)|(p & H)]; congruence.
  Qed.
End Culprit.

Section Forbidden.
  Variables (E : env) (P : parser) (F : fs) (compile : str -> state -> res script_res) (name : str).
  Hypothesis HE : tame E.
  Hypothesis HT : tidy E.
  Hypothesis Hascii : ascii_only (p_src P).
  Hypothesis Hsmall : slen (p_src P) < isize_bound.

  (* a script that comes from no file *)
  Theorem import_forbidden d before names path after st : script_text E d (p_src P) ->
    s_statements d = before ++ Import names path :: after ->
    (forall ns p, ~ In (Import ns p) before) -> first_fault (map statement_fault before) = None ->
    exists fuel place text st', rs place <= re place /\ re place <= slen (p_src P) /\
      error_text P msg_forbidden place text /\
      compile_with fuel E F compile P name None false st = Ret (ScriptErr [mkPE text (Some place)]) st'.
  Proof.
    intros Hd Hs Hi Hf. destruct (script_refused E P F compile name None HE HT Hascii Hsmall d st Hd) as (root & st1 & _ & H).
    destruct (states_all F compile None (next_sid st1) before (sc_new st1) (new_valid st1) Hi Hf) as (s1 & H1 & _).
    destruct (H Forbidden) as (t & fuel & (place & B1 & B2 & ->) & text & st' & T1 & T2).
    - apply xf_statement. rewrite Hs. revert H1. generalize (sc_new st1). clear. induction before as [|x l IH]; intros s H.
      + apply sx_here. now apply sw_forbidden.
      + inversion H; subst. eapply sx_later; eauto.
    - exists fuel, place, text, st'. auto.
  Qed.
End Forbidden.
