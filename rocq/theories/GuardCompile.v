(* Compiling a script comes to an end. *)
From Verif Require Import ScriptBuild Spec SpecMore SpecScript FrameProofs TokenizeProofs TreeProofs ScriptProofs
  SpecGuard GuardProofs GuardEnds GuardScript.
Open Scope string_scope.
Open Scope list_scope.
Open Scope N_scope.

Lemma start_known E P name st : SpecGuard.known (script_body E) (next_sid st) (script_start E P name st).
Proof.
  assert (V : valid_scope (sc_new st) (next_sid st)).
  { unfold valid_scope, sc_new, next_sid. cbn. rewrite app_length. cbn. lia. }
  intros n m b Hg Hb. unfold script_body in Hb.
  unfold script_start, script_ctx, context_new, register_all, register, register_named in Hg. cbn [fst snd c_scope fold_left] in Hg.
  destruct (str_eqb n "SwitchMatcher") eqn:E1.
  - apply str_eqb_eq in E1 as ->. rewrite get_set_other in Hg by (right; discriminate).
    rewrite get_set_same in Hg by exact V. injection Hg as <-. now injection Hb as <-.
  - destruct (str_eqb n "ProgramMatcher") eqn:E2; [|discriminate]. apply str_eqb_eq in E2 as ->.
    rewrite get_set_same in Hg by (now apply valid_set). injection Hg as <-. now injection Hb as <-.
Qed.

Section Compile.
  Variables (E : env) (P : parser).
  Hypothesis HE : tame E.
  Hypothesis HT : tidy E.
  Hypothesis Hu : returning E.
  Notation L := (slen (p_src P)).
  Hypothesis Hlen : L < isize_bound.

  Lemma script_exec_ends n name st : (18 * N.to_nat L + 24 <= n)%nat ->
    exec n E P (Script_ E) (script_ctx P name st) (next_sid st) (script_start E P name st) <> OOF.
  Proof.
    intros Hn. destruct (script_guard E) as (H1 & H2 & H3 & H4).
    apply (exec_ends E P (script_body E) (fun _ => 0%nat) 1 17 HE Hu Hlen (names_guarded E) n true 0 (Script_ E) H4 false 21 (N.to_nat L)); auto.
    - apply start_known.
    - cbn. lia.
    - cbn [low_of]. lia.
    - lia.
  Qed.

  Lemma tokenize_ends n name st : (18 * N.to_nat L + 24 <= n)%nat ->
    tokenize n E P (script_ctx P name st) (Script_ E) (script_start E P name st) <> OOF.
  Proof.
    intros Hn. pose proof (script_exec_ends n name st Hn) as He. unfold tokenize.
    change (c_scope (script_ctx P name st)) with (next_sid st).
    destruct (exec n E P (Script_ E) _ _ _) as [r st1|p|] eqn:Er; try congruence; try discriminate.
    assert (Hf : forall x a, r = Ok x -> root_of x a -> finish_token a st1 <> OOF).
    { intros x a -> Hr. unfold finish_token.
      assert (Hrun : Runs E P (Script_ E) (script_ctx P name st) (next_sid st) (script_start E P name st) (Ok x) st1) by (now exists n).
      pose proof (root_result x a Hr) as Ha.
      destruct (collect_errors_ok st1 a) as (st' & -> & _); [| |discriminate].
      - pose proof Hrun as Hf. apply runs_frame in Hf as (_ & _ & Hf); [|exact HE]. now apply Hf in Ha.
      - eapply runs_trees; eauto. }
    destruct r as [[a|a|z|nm q|nm q| |]|e]; try discriminate; try (eapply Hf; [reflexivity|constructor]);
      destruct q; try discriminate; eapply Hf; [reflexivity|constructor|reflexivity|constructor].
  Qed.

  Lemma definition_back st a name captured : is_tree st a -> construct_definition E st a name captured <> CFuel.
  Proof. intros Ht. apply def_enough. intros k k' Hk Hk'. apply construct_enough. eauto using kid_tree. Qed.
  Lemma patterns_back st l : (forall k, In k l -> is_tree st k) -> forall w, add_patterns E st l w <> VFuel.
  Proof.
    induction l as [|a l IH]; intros Ht w; [discriminate|]. cbn [add_patterns].
    destruct (_ || _); [|apply IH; intros k Hk; apply Ht; now right].
    pose proof (construct_enough E st a (Ht a (or_introl eq_refl))).
    destruct (construct_pattern E st a); try discriminate; [|congruence]. apply IH. intros k Hk; apply Ht; now right.
  Qed.
  Lemma idents_back st l : import_idents st l <> CFuel.
  Proof.
    induction l as [|a l IH]; [discriminate|]. cbn [import_idents]. unfold import_ident.
    destruct (find_child _ _ _); [|discriminate]. cbn. destruct (import_idents st l); try discriminate. congruence.
  Qed.
  Lemma import_all_back st sc root isc file l : forall w, import_all st sc root isc file l w <> VFuel.
  Proof.
    induction l as [|[[i ident] name] l IH]; intros w; [discriminate|]. cbn [import_all].
    destruct (str_eqb ident "_"); [destruct (str_eqb name "_"); [discriminate|apply IH]|].
    destruct (sc_get _ _ _) as [[?|?|?]|]; try discriminate. apply IH.
  Qed.

  Lemma build_ends F compile root name ff st : is_tree st root ->
    (forall l imp p f file s, preorder st [root] l -> In imp l -> tk_name (tok st imp) = "ImportStatement" ->
       first_kid st imp ["Path"] p -> ff = Some f -> fs_join F f (get_value (tok st p)) = Some file -> compile file s <> OOF) ->
    build_matcher E P F compile root name ff st <> OOF.
  Proof.
    intros Ht Hc. pose proof Ht as (l & Hp & Hd). pose proof (tree_members st [root] l Hp Hd) as Htr. unfold build_matcher.
    destruct (negb _); [discriminate|].
    fold (script_hooks E F compile st (next_sid st) ff). set (w0 := mkBst name [] [] (sc_new st)).
    destruct (visit st (script_hooks E F compile st (next_sid st) ff) root w0) as [w|w e|p|] eqn:Hv; try discriminate.
    - destruct (pe_msg e); [discriminate|]. destruct (error_string _ _ _ _); discriminate.
    - exfalso. apply (visit_walks _ _ root l) in Hv; [|exact Hp].
      assert (Hh : forall a w, In a l -> run_hook (script_hooks E F compile st (next_sid st) ff) (tk_name (tok st a)) a w <> VFuel).
      { intros a w Ha. rewrite hook_pick.
        destruct (str_eqb (tk_name (tok st a)) "Error").
        { unfold hook_error. destruct (get_attr _ _); discriminate. }
        destruct (str_eqb (tk_name (tok st a)) "AdextopaScope").
        { unfold hook_scope. destruct (get_attr _ _); discriminate. }
        destruct (str_eqb (tk_name (tok st a)) "AssignmentExpression").
        { unfold hook_assign. destruct (tk_kids (tok st a)) as [|i [|v r]] eqn:Hk; try discriminate.
          destruct (str_eqb _ "Identifier"); [discriminate|]. destruct (str_eqb _ "PatternDefinition"); [|discriminate].
          assert (Hn : construct_definition E st v (get_value (tok st i)) true <> CFuel).
          { apply definition_back. apply (kid_tree st a); auto. rewrite Hk. right. now left. }
          destruct (construct_definition E st v (get_value (tok st i)) true); try discriminate. congruence. }
        destruct (str_eqb (tk_name (tok st a)) "ImportStatement") eqn:Hi.
        { apply str_eqb_eq in Hi. unfold hook_import. destruct ff as [f|]; [|discriminate].
          destruct (find_child st (tok st a) "ImportIdentifiers") as [ii|]; [|discriminate].
          destruct (find_child st (tok st a) "Path") as [p|] eqn:Hpath; [|discriminate].
          apply (child_some st a "Path") in Hpath.
          destruct (fs_join F f (get_value (tok st p))) as [file|] eqn:Hj; [|discriminate].
          pose proof (Hc l a p f file (b_store w) Hp Ha Hi Hpath eq_refl Hj) as Hcc.
          destruct (compile file (b_store w)) as [[rt isc|le] s'|q|]; try discriminate; [|congruence].
          pose proof (idents_back st (tk_kids (tok st ii))) as Hid.
          destruct (import_idents st (tk_kids (tok st ii))); try discriminate; [|congruence]. apply import_all_back. }
        destruct (str_eqb (tk_name (tok st a)) "PatternScope").
        { apply patterns_back. intros k Hk. apply (kid_tree st a k); auto. }
        discriminate. }
      assert (Hsub : forall a, In a l -> In a l) by auto. clearbody w0. revert Hsub Hv. generalize l at 1 3. intros l0. revert w0.
      induction l0 as [|a l0 IH]; intros w0 Hs Hw; inversion Hw as [|a1 l1 w1 w2 r1 Hk1 Hk2|a1 l1 w1 r1 Hk1 Hk2]; subst.
      + eapply IH; eauto. intros b Hb. apply Hs. now right.
      + apply hooked_run in Hk1. apply (Hh a w0); [apply Hs; now left|symmetry; exact Hk1].
  Qed.

  Theorem compile_ends F compile name ff log st n : (18 * N.to_nat L + 24 <= n)%nat ->
    (forall f file s, ff = Some f -> asks_for E F P f file -> compile file s <> OOF) ->
    compile_with n E F compile P name ff log st <> OOF.
  Proof.
    intros Hn Hc. pose proof (tokenize_ends n name st Hn) as Ht.
    unfold compile_with. unfold script_start, script_ctx in *. destruct (context_new P name st) as [c st0] eqn:Ec. cbn [fst snd] in Ht.
    destruct (tokenize n E P c (Script_ E) _) as [[root|[|e]] st1|p|] eqn:Er; try discriminate; [|congruence].
    assert (HT1 : Tokenizes E P (script_ctx P name st) (Script_ E) (script_start E P name st) (TOk root) st1).
    { exists n. unfold script_start, script_ctx. rewrite Ec. exact Er. }
    assert (Hb : build_matcher E P F compile root name ff st1 <> OOF).
    { apply build_ends; [eapply hoisted_tree; eauto|].
      intros l imp p f file s H1 H2 H3 H4 H5 H6. apply (Hc f); auto.
      exists name, st, root, st1, l, imp, p. auto 10. }
    destruct (build_matcher E P F compile root name ff st1) as [[m sc|le] st2|p|]; try discriminate; [|congruence].
    destruct (_ && _); discriminate.
  Qed.
End Compile.

Theorem script_ends : forall E P name st n, tame E -> tidy E -> returning E -> slen (p_src P) < isize_bound ->
  (18 * N.to_nat (slen (p_src P)) + 24 <= n)%nat ->
  tokenize n E P (script_ctx P name st) (Script_ E) (script_start E P name st) <> OOF.
Proof. intros. now apply tokenize_ends. Qed.

Theorem str_ends : forall E src name log st n, tame E -> tidy E -> returning E -> slen src < isize_bound ->
  (18 * N.to_nat (slen src) + 24 <= n)%nat -> compile_str n E src name log st <> OOF.
Proof. intros. apply compile_ends; auto. discriminate. Qed.

Theorem file_ends : forall E F rank size log, tame E -> tidy E -> returning E ->
  (forall full src, fs_read F full = Some src -> slen src <= size) -> size < isize_bound ->
  (forall full next, imports E F full next -> (rank next < rank full)%nat) ->
  forall d n file st, (forall full, fs_canon F file = Some full -> (rank full < d)%nat) ->
  (18 * N.to_nat size + 24 <= n)%nat -> compile_file (S d) n E F log file st <> OOF.
Proof.
  intros E F rank size log HE HT Hu Hsize Hb Hrank. induction d as [|d IH]; intros n file st Hd Hn.
  - cbn [compile_file]. destruct (fs_canon F file) as [full|]; [|discriminate]. specialize (Hd full eq_refl). lia.
  - remember (S d) as k. cbn [compile_file]. subst k. destruct (fs_canon F file) as [full|] eqn:Ec; [|discriminate].
    destruct (fs_read F full) as [src|] eqn:Er; [|discriminate].
    pose proof (Hsize full src Er) as Hs. apply compile_ends; auto; try (cbn [p_src parser_named]; lia).
    intros f f1 s [= <-] Ha. specialize (Hd full eq_refl). apply IH; [|exact Hn].
    intros next Hx. assert (Hi : imports E F full next) by (exists src, f1; auto). specialize (Hrank full next Hi). lia.
Qed.
