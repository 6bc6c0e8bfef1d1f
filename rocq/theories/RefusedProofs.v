(* What is said of texts and files that are not compiled. *)
From Verif Require Import ScriptBuild Spec SpecMore SpecScript Utf8Proofs FrameProofs TokenizeProofs TreeProofs ScriptProofs CompileProofs DecimalProofs ErrorTextProofs
  SpecGuard GuardProofs GuardEnds GuardScript GuardCompile ShapeProofs ShapeScript ShapeCompile SpecSyntax SpecLex SpecShape SpecRefused.
Open Scope string_scope.
Open Scope list_scope.
Open Scope N_scope.

Section Build.
  Variables (E : env) (st : state) (l : list addr).
  Hypothesis Hclosed : forall a, In a l -> forall k, In k (tk_kids (tok st a)) -> In k l.
  Hypothesis Hshape : forall a, In a l -> message_in st a \/ script_shape (tk_name (tok st a)) (kid_names st a).
  Hypothesis Hident : forall a, In a l -> tk_name (tok st a) = "Identifier" -> get_value (tok st a) <> [].
  Definition pattern_at (a : addr) : Prop := tk_name (tok st a) = "PatternDefinitionCaptured" \/ tk_name (tok st a) = "PatternDefinition".
  Notation here := (shape_here st l Hshape).

  Lemma all_err (f : addr -> cres matcher) ks e : build_all f ks = CErr e -> exists k, In k ks /\ f k = CErr e.
  Proof.
    induction ks as [|k ks IH]; cbn [build_all]; [discriminate|]. destruct (f k) eqn:Ef; try discriminate.
    - destruct (build_all f ks); try discriminate. intros H. destruct (IH H) as (x & Hx & Hf). exists x. split; [now right|exact Hf].
    - intros H. injection H as <-. exists k. split; [now left|exact Ef].
  Qed.
  Section Level.
    Variable pat : addr -> cres matcher.
    Hypothesis IH : forall a e, In a l -> pattern_at a -> pat a = CErr e -> pattern_reason e.

    Lemma inner_err a e : In a l -> (exists n, In n PATTERN_MATCHER /\ tk_name (tok st a) = lit n) -> build_inner E pat st a = CErr e -> pattern_reason e.
    Proof.
      intros Ha Hn. unfold build_inner.
      destruct (str_eqb (tk_name (tok st a)) "EqualsMatcher") eqn:E1.
      { apply str_eqb_eq in E1. pose proof (here a _ Ha E1 ltac:(discriminate)) as Hs. shape_of Hs Hf.
        destruct Hf as (n & ks & _ & Hk & _). apply names_cons in Hk as (k & r & Hk & _). unfold child. rewrite Hk. cbn [nth_error].
        destruct (get_value (tok st k)); [|discriminate]. intros H. injection H as <-. eapply pr_fault, co_empty. }
      destruct (str_eqb (tk_name (tok st a)) "RegexMatcher") eqn:E2.
      { destruct (get_value (tok st a)) as [|c v]; [intros H; injection H as <-; apply pr_regex|].
        unfold compile_regex. destruct (find_child st (tok st a) "Flags"); destruct (e_regex E _); discriminate. }
      destruct (str_eqb (tk_name (tok st a)) "SequenceMatcher") eqn:E3.
      { apply str_eqb_eq in E3. pose proof (here a _ Ha E3 ltac:(discriminate)) as Hs. shape_of Hs Hf.
        destruct Hf as (n1 & k1 & _ & Hk & n2 & k2 & _ & -> & n3 & k3 & _ & -> & _).
        apply names_cons in Hk as (s & r & Hk & _ & Hr). destruct r as [|x [|y r]]; try discriminate.
        unfold child. rewrite Hk. cbn [nth_error]. destruct (_ =? 0); [discriminate|]. destruct (_ =? 0); discriminate. }
      destruct (str_eqb (tk_name (tok st a)) "CustomMatcher") eqn:E4.
      { apply str_eqb_eq in E4. pose proof (here a _ Ha E4 ltac:(discriminate)) as Hs. shape_of Hs Hf.
        destruct Hf as (n & ks & Hn1 & Hk & _). apply names_cons in Hk as (k & r & Hk & Hkn & _). unfold child. rewrite Hk. cbn [nth_error].
        destruct (get_value (tok st k)) eqn:Ev; [|discriminate]. exfalso. destruct Hn1 as [<-|[]]. apply (Hident k); auto. apply (Hclosed a Ha). rewrite Hk. now left. }
      assert (Hall : forall nm g, tk_name (tok st a) = nm -> nm = lit "SwitchMatcher" \/ nm = lit "ProgramMatcher" ->
        match tk_kids (tok st a) with [] => COk MNull | ks => let* ms := build_all pat ks in COk (g ms) end = CErr e -> pattern_reason e).
      { intros nm g Hnm Ho. destruct (tk_kids (tok st a)) as [|k ks] eqn:Hk; [discriminate|].
        destruct (build_all pat (k :: ks)) eqn:Hb; try discriminate. intros H. injection H as <-.
        apply all_err in Hb as (x & Hx & Hp). rewrite <- Hk in Hx. apply (IH x); [now apply (Hclosed a Ha)| |exact Hp].
        assert (Hi : In (tk_name (tok st x)) (kid_names st a)) by (apply (in_map (fun k => tk_name (tok st k))); exact Hx).
        assert (Hf : exists k1 k2, kid_names st a = k1 ++ k2 /\ Forall (fun n => In n (names pattern_names)) k1 /\ k2 = []).
        { destruct Ho as [Ho|Ho]; rewrite Ho in Hnm; pose proof (here a _ Ha Hnm ltac:(discriminate)) as Hs; shape_of Hs Hf; exact Hf. }
        destruct Hf as (k1 & k2 & H1 & H2 & ->). rewrite app_nil_r in H1. rewrite H1 in Hi. rewrite Forall_forall in H2. apply H2 in Hi.
        destruct Hi as [Hi|[Hi|[]]]; [left|right]; now symmetry. }
      destruct (str_eqb (tk_name (tok st a)) "SwitchMatcher") eqn:E5; [apply str_eqb_eq in E5; eapply Hall; eauto|].
      destruct (str_eqb (tk_name (tok st a)) "ProgramMatcher") eqn:E6; [apply str_eqb_eq in E6; eapply Hall; eauto|].
      exfalso. destruct Hn as (n & Hn & Hna). rewrite Hna in *. cbn in Hn. repeat destruct Hn as [<-|Hn]; try discriminate. exact Hn.
    Qed.
    Lemma attrs_err ks : forall acc e, collect_attrs st ks acc <> CErr e.
    Proof.
      induction ks as [|k ks IHk]; intros acc e; cbn [collect_attrs]; [discriminate|]. unfold child.
      destruct (nth_error _ 0); [|discriminate]. destruct (nth_error _ 1); [|discriminate]. apply IHk.
    Qed.
    Lemma wrap_attrs_err t m e : wrap_attrs st t m <> CErr e.
    Proof.
      unfold wrap_attrs. destruct (find_child _ _ _) as [k|]; [|discriminate]. destruct (tk_kids (tok st k)) as [|x r]; [discriminate|].
      pose proof (attrs_err (x :: r) []) as Hp. destruct (collect_attrs st (x :: r) []) as [?|e'|?|]; try discriminate. destruct (Hp e' eq_refl).
    Qed.
    Lemma parse_err w e : parse_or_err w = CErr e -> pattern_reason e.
    Proof.
      unfold parse_or_err. destruct (parse_usize w); [discriminate|]. destruct (forallb _ w); intros H; injection H as <-; [eapply pr_fault, co_large|apply pr_digit].
    Qed.
    Lemma wrap_repeat_err a m e : wrap_repeat st (tok st a) m = CErr e -> pattern_reason e.
    Proof.
      unfold wrap_repeat. destruct (find_child_among st (tok st a) REPEAT_SPECIFIER) as [k|] eqn:Ek; [|discriminate].
      apply among_some in Ek. apply first_in in Ek as (Hk & n & Hn & Hna).
      assert (Hr : forall e, repeat_range st k = CErr e -> pattern_reason e); [|destruct (repeat_range st k) as [?|e'|?|]; try discriminate; intros H; injection H as <-; now apply Hr].
      clear e. intros e. unfold repeat_range. destruct (str_eqb _ "RepeatZeroOrMore") eqn:E1; [discriminate|]. destruct (str_eqb _ "RepeatOneOrMore") eqn:E2; [discriminate|].
      destruct (str_eqb (tk_name (tok st k)) "RepeatRange") eqn:E3.
      2:{ exfalso. rewrite Hna in *. cbn in Hn. repeat destruct Hn as [<-|Hn]; try discriminate. exact Hn. }
      destruct (find_child st (tok st k) "Minimum") as [mi|]; [|discriminate].
      destruct (parse_or_err (get_cvalue (tok st mi))) as [lo|?|?|] eqn:Ep; try discriminate; [|intros H; injection H as <-; eapply parse_err; eauto].
      destruct (has_child _ _ _); [|discriminate]. destruct (find_child st (tok st k) "Maximum") as [ma|]; [|discriminate].
      destruct (parse_or_err (get_cvalue (tok st ma))) as [hi|?|?|] eqn:Eq; try discriminate; [|intros H; injection H as <-; eapply parse_err; eauto].
      destruct (_ <? _); [|discriminate]. intros H. injection H as <-. apply (pr_fault (Reversed lo hi)), (co_reversed lo hi (dec lo) (dec hi)); apply dec_decimal.
    Qed.
    Lemma def_err a nm cap e : In a l -> tk_name (tok st a) = "PatternDefinition" -> build_def E pat st a nm cap = CErr e -> pattern_reason e.
    Proof.
      intros Ha Hn. unfold build_def. rewrite Hn, str_eqb_refl. cbn [negb].
      destruct (find_child_among st (tok st a) PATTERN_MATCHER) as [k|] eqn:Ek.
      2:{ exfalso. apply ScriptProofs.among_none in Ek. pose proof (here a _ Ha Hn ltac:(discriminate)) as Hs. shape_of Hs Hf.
          assert (Hex : exists n, In n (names matcher_names) /\ In n (kid_names st a)).
          { destruct Hf as [Hf|(? & ? & _ & -> & Hf)]; destruct Hf as [Hf|(? & ? & _ & -> & Hf)]; destruct Hf as (n & ? & Hn1 & -> & _);
              exists n; (split; [exact Hn1|]); cbn; tauto. }
          destruct Hex as (n & H1 & H2). apply names_in in H2 as (k & Hk & Hkn). unfold names in H1. apply in_map_iff in H1 as (m & Hm & H1).
          apply (Ek k m Hk); [|congruence]. destruct H1 as [<-|[<-|[<-|[<-|[<-|[<-|[]]]]]]]; cbn; auto 10. }
      apply among_some in Ek. apply first_in in Ek as (Hk & Hkn). pose proof (Hclosed a Ha k Hk) as Hkl.
      pose proof (inner_err k) as Hi. destruct (build_inner E pat st k) as [m|e'|q|]; try discriminate; [|intros H; injection H as <-; auto].
      set (m1 := match nm with [] => m | _ => m_set_name nm m end).
      pose proof (wrap_attrs_err (tok st a) m1) as Hw. destruct (wrap_attrs st (tok st a) m1) as [m2|e'|q|]; try discriminate; [|destruct (Hw e' eq_refl)].
      set (m3 := wrap_modifier _ _ m2). pose proof (wrap_repeat_err a m3) as Hr.
      destruct (wrap_repeat st (tok st a) m3) as [m4|e'|q|]; try discriminate. intros H. injection H as <-. now apply Hr.
    Qed.
    Lemma pat_err a e : In a l -> pattern_at a -> build_pat E pat st a = CErr e -> pattern_reason e.
    Proof.
      intros Ha Hp. unfold build_pat. destruct (str_eqb (tk_name (tok st a)) "PatternDefinitionCaptured") eqn:E1.
      - apply str_eqb_eq in E1. pose proof (here a _ Ha E1 ltac:(discriminate)) as Hs. shape_of Hs Hf.
        destruct (find_child st (tok st a) "MatcherName") as [nt|] eqn:Em.
        + apply (child_some st a "MatcherName") in Em. apply first_in in Em as (Hk & n & [<-|[]] & Hn).
          unfold child. destruct (nth_error (tk_kids (tok st nt)) 0); [|discriminate].
          destruct Hf as [(x1 & k1 & Hx1 & H1 & ->)|(x1 & k1 & _ & H1 & x2 & k2 & Hx2 & -> & _)].
          * exfalso. apply names_cons in H1 as (z & r1 & Hz & Hzn & Hr1). apply map_eq_nil in Hr1 as ->. rewrite Hz in Hk. destruct Hk as [->|[]].
            destruct Hx1 as [<-|[]]. rewrite Hn in Hzn. discriminate.
          * apply names_cons in H1 as (z & r1 & Hz & _ & Hr1). destruct r1 as [|d r1]; [discriminate|]. injection Hr1 as Hd _. rewrite Hz. cbn [nth_error].
            destruct Hx2 as [<-|[]]. apply def_err; [|exact Hd]. apply (Hclosed a Ha). rewrite Hz. right. now left.
        + apply (child_none st a "MatcherName") in Em. destruct Hf as [(x1 & k1 & Hx1 & H1 & ->)|(x1 & k1 & Hx1 & H1 & _)]; apply names_cons in H1 as (z & r1 & Hz & Hzn & _); rewrite Hz; cbn [nth_error].
          * destruct Hx1 as [<-|[]]. apply def_err; [|exact Hzn]. apply (Hclosed a Ha). rewrite Hz. now left.
          * exfalso. destruct Hx1 as [<-|[]]. apply (Em z "MatcherName"); [rewrite Hz; now left|now left|exact Hzn].
      - destruct Hp as [Hp|Hp]; [rewrite Hp in E1; discriminate|]. rewrite Hp, str_eqb_refl. now apply def_err.
    Qed.
  End Level.
  Lemma build_err f : forall a e, In a l -> pattern_at a -> build f E st a = CErr e -> pattern_reason e.
  Proof. induction f as [|f IHf]; intros a e Ha Hp; cbn [build]; [discriminate|]. now apply pat_err. Qed.
  Lemma definition_err a nm cap e : In a l -> tk_name (tok st a) = "PatternDefinition" -> construct_definition E st a nm cap = CErr e -> pattern_reason e.
  Proof. apply def_err. intros b q. apply build_err. Qed.

  (* ---------- the visitor ---------- *)

  Variables (F : fs) (compile : str -> state -> res script_res) (sc : sid) (ff : option str).
  Definition told (a : addr) (e : parse_error) : Prop :=
    exists place, blamed ff (fs_join F) st a (pe_msg e) place /\ match pe_range e with Some r => r | None => blank_range end = place.
  Definition inherits (a : addr) (le : list parse_error) : Prop :=
    exists q f file s s', tk_name (tok st a) = "ImportStatement" /\ first_kid st a ["Path"] q /\ ff = Some f /\
      fs_join F f (get_value (tok st q)) = Some file /\ compile file s = Ret (ScriptErr le) s'.
  (* what a hook does to the errors *)
  Definition tells (a : addr) (new : list parse_error) (w : bst) (v : vres bst) : Prop :=
    match v with
    | VOk w' => b_errs w' = b_errs w ++ new
    | VErr w' e => (b_errs w' = b_errs w /\ told a e) \/ (pe_msg e = [] /\ exists le, inherits a le /\ b_errs w' = b_errs w ++ le)
    | _ => True
    end.
  Lemma tells_none a w : tells a [] w (VOk w).
  Proof. cbn. now rewrite app_nil_r. Qed.

  Lemma idents_err ks e : import_idents st ks <> CErr e.
  Proof.
    induction ks as [|k ks IH]; cbn [import_idents]; [discriminate|]. unfold import_ident. destruct (find_child _ _ _); [|discriminate].
    destruct (import_idents st ks); try discriminate. congruence.
  Qed.
  Lemma idents_from ks xs : import_idents st ks = COk xs ->
    forall x, In x xs -> (exists k, In k ks /\ first_kid st k ["ImportName"] (fst (fst x))) /\ snd (fst x) = get_value (tok st (fst (fst x))).
  Proof.
    revert xs. induction ks as [|k ks IH]; intros xs; cbn [import_idents]; [intros H; injection H as <-; intros x []|].
    unfold import_ident. destruct (find_child st (tok st k) "ImportName") as [i|] eqn:Ei; [|discriminate].
    destruct (import_idents st ks) as [ys|?|?|]; try discriminate. intros H. injection H as <-.
    apply (child_some st k "ImportName") in Ei.
    intros x [<-|Hx]; [cbn; split; [exists k; split; [now left|exact Ei]|reflexivity]|].
    destruct (IH ys eq_refl x Hx) as [(k' & Hk' & H1) H2]. split; [exists k'; split; [now right|exact H1]|exact H2].
  Qed.
  Lemma import_all_tells a f q root isc file xs : ff = Some f -> tk_name (tok st a) = "ImportStatement" -> first_kid st a ["Path"] q ->
    fs_join F f (get_value (tok st q)) = Some file ->
    (forall x, In x xs -> wanted st a (fst (fst x)) /\ snd (fst x) = get_value (tok st (fst (fst x)))) ->
    forall w, tells a [] w (import_all st sc root isc file xs w).
  Proof.
    intros Hff Hn Hq Hj. induction xs as [|[[i ident] name] xs IH]; intros H w; cbn [import_all]; [apply tells_none|].
    destruct (H _ (or_introl eq_refl)) as (H1 & H2). cbn [fst snd] in H1, H2.
    assert (H' : forall x, In x xs -> wanted st a (fst (fst x)) /\ snd (fst x) = get_value (tok st (fst (fst x)))) by (intros x Hx; apply H; now right).
    assert (Hgo : forall m, tells a [] w (import_all st sc root isc file xs (define sc name m w))).
    { intros m. specialize (IH H' (define sc name m w)). destruct (import_all _ _ _ _ _ _ _); exact IH. }
    destruct (str_eqb ident "_") eqn:Eu.
    - apply str_eqb_eq in Eu. destruct (str_eqb name "_"); [|apply Hgo]. left. split; [reflexivity|]. eexists. split; [|reflexivity].
      eapply bl_unnamed; eauto. congruence.
    - assert (Hm : tells a [] w (VErr w (mkPE (lit "Failed to import `" ++ ident ++ lit "` from '" ++ file ++ lit "': Not found") (Some (tk_mr (tok st i)))))).
      { left. split; [reflexivity|]. eexists. split; [|reflexivity]. rewrite H2. eapply (bl_missing ff (fs_join F) st a f i q file); eauto.
        intros Hv. rewrite H2, Hv in Eu. discriminate. }
      destruct (sc_get _ _ _) as [[?|?|?]|]; try exact Hm. apply Hgo.
  Qed.
  Lemma told_pattern a e : In (tk_name (tok st a)) (names ["AssignmentExpression"; "PatternScope"]) -> pattern_reason e -> told a (pattern_error e).
  Proof. intros Hn He. exists (mkR 0 0). split; [|reflexivity]. now apply (bl_pattern ff (fs_join F) st a e). Qed.
  Lemma patterns_tell a ks : tk_name (tok st a) = "PatternScope" -> (forall k, In k ks -> In k l) -> forall w, tells a [] w (add_patterns E st ks w).
  Proof.
    intros Hn. induction ks as [|k ks IH]; intros H w; cbn [add_patterns]; [apply tells_none|].
    assert (H' : forall x, In x ks -> In x l) by (intros x Hx; apply H; now right).
    destruct (_ || _) eqn:Eo; [|now apply IH]. pose proof (build_err (S (List.length (st_heap st))) k) as Hb. unfold construct_pattern in *.
    destruct (build _ E st k) as [m|e|p|]; try exact Logic.I.
    - specialize (IH H' (mkBst (b_name w) (b_pats w ++ [m]) (b_errs w) (b_store w))). destruct (add_patterns E st ks _); exact IH.
    - left. split; [reflexivity|]. apply told_pattern; [rewrite Hn; right; now left|]. apply Hb; [apply H; now left| |reflexivity].
      apply orb_prop in Eo as [Eo|Eo]; apply str_eqb_eq in Eo; [left|right]; exact Eo.
  Qed.
  Lemma note_none a n : tk_name (tok st a) = n -> n <> lit "Error" -> note st a = [].
  Proof.
    intros H Hn. unfold note. rewrite H. destruct (str_eqb n "Error") eqn:En; [apply str_eqb_eq in En; contradiction|]. now destruct (get_attr _ _).
  Qed.
  Lemma hook_tells a w : In a l -> tells a (note st a) w (run_hook (script_hooks E F compile st sc ff) (tk_name (tok st a)) a w).
  Proof.
    intros Ha. rewrite hook_pick.
    destruct (str_eqb (tk_name (tok st a)) "Error") eqn:E0.
    { unfold hook_error, note. rewrite E0. destruct (get_attr _ _) as [m|]; [reflexivity|exact Logic.I]. }
    assert (Hno : note st a = []).
    { unfold note. rewrite E0. now destruct (get_attr _ _). }
    rewrite Hno.
    destruct (str_eqb (tk_name (tok st a)) "AdextopaScope").
    { unfold hook_scope. destruct (get_attr _ _); cbn; now rewrite app_nil_r. }
    destruct (str_eqb (tk_name (tok st a)) "AssignmentExpression") eqn:E2.
    { apply str_eqb_eq in E2. unfold hook_assign. destruct (tk_kids (tok st a)) as [|i [|v r]] eqn:Hk; try exact Logic.I.
      destruct (str_eqb _ "Identifier"); [cbn; now rewrite app_nil_r|].
      destruct (str_eqb (tk_name (tok st v)) "PatternDefinition") eqn:Ev; [|apply tells_none]. apply str_eqb_eq in Ev.
      pose proof (definition_err v (get_value (tok st i)) true) as Hd.
      destruct (construct_definition E st v (get_value (tok st i)) true) as [m|e|p|]; try exact Logic.I; [cbn; now rewrite app_nil_r|].
      left. split; [reflexivity|]. apply told_pattern; [rewrite E2; now left|]. apply Hd; auto. apply (Hclosed a Ha). rewrite Hk. right. now left. }
    destruct (str_eqb (tk_name (tok st a)) "ImportStatement") eqn:E3.
    { apply str_eqb_eq in E3. unfold hook_import. destruct ff as [f|] eqn:Eff.
      2:{ left. split; [reflexivity|]. eexists. split; [|reflexivity]. rewrite Eff. now apply bl_import. }
      destruct (find_child st (tok st a) "ImportIdentifiers") as [ii|] eqn:Eii; [|exact Logic.I].
      destruct (find_child st (tok st a) "Path") as [q|] eqn:Ep; [|exact Logic.I].
      apply (child_some st a "Path") in Ep. apply (child_some st a "ImportIdentifiers") in Eii.
      destruct (fs_join F f (get_value (tok st q))) as [file|] eqn:Ej; [|exact Logic.I].
      destruct (compile file (b_store w)) as [[rt isc|le] s'|p|] eqn:Ec; try exact Logic.I.
      - destruct (import_idents st (tk_kids (tok st ii))) as [xs|e|p|] eqn:Ex; try exact Logic.I.
        pose proof (import_all_tells a f q (m_set_name (last_root_alias xs (m_name rt)) rt) isc file xs Eff E3 Ep Ej) as Hi.
        specialize (Hi ltac:(intros x Hx; destruct (idents_from _ _ Ex x Hx) as [(k & Hk & H1) H2]; split; [exists ii, k; auto|exact H2])).
        specialize (Hi (mkBst (b_name w) (b_pats w) (b_errs w) s')).
        destruct (import_all _ _ _ _ _ _ _); exact Hi.
      - right. split; [reflexivity|]. exists le. split; [|reflexivity]. exists q, f, file, (b_store w), s'. auto 10. }
    destruct (str_eqb (tk_name (tok st a)) "PatternScope") eqn:E4; [|apply tells_none]. apply str_eqb_eq in E4.
    unfold hook_patterns. apply patterns_tell; [exact E4|]. intros k Hk. now apply (Hclosed a).
  Qed.
  Lemma walks_tell ks w r : (forall a, In a ks -> In a l \/ str_eqb (tk_name (tok st a)) "Script" = true) -> walks (script_hooks E F compile st sc ff) st ks w r ->
    match r with
    | VErr w' e => exists l1 a l2, ks = l1 ++ a :: l2 /\ In a l /\
        ((b_errs w' = b_errs w ++ flat_map (note st) l1 /\ told a e) \/
         (pe_msg e = [] /\ exists le, inherits a le /\ b_errs w' = b_errs w ++ flat_map (note st) l1 ++ le))
    | _ => True
    end.
  Proof.
    intros Hks H. induction H as [w|a ks w w1 r H1 H2 IH|a ks w r H1 H2]; [exact Logic.I| |].
    - assert (Hw : b_errs w1 = b_errs w ++ note st a).
      { apply hooked_run in H1. destruct (Hks a (or_introl eq_refl)) as [Ha|Ha].
        + pose proof (hook_tells a w Ha) as Ht. rewrite <- H1 in Ht. exact Ht.
        + apply str_eqb_eq in Ha. rewrite Ha in H1. injection H1 as ->. rewrite (note_none a _ Ha) by discriminate. now rewrite app_nil_r. }
      specialize (IH ltac:(intros b Hb; apply Hks; now right)). destruct r as [?|w' e|?|]; try exact Logic.I.
      destruct IH as (l1 & b & l2 & -> & Hb & G). exists (a :: l1), b, l2. split; [reflexivity|]. split; [exact Hb|]. cbn [flat_map]. rewrite Hw in G.
      destruct G as [[G1 G2]|(G1 & le & G2 & G3)]; [left|right]; [split; [|exact G2]; rewrite G1; now rewrite <- app_assoc|].
      split; [exact G1|]. exists le. split; [exact G2|]. rewrite G3. now rewrite <- !app_assoc.
    - destruct (Hks a (or_introl eq_refl)) as [Ha|Ha].
      + pose proof (hook_tells a w Ha) as Ht. apply hooked_run in H1. rewrite <- H1 in Ht. destruct r as [?|w' e|?|]; try exact Logic.I.
        exists [], a, ks. split; [reflexivity|]. split; [exact Ha|]. cbn [flat_map]. rewrite app_nil_r. exact Ht.
      + apply str_eqb_eq in Ha. apply hooked_run in H1. rewrite Ha in H1. destruct r; try exact Logic.I. discriminate.
  Qed.
End Build.

Lemma identifier_some n v t rest : lexeme n v t rest -> n = lit "Identifier" -> v <> [].
Proof.
  intros H. destruct H as [m t rest H|m t rest H H1|m v t rest H|t rest|m t rest H|t rest|t rest|t rest|x rest|v raw rest]; intros Hm; try discriminate Hm; try subst m.
  - exfalso. cbn in H. repeat destruct H as [H|H]; try discriminate. exact H.
  - destruct H1 as (x & t' & H1 & _). rewrite H1. discriminate.
  - exfalso. cbn in H. repeat destruct H as [H|H]; try discriminate. exact H.
  - exfalso. cbn in H. repeat destruct H as [H|H]; try discriminate. exact H.
Qed.

Lemma blamed_text from join st a msg place : blamed from join st a msg place -> exists x t, msg = x :: t.
Proof. destruct 1; unfold pattern_message, msg_forbidden, msg_unnamed, msg_missing; eexists _, _; reflexivity. Qed.
Theorem compile_refused E F compile P name ff log n st l st' : tame E -> tidy E -> slen (p_src P) < isize_bound -> ascii_only (p_src P) ->
  compile_with n E F compile P name ff log st = Ret (ScriptErr l) st' ->
  refused E P ff (fs_join F) (fun file le => exists s s', compile file s = Ret (ScriptErr le) s') l.
Proof.
  intros HE HT Hlen Hascii H. unfold compile_with in H.
  assert (Ht : forall r st1, tokenize n E P (script_ctx P name st) (Script_ E) (script_start E P name st) = Ret r st1 ->
    Tokenizes E P (script_ctx P name st) (Script_ E) (script_start E P name st) r st1) by (intros r st1 Hr; now exists n).
  pose proof (tokenize_says E P HE Hlen Hascii n name st) as Hsays. unfold script_start, script_ctx in Ht, Hsays.
  destruct (context_new P name st) as [c st0] eqn:Ec. cbn [fst snd] in Ht, Hsays.
  destruct (tokenize n E P c (Script_ E) _) as [r st1|q|]; [|discriminate..]. specialize (Ht r st1 eq_refl).
  destruct r as [root|[|e]].
  2:{ injection H as <- <-. apply rf_parse. }
  2:{ injection H as <- <-. apply rf_value. now apply (Hsays e st1). }
  assert (HTk : Tokenizes E P (script_ctx P name st) (Script_ E) (script_start E P name st) (TOk root) st1).
  { unfold script_start, script_ctx. rewrite Ec. exact Ht. }
  destruct (hoisted_tree _ _ _ _ _ _ _ HE HT HTk) as (l' & Hp & Hd).
  destruct (script_shapes E P HE HT Hlen Hascii name st root st1 l' HTk Hp) as (Hroot & Hfine & Hclean).
  inversion Hp as [|a0 r0 l1 l2 Hp1 Hp2]; subst. inversion Hp2; subst. rewrite app_nil_r in *.
  destruct (preorder_kids _ _ _ Hp1) as [Hin Hclosed].
  inversion Hd as [|? ? Hnr _]; subst.
  assert (Hshape : forall a, In a l1 -> message_in st1 a \/ script_shape (tk_name (tok st1 a)) (kid_names st1 a)).
  { intros a Ha. destruct (Hfine a (or_intror Ha)) as [Hw _]. unfold well_shaped in Hw. destruct (is_error (tok st1 a)) eqn:He.
    - left. split; apply Hw.
    - right. assert (Hk : labels st1 (tk_kids (tok st1 a)) = kid_names st1 a); [|now rewrite <- Hk].
      unfold labels, kid_names. f_equal. assert (Hno : forall k, In k (tk_kids (tok st1 a)) -> is_error (tok st1 k) = false).
      { apply Hclean; [now right|]. intros ->. contradiction. }
      clear - Hno. induction (tk_kids (tok st1 a)) as [|k ks IH]; [reflexivity|]. cbn. rewrite (Hno k (or_introl eq_refl)). cbn. f_equal. apply IH.
      intros x Hx. apply Hno. now right. }
  assert (Hpl : forall a, In a l1 -> tk_name (tok st1 a) <> "Error" ->
    (rs (tk_mr (tok st1 a)) <= slen (p_src P) /\ re (tk_mr (tok st1 a)) <= slen (p_src P)) /\ (In (tk_name (tok st1 a)) script_leaves -> written P st1 a)).
  { intros a Ha Hn. destruct (Hfine a (or_intror Ha)) as [Hw Hpl]. destruct Hpl as (Hp0 & _ & Hw1); [|auto]. destruct (is_error (tok st1 a)) eqn:He; [|reflexivity].
    unfold well_shaped in Hw. rewrite He in Hw. now destruct Hw. }
  assert (Hident : forall a, In a l1 -> tk_name (tok st1 a) = "Identifier" -> get_value (tok st1 a) <> []).
  { intros a Ha Hn. destruct (Hpl a Ha) as [_ Hw]; [rewrite Hn; discriminate|]. destruct Hw as (pre & t & post & _ & _ & Hx); [rewrite Hn; pick|].
    eapply identifier_some; eauto. }
  assert (Hps : parsed_script E P st1 root) by (exists name, st; exact HTk).
  destruct (build_matcher E P F compile root name ff st1) as [[m s2|errs] st2|q|] eqn:Hb; try discriminate.
  { destruct (log && negb (log_ok st1 root)); discriminate. }
  injection H as <- <-. unfold build_matcher in Hb. destruct (str_eqb (tk_name (tok st1 root)) "Script") eqn:Er; cbn [negb] in Hb.
  2:{ injection Hb as <- <-. eapply rf_root; [exact Hps|].
      destruct Hroot as [Hroot|Hroot]; [rewrite Hroot in Er; discriminate|exact Hroot]. }
  fold (script_hooks E F compile st1 (next_sid st1) ff) in Hb. set (w0 := mkBst name [] [] (sc_new st1)) in Hb.
  destruct (visit st1 (script_hooks E F compile st1 (next_sid st1) ff) root w0) as [w|w e|q|] eqn:Hvis; try discriminate.
  apply (visit_walks _ _ root (root :: l1)) in Hvis; [|exact Hp].
  apply (walks_tell E st1 l1 (fun a Ha k Hk => Hclosed a k Ha Hk) Hshape Hident) in Hvis; [|intros a [<-|Ha]; auto].
  destruct Hvis as (l0 & a & l2 & Hsplit & Ha & Hv). cbn [b_errs w0 app] in Hv. rewrite Hsplit in Hp.
  destruct Hv as [[Hw (place & Hbl & Hplace)]|(He & le & (q & f & file & s & s' & G1 & G2 & G3 & G4 & G5) & Hw)].
  2:{ rewrite He in Hb. injection Hb as <- <-. rewrite Hw. eapply rf_import; eauto. }
  assert (Hsay : forall msg r, rs r <= slen (p_src P) -> re r <= slen (p_src P) -> forall t, error_string E P msg r = Val t -> said P msg r (mkPE t (Some r))).
  { intros msg r R1 R2 t Et. exists t. split; [|reflexivity]. destruct (error_string_any E P msg r) as (t' & T1 & T2).
    - apply ascii_sliceable; [exact Hascii|cbn; lia|exact R1].
    - apply ascii_sliceable; [exact Hascii|cbn; lia|exact R2].
    - unfold usize_max, isize_bound in *. lia.
    - unfold usize_max, isize_bound in *. lia.
    - rewrite Et in T2. injection T2 as <-. exact T1. }
  destruct (blamed_text _ _ _ _ _ _ Hbl) as (c1 & msg & Em). rewrite Em in Hb. rewrite <- Em in Hb.
  rewrite Hplace in Hb.
  destruct (error_string E P (pe_msg e) place) as [t|] eqn:Et; [|discriminate]. injection Hb as <- <-. rewrite Hw.
  eapply rf_token; [exact Hps|exact Hp|exact Hbl|]. assert (Hwant : forall i, wanted st1 a i -> In i l1 /\ tk_name (tok st1 i) = "ImportName").
  { intros i (ii & k & W1 & W2 & W3). apply first_in in W1 as (W1 & _). apply first_in in W3 as (W3 & n0 & [<-|[]] & Hn). split; [|exact Hn].
    apply (Hclosed k); [|exact W3]. apply (Hclosed ii); [|exact W2]. now apply (Hclosed a). }
  clear Hplace Hw Em. destruct Hbl as [m _ _|_ Hn|f i _ _ Hi _|f i q file _ _ Hi _ _ _].
  - apply Hsay; [cbn; lia..|exact Et].
  - apply Hsay; [apply Hpl; [exact Ha|rewrite Hn; discriminate]|apply Hpl; [exact Ha|rewrite Hn; discriminate]|exact Et].
  - destruct (Hwant i Hi) as [Hi1 Hi2]. apply Hsay; [apply Hpl; [exact Hi1|rewrite Hi2; discriminate]|apply Hpl; [exact Hi1|rewrite Hi2; discriminate]|exact Et].
  - destruct (Hwant i Hi) as [Hi1 Hi2]. apply Hsay; [apply Hpl; [exact Hi1|rewrite Hi2; discriminate]|apply Hpl; [exact Hi1|rewrite Hi2; discriminate]|exact Et].
Qed.

Lemma refused_more E P from join (inner inner' : str -> list parse_error -> Prop) l : (forall f x, inner f x -> inner' f x) ->
  refused E P from join inner l -> refused E P from join inner' l.
Proof. intros H. destruct 1; [apply rf_parse|eapply rf_root; eauto|now apply rf_value|eapply rf_token; eauto|eapply rf_import; eauto]. Qed.
Lemma refused_some E P from join (inner : str -> list parse_error -> Prop) l : (forall f x, inner f x -> x <> []) -> refused E P from join inner l -> l <> [].
Proof.
  intros H. destruct 1 as [|st root ? ?|e ?|st root l1 a l2 msg place e ? ? ? ?|st root l1 a l2 f q file x ? ? ? ? ? ? Hx]; try discriminate.
  - now destruct (flat_map (note st) l1).
  - apply H in Hx. destruct (flat_map (note st) l1); [exact Hx|discriminate].
Qed.
Theorem text_refused : forall E src name log n st l st', tame E -> tidy E -> ascii_only src -> slen src < isize_bound ->
  compile_str n E src name log st = Ret (ScriptErr l) st' ->
  refused E (parser_new src) None (fun _ _ => None) (fun _ _ => False) l.
Proof.
  intros E src name log n st l st' HE HT Ha Hl H. unfold compile_str in H. apply compile_refused in H; auto.
  eapply refused_more; [|exact H]. intros f x (s & s' & Hx). discriminate.
Qed.
Theorem file_refuses : forall E F log depth n file st l st', tame E -> tidy E ->
  (forall full src, fs_read F full = Some src -> ascii_only src /\ slen src < isize_bound) ->
  compile_file depth n E F log file st = Ret (ScriptErr l) st' -> l <> [] /\ file_refused E F file l.
Proof.
  intros E F log depth n file st l st' HE HT HF. revert file st l st'. induction depth as [|d IH]; intros file st l st' H; cbn [compile_file] in H; [discriminate|].
  destruct (fs_canon F file) as [full|] eqn:Ec; [|discriminate].
  destruct (fs_read F full) as [src|] eqn:Er; [|discriminate].
  destruct (HF _ _ Er) as [H1 H2]. apply compile_refused in H; auto. split.
  - eapply refused_some; [|exact H]. intros f x (s & s' & Hx). eapply IH; eauto.
  - eapply fr_file; eauto. eapply refused_more; [|exact H]. intros f x (s & s' & Hx). eapply IH; eauto.
Qed.
Theorem fatal_said : forall E P name st n e st1, tame E -> ascii_only (p_src P) -> slen (p_src P) < isize_bound ->
  tokenize n E P (script_ctx P name st) (Script_ E) (script_start E P name st) = Ret (TErr (FError e)) st1 -> said_unquoted P e.
Proof. intros E P name st n e st1 HE Ha Hl. now apply tokenize_says. Qed.
Lemma quote_inside : forall text, ~ said_unquoted (parser_new "<='a' b=c>") (mkPE text (Some (mkR 0 3))).
Proof.
  intros text (pre & v & rest & t & H & (_ & Hv & _) & _ & He). injection He as _ H1 H2.
  destruct pre as [|x pre]; [|rewrite slen_cons in H1; lia]. rewrite slen_nil in H2.
  destruct v as [|x [|y [|z v]]]; rewrite ?slen_cons, ?slen_nil in H2; try lia.
  cbn in H. injection H as _ _ Hz _. inversion Hv as [|? ? _ Hv1]; subst. inversion Hv1 as [|? ? _ Hv2]; subst. inversion Hv2 as [|? ? [Hz _] _]; subst. now apply Hz.
Qed.
