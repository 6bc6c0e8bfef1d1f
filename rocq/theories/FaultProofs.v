(* What becomes of patterns that stand for no matcher. *)
From Verif Require Import TokenizeProofs.
From Verif Require Import DecimalProofs MapProofs.
From Verif Require Import ScriptProofs SpecScript.
Open Scope string_scope.
Open Scope list_scope.
Open Scope N_scope.

Definition failure {A} (f : fault) : cres A :=
  match f with
  | EmptyText => CErr "Value can not be empty for an `Equals` pattern definition"
  | TooLarge => CErr "number too large to fit in target type"
  | Reversed n m => CErr (lit "Error with repeat specifier: Maximum range is smaller than minimum: {" ++ dec n ++ lit ", " ++ dec m ++ lit "}")
  | EmptyStart => CPan (PMessage "Sequence `start` pattern of """" makes no sense")
  | EmptyEnd => CPan (PMessage "Sequence `end` pattern of """" makes no sense")
  | BadRegex => CPan PUnwrap
  end.
Lemma failure_complains {A} f msg : complains f msg -> @failure A f = CErr msg.
Proof.
  destruct 1 as [| |n m x y Hx Hy]; [reflexivity|reflexivity|]. cbn.
  now rewrite (decimal_unique n x (dec n) Hx (dec_decimal n)), (decimal_unique m y (dec m) Hy (dec_decimal m)).
Qed.
Lemma failure_crashes {A} f p : crashes f p -> @failure A f = CPan p.
Proof. now destruct 1. Qed.
Lemma failure_kinds f : (exists msg, complains f msg /\ msg <> [] /\ forall A, @failure A f = CErr msg) \/
  exists p, crashes f p /\ forall A, @failure A f = CPan p.
Proof.
  destruct f.
  - left. eexists. split; [constructor|]. split; [discriminate|reflexivity].
  - right. eexists. split; [constructor|reflexivity].
  - right. eexists. split; [constructor|reflexivity].
  - right. eexists. split; [constructor|reflexivity].
  - left. eexists. split; [constructor|]. split; [discriminate|reflexivity].
  - left. eexists. split; [constructor; apply dec_decimal|]. split; [discriminate|reflexivity].
Qed.
Lemma failure_not {A} f : (forall x, @failure A f <> COk x) /\ @failure A f <> CFuel.
Proof. destruct f; split; discriminate. Qed.

Lemma too_large_fails s : too_large s -> parse_or_err s = failure TooLarge.
Proof.
  intros (n & (H1 & H2 & H3) & Hn). unfold parse_or_err. destruct (parse_usize s) as [m|] eqn:Hp.
  - apply parse_usize_spec in Hp as [(_ & _ & Hv & Hm)|(d & -> & _)]; [lia|]. now apply plus_not_digit in H2.
  - assert (Hd : forallb (fun c => match digit c with Some _ => true | None => false end) s = true).
    { apply forallb_forall. intros x Hx. apply H2 in Hx. unfold is_digit in Hx. unfold digit.
      destruct (N.leb_spec 48 (N_of_ascii x)); [|lia]. destruct (N.leb_spec (N_of_ascii x) 57); [reflexivity|lia]. }
    now rewrite Hd.
Qed.

Lemma repeat_fault st a f : repeat_fails st a f -> repeat_range st a = failure f.
Proof.
  intros H. unfold repeat_range.
  destruct H as [k Hn F L|k sep k' n Hn F U S M L|k sep k' n n' Hn F U S M U' L]; rewrite Hn;
    change (str_eqb "RepeatRange" "RepeatZeroOrMore") with false;
    change (str_eqb "RepeatRange" "RepeatOneOrMore") with false;
    change (str_eqb "RepeatRange" "RepeatRange") with true; cbv iota; apply (child_some st a "Minimum") in F; rewrite F.
  - now rewrite (too_large_fails _ L).
  - apply parse_or_err_spec in U. rewrite U. assert (S' : has_child st (tok st a) "Seperator" = true) by (apply (has_true st a "Seperator"); eauto).
    apply (child_some st a "Maximum") in M. rewrite S', M. now rewrite (too_large_fails _ L).
  - apply parse_or_err_spec in U. rewrite U. assert (S' : has_child st (tok st a) "Seperator" = true) by (apply (has_true st a "Seperator"); eauto).
    apply (child_some st a "Maximum") in M. apply parse_or_err_spec in U'. rewrite S', M, U'.
    apply N.ltb_lt in L. now rewrite L.
Qed.

Lemma attrs_any st a m m' n : with_attrs st a m m' -> exists n', with_attrs st a n n'.
Proof.
  destruct 1 as [H|k H1 H2|k l H1 H2 H3]; eexists; [now apply wa_none|eapply wa_empty; eauto|eapply wa_some; eauto].
Qed.

Scheme pf_ind := Minimality for pattern_fails Sort Prop
  with df_ind := Minimality for def_fails Sort Prop
  with cf_ind := Minimality for core_fails Sort Prop
  with pl_ind := Minimality for patterns_fail Sort Prop.
Combined Scheme fails_ind from pf_ind, df_ind, cf_ind, pl_ind.

Ltac same := repeat match goal with |- context [str_eqb (lit ?x) (lit ?y)] =>
  let b := eval vm_compute in (str_eqb (lit x) (lit y)) in change (str_eqb (lit x) (lit y)) with b; cbv iota end.
Ltac over f := destruct f; reflexivity.

Lemma fails_build E st :
  (forall a f, pattern_fails E st a f -> eventually (fun n => build n E st a) (failure f)) /\
  (forall a f, def_fails E st a f ->
     forall name captured, eventually (fun n => build_def E (build n E st) st a name captured) (failure f)) /\
  (forall a f, core_fails E st a f -> eventually (fun n => build_inner E (build n E st) st a) (failure f)) /\
  (forall l f, patterns_fail E st l f -> eventually (fun n => build_all (build n E st) l) (failure f)).
Proof.
  apply fails_ind.
  - intros a nt nk nr x d r f Hn Hnt Hnk Hk _ IH. destruct (IH (tk_name (tok st nk)) true) as [n0 IHn]. exists (S n0).
    intros [|n] Hle; [lia|]. cbn [build]. unfold build_pat. rewrite Hn. same.
    apply (child_some st a "MatcherName") in Hnt. rewrite Hnt. unfold child. rewrite Hnk, Hk. cbn [nth_error]. apply IHn. lia.
  - intros a d r f Hn Hnt Hk _ IH. destruct (IH [] true) as [n0 IHn]. exists (S n0).
    intros [|n] Hle; [lia|]. cbn [build]. unfold build_pat. rewrite Hn. same.
    apply (child_none st a "MatcherName") in Hnt. rewrite Hnt, Hk. cbn [nth_error]. apply IHn. lia.
  - intros a f Hn _ IH. destruct (IH [] false) as [n0 IHn]. exists (S n0).
    intros [|n] Hle; [lia|]. cbn [build]. unfold build_pat. rewrite Hn. same. apply IHn. lia.
  - intros a k f Hn Hk _ [n0 IH] name captured. exists n0. intros n Hle. unfold build_def. rewrite Hn. same. cbn [negb].
    apply among_some in Hk. change cores with PATTERN_MATCHER in Hk. rewrite Hk, (IH n Hle). over f.
  - intros a k core at1 q f Hn Hk Hcore Hat Hq Hf name captured.
    destruct (proj1 (proj2 (proj2 (means_build E st))) _ _ Hcore) as [n0 IH]. exists n0. intros n Hle.
    unfold build_def. rewrite Hn. same. cbn [negb].
    apply among_some in Hk. change cores with PATTERN_MATCHER in Hk. rewrite Hk, (IH n Hle).
    destruct (attrs_any st a core at1 (match name with [] => core | _ => m_set_name name core end) Hat) as (m' & Hm').
    apply attrs_spec in Hm'. rewrite Hm'. unfold wrap_repeat.
    apply among_some in Hq. change repeats with REPEAT_SPECIFIER in Hq. rewrite Hq, (repeat_fault st q f Hf). over f.
  - intros a k r Hn Hk Hv. exists O. intros n _. unfold build_inner, child. rewrite Hn, Hk. same. cbn [nth_error].
    cbv [text_of] in Hv. rewrite Hv. reflexivity.
  - intros a v Hn Hv Hne Hf Hr. exists O. intros n _. unfold build_inner, compile_regex. rewrite Hn. same. cbv [text_of] in Hv.
    apply (child_none st a "Flags") in Hf. destruct v as [|x v]; [easy|]. rewrite Hv, Hf, Hr. reflexivity.
  - intros a v k Hn Hv Hne Hf Hr. exists O. intros n _. unfold build_inner, compile_regex. rewrite Hn. same. cbv [text_of] in Hv.
    apply (child_some st a "Flags") in Hf. destruct v as [|x v]; [easy|]. rewrite Hv, Hf, Hr. reflexivity.
  - intros a s e x r Hn Hk Hs. exists O. intros n _. unfold build_inner, child. rewrite Hn, Hk. same. cbn [nth_error].
    cbv [text_of] in Hs. rewrite Hs. reflexivity.
  - intros a s e x r v Hn Hk Hs Hv He. exists O. intros n _. unfold build_inner, child. rewrite Hn, Hk. same. cbn [nth_error].
    cbv [text_of] in Hs, He. rewrite Hs, He. apply slen_pos in Hv. destruct (N.eqb_spec (slen v) 0); [lia|]. reflexivity.
  - intros a f Hn Hl [n0 IH]. exists n0. intros n Hle. specialize (IH n Hle). unfold build_inner.
    destruct (tk_kids (tok st a)) as [|k l] eqn:Hk; [inversion Hl|].
    destruct Hn as [Hn|Hn]; rewrite Hn; same; rewrite IH; over f.
  - intros a l f _ [n0 IH]. exists n0. intros n Hle. cbn [build_all]. rewrite IH by lia. over f.
  - intros a l m f Hm _ [n0 IH]. destruct (proj1 (means_build E st) _ _ Hm) as [n1 Hn1]. exists (Nat.max n0 n1).
    intros n Hle. cbn [build_all]. rewrite Hn1, IH by lia. over f.
Qed.

Lemma construct_fails E st a f : is_tree st a -> pattern_fails E st a f -> construct_pattern E st a = failure f.
Proof.
  intros Ht Hm. destruct (proj1 (fails_build E st) _ _ Hm) as [n0 Hn].
  pose proof (construct_enough E st a Ht) as He. unfold construct_pattern in *.
  set (n := S (List.length (st_heap st))) in *.
  destruct (build_settled E st n (Nat.max n n0) a) as [H|H]; [lia|easy|]. rewrite H. apply Hn. lia.
Qed.
Lemma definition_fails E st a name captured f : is_tree st a -> def_fails E st a f ->
  construct_definition E st a name captured = failure f.
Proof.
  intros Ht Hm. unfold construct_definition. destruct (proj1 (proj2 (fails_build E st)) _ _ Hm name captured) as [n0 Hn].
  set (n := S (List.length (st_heap st))).
  assert (He : build_def E (construct_pattern E st) st a name captured <> CFuel).
  { apply def_enough. intros k k' Hk Hk'. apply construct_enough. eauto using kid_tree. }
  destruct (def_settled E (construct_pattern E st) (build (Nat.max n n0) E st) st a name captured) as [H|H].
  - intros k. unfold construct_pattern. apply build_settled. unfold n. lia.
  - easy.
  - rewrite H. apply Hn. lia.
Qed.

(* what a hook does in trouble *)
Definition place_of (e : parse_error) : range := match pe_range e with Some r => r | None => blank_range end.
Definition halts (t : trouble) (errs : list parse_error) (v : vres bst) : Prop :=
  match t with
  | Complaint msg place => exists w e, v = VErr w e /\ pe_msg e = msg /\ place_of e = place /\ msg <> [] /\ b_errs w = errs
  | Inherited l => exists w, v = VErr w (mkPE "" None) /\ b_errs w = errs ++ l
  | Crash p => v = VPan p
  end.
Lemma fault_halts {A} f t errs w (v : cres A) (k : A -> vres bst) : trouble_of f t -> v = failure f -> b_errs w = errs ->
  halts t errs (match v with COk x => k x | CErr e => VErr w (pattern_error e) | CPan p => VPan p | CFuel => VFuel end).
Proof.
  intros H -> He. destruct H as [f msg H|f p H].
  - rewrite (failure_complains f msg H). cbn [halts]. exists w, (pattern_error msg). repeat split; [discriminate|exact He].
  - now rewrite (failure_crashes f p H).
Qed.
Lemma patterns_halt E st l f t : trouble_of f t -> (forall a, In a l -> is_tree st a) -> forall w,
  patterns_fail E st (filter (pattern_token st) l) f -> halts t (b_errs w) (add_patterns E st l w).
Proof.
  intros Hft. induction l as [|a l IH]; intros Ht w H; cbn [filter] in H; [inversion H|].
  specialize (IH (fun b Hb => Ht b (or_intror Hb))). cbn [add_patterns]. fold (pattern_token st a).
  destruct (pattern_token st a); [|now apply IH].
  assert (Hta : is_tree st a) by (apply Ht; now left).
  inversion H as [? ? ? Ha|? ? m ? Ha Hl]; subst.
  - eapply (fault_halts f t _ w); [exact Hft|exact (construct_fails E st a f Hta Ha)|reflexivity].
  - apply (construct_spec E st a m Hta) in Ha. rewrite Ha.
    exact (IH (mkBst (b_name w) (b_pats w ++ [m]) (b_errs w) (b_store w)) Hl).
Qed.
Lemma kid_same st a n i j : first_kid st a [n] i -> first_kid st a [n] j -> i = j.
Proof. intros H1 H2. apply child_some in H1, H2. congruence. Qed.
Lemma imports_halt st sc root isc file t : forall l ids xs w, import_idents st l = COk xs -> map ask xs = ids ->
  import_fails st sc root isc file l ids (b_store w) t -> halts t (b_errs w) (import_all st sc root isc file xs w).
Proof.
  induction l as [|a l IH]; intros ids xs w Hx Hids H; [inversion H|].
  cbn [import_idents] in Hx. destruct (import_ident st a) as [[[i x] n]| | |] eqn:Hi; try discriminate.
  destruct (import_idents st l) as [ys| | |] eqn:Hl; try discriminate. injection Hx as <-. cbn [map] in Hids. unfold ask at 1 in Hids. cbn [fst snd] in Hids.
  apply import_ident_spec in Hi as (Hi & _). cbn [import_all].
  revert Hids. inversion H as [? ? j ids' s Hj|? ? j x' n' ids' s Hj Hne Hg|? ? n' ids' s t' Hne Hr|? ? x' n' m ids' s t' Hne Hg Hr]; subst; intros Hids.
  - assert (x = lit "_" /\ n = lit "_") as [-> ->] by (split; congruence). same. rewrite (kid_same _ _ _ _ _ Hi Hj).
    exists w. eexists. repeat split. discriminate.
  - assert (x = x' /\ n = n' /\ map ask ys = ids') as (-> & -> & H3) by (repeat split; congruence). apply str_eqb_neq in Hne. rewrite Hne. rewrite (kid_same _ _ _ _ _ Hi Hj).
    cbn [halts]. destruct (sc_get (b_store w) isc x') as [[ | |m]|]; try (exists w; eexists; repeat split; discriminate).
    now destruct (Hg m).
  - assert (x = lit "_" /\ n = n' /\ map ask ys = ids') as (-> & -> & H3) by (repeat split; congruence). same. apply str_eqb_neq in Hne. rewrite Hne.
    exact (IH ids' ys (define sc n' root w) eq_refl H3 Hr).
  - assert (x = x' /\ n = n' /\ map ask ys = ids') as (-> & -> & H3) by (repeat split; congruence). apply str_eqb_neq in Hne. rewrite Hne, Hg.
    exact (IH ids' ys (define sc n' (MSetScope (Some isc) (MMap m (MapRename n'))) w) eq_refl H3 Hr).
Qed.

Section Hooks.
  Variables (E : env) (F : fs) (compile : str -> state -> res script_res).
  Variables (st : state) (sc : sid) (ff : option str).
  Notation hooks := (script_hooks E F compile st sc ff).

  Lemma hook_halts a w t : is_tree st a -> token_fails E F compile st sc ff a (b_store w) t ->
    halts t (b_errs w) (run_hook hooks (tk_name (tok st a)) a w).
  Proof.
    intros Ht H. rewrite hook_pick.
    destruct H as [i v r f t Hn Hk Hv Hf Hft|f t Hn Hf Hft|Hn Hff|f0 ii p Hn Hff Hii Hp Hj|f0 ii p file l s1 Hn Hff Hii Hp Hj Hc
                  |f0 ii p file q Hn Hff Hii Hp Hj Hc|f0 ii p file root isc s1 ids t Hn Hff Hii Hp Hj Hc Hi Him]; rewrite Hn; same.
    - unfold hook_assign. rewrite Hk, Hv. same.
      assert (Htv : is_tree st v) by (apply (kid_tree st a); auto; rewrite Hk; right; now left).
      eapply (fault_halts f t _ w); [exact Hft|exact (definition_fails E st v _ true f Htv Hf)|reflexivity].
    - unfold hook_patterns. eapply patterns_halt; [exact Hft| |exact Hf]. intros k Hk. eapply kid_tree; eauto.
    - unfold hook_import. rewrite Hff. exists w. eexists. repeat split. discriminate.
    - unfold hook_import. apply (child_some st a "ImportIdentifiers") in Hii. apply (child_some st a "Path") in Hp.
      rewrite Hff, Hii, Hp, Hj. reflexivity.
    - unfold hook_import. apply (child_some st a "ImportIdentifiers") in Hii. apply (child_some st a "Path") in Hp.
      rewrite Hff, Hii, Hp, Hj, Hc. eexists. split; reflexivity.
    - unfold hook_import. apply (child_some st a "ImportIdentifiers") in Hii. apply (child_some st a "Path") in Hp.
      rewrite Hff, Hii, Hp, Hj, Hc. reflexivity.
    - unfold hook_import. apply (child_some st a "ImportIdentifiers") in Hii. apply (child_some st a "Path") in Hp.
      rewrite Hff, Hii, Hp, Hj, Hc. apply import_idents_spec in Hi as (xs & Hx & Hids). rewrite Hx.
      change (map (fun p : addr * str * str => (snd (fst p), snd p)) xs) with (map ask xs) in Hids.
      rewrite alias_spec, Hids.
      exact (imports_halt st sc _ isc file t _ ids xs (mkBst (b_name w) (b_pats w) (b_errs w) s1) Hx Hids Him).
  Qed.
  (* no error is noted without an error token *)
  Lemma import_errs root isc file l : forall w w', import_all st sc root isc file l w = VOk w' -> b_errs w' = b_errs w.
  Proof.
    induction l as [|[[i x] n] l IH]; intros w w' H; cbn [import_all] in H; [now injection H as <-|].
    destruct (str_eqb x "_"); [destruct (str_eqb n "_"); [discriminate|]|destruct (sc_get _ _ _) as [[]|]; try discriminate];
      apply IH in H; exact H.
  Qed.
  Lemma add_errs l : forall w w', add_patterns E st l w = VOk w' -> b_errs w' = b_errs w.
  Proof.
    induction l as [|a l IH]; intros w w' H; cbn [add_patterns] in H; [now injection H as <-|].
    destruct (_ || _); [destruct (construct_pattern E st a); try discriminate|]; apply IH in H; exact H.
  Qed.
  Lemma hook_errs a w w' : tk_name (tok st a) <> "Error" -> run_hook hooks (tk_name (tok st a)) a w = VOk w' -> b_errs w' = b_errs w.
  Proof.
    intros He. rewrite hook_pick. apply str_eqb_neq in He. rewrite He.
    destruct (str_eqb _ "AdextopaScope").
    { unfold hook_scope. destruct (get_attr _ _); intros H; injection H as <-; reflexivity. }
    destruct (str_eqb _ "AssignmentExpression").
    { unfold hook_assign. destruct (tk_kids (tok st a)) as [|i [|v r]]; try discriminate.
      destruct (str_eqb _ "Identifier"); [intros H; injection H as <-; reflexivity|].
      destruct (str_eqb _ "PatternDefinition"); [destruct (construct_definition _ _ _ _ _); try discriminate|];
        intros H; injection H as <-; reflexivity. }
    destruct (str_eqb _ "ImportStatement").
    { unfold hook_import. destruct ff; [|discriminate]. destruct (find_child _ _ "ImportIdentifiers"); [|discriminate].
      destruct (find_child _ _ "Path"); [|discriminate]. destruct (fs_join _ _ _); [|discriminate].
      destruct (compile _ _) as [[m isc|l] s'|p|]; try discriminate. destruct (import_idents _ _); try discriminate.
      intros H. apply import_errs in H. exact H. }
    destruct (str_eqb _ "PatternScope"); [apply add_errs|]. intros H. now injection H as <-.
  Qed.

  Lemma halts_not t errs w : ~ halts t errs (VOk w).
  Proof. destruct t; cbn; [intros (? & ? & H & _)|intros (? & H & _)|intros H]; discriminate. Qed.
  Lemma fails_walks l t : (forall a, In a l -> is_tree st a) -> forall w,
    script_fails E F compile st sc ff l (view_of_bst w) t ->
    exists r, walks hooks st l w r /\ halts t (b_errs w) r.
  Proof.
    induction l as [|a l IH]; intros Ht w H; inversion H as [? ? name pats s0 t0 Hf|? ? w0 w1 t0 Hne Ha Hl]; subst.
    - assert (Hh : halts t (b_errs w) (run_hook hooks (tk_name (tok st a)) a w)) by (apply hook_halts; [apply Ht; now left|exact Hf]).
      eexists. split; [|exact Hh]. apply wk_stop; [apply run_hooked|]. intros w1 He. rewrite He in Hh. now apply halts_not in Hh.
    - apply (says_hook E F compile) in Ha as (w2 & Hw2 & <-); [|apply Ht; now left].
      destruct (IH (fun b Hb => Ht b (or_intror Hb)) w2 Hl) as (r & H1 & H2).
      exists r. split; [eapply wk_next; [|exact H1]; rewrite <- Hw2; apply run_hooked|].
      now rewrite (hook_errs a w w2 Hne Hw2) in H2.
  Qed.
End Hooks.

Lemma start_sliceable s : sliceable s (mkR 0 0).
Proof. split; [reflexivity|]. split; [apply N.le_0_l|]. split; now left. Qed.

(* a complaint is about a place that can be shown *)
Definition placed (P : parser) (t : trouble) : Prop :=
  forall msg place, t = Complaint msg place -> sliceable (p_src P) place /\ re place < usize_max.
Lemma fault_placed P f t : trouble_of f t -> placed P t.
Proof. intros [f' msg _|f' p _] m pl H; [|discriminate]. injection H as <- <-. split; [apply start_sliceable|reflexivity]. Qed.

Lemma matcher_fails E P F compile root name ff st l t : is_tree st root -> tk_name (tok st root) = "Script" ->
  preorder st [root] l -> placed P t -> script_fails E F compile st (next_sid st) ff l (name, [], sc_new st) t ->
  ends_in P t (build_matcher E P F compile root name ff st).
Proof.
  intros (l0 & Hp0 & Hd) Hn Hp Hpl Hf. assert (l0 = l) by (eapply preorder_det; eauto). subst l0.
  pose proof (tree_members st [root] l Hp Hd) as Ht.
  set (w0 := mkBst name [] [] (sc_new st)).
  change (name, [], sc_new st) with (view_of_bst w0) in Hf.
  destruct (fails_walks E F compile st (next_sid st) ff l t Ht w0 Hf) as (r & Hw & Hh).
  apply (visit_walks _ _ root l) in Hw; [|exact Hp].
  unfold build_matcher. fold (script_hooks E F compile st (next_sid st) ff). rewrite Hn. same. cbn [negb]. fold w0. rewrite Hw.
  destruct t as [msg place|errs|p]; cbn [halts ends_in] in *.
  - destruct Hh as (w & e & -> & H1 & H2 & H3 & H4). destruct (Hpl msg place eq_refl) as [P1 P2].
    destruct (error_string_text E P msg place P1 P2) as (text & T1 & T2). exists text, (b_store w). split; [exact T1|].
    rewrite H1. fold (place_of e). rewrite H2, H4. destruct msg; [congruence|]. rewrite T2. reflexivity.
  - destruct Hh as (w & -> & H1). exists (b_store w). cbn [pe_msg lit list_ascii_of_string]. now rewrite H1.
  - now rewrite Hh.
Qed.

(* whatever the fuel of the parse *)
Lemma parsed_fails E F compile P name ff st root st1 l t fuel : tame E -> tidy E ->
  tokenize fuel E P (script_ctx P name st) (Script_ E) (script_start E P name st) = Ret (TOk root) st1 ->
  tk_name (tok st1 root) = "Script" -> preorder st1 [root] l -> placed P t ->
  script_fails E F compile st1 (next_sid st1) ff l (name, [], sc_new st1) t ->
  ends_in P t (compile_with fuel E F compile P name ff false st).
Proof.
  intros H1 H2 HT Hn Hp Hpl Hf. pose proof (hoisted_tree _ _ _ _ _ _ _ H1 H2 (ex_intro _ fuel HT)) as Htree.
  pose proof (matcher_fails E P F compile root name ff st1 l t Htree Hn Hp Hpl Hf) as G.
  unfold compile_with. unfold script_start, script_ctx in HT. destruct (context_new P name st) as [c st0] eqn:Hcn. cbn [fst snd] in HT. rewrite HT.
  destruct t as [msg place|errs|p]; cbn [ends_in] in *.
  - destruct G as (text & s & T1 & T2). exists text, s. split; [exact T1|]. now rewrite T2.
  - destruct G as (s & T). exists s. now rewrite T.
  - now rewrite G.
Qed.
Lemma compile_fails E F compile P name ff st root st1 l t : tame E -> tidy E ->
  Tokenizes E P (script_ctx P name st) (Script_ E) (script_start E P name st) (TOk root) st1 ->
  tk_name (tok st1 root) = "Script" -> preorder st1 [root] l ->
  (forall msg place, t = Complaint msg place -> sliceable (p_src P) place /\ re place < usize_max) ->
  script_fails E F compile st1 (next_sid st1) ff l (name, [], sc_new st1) t ->
  exists fuel, ends_in P t (compile_with fuel E F compile P name ff false st).
Proof. intros H1 H2 [fuel HT] Hn Hp Hpl Hf. exists fuel. eapply parsed_fails; eauto. Qed.

Lemma faults_fare f :
  ((exists msg, complains f msg) /\ forall p, ~ crashes f p) \/ ((exists p, crashes f p) /\ forall msg, ~ complains f msg).
Proof.
  destruct f as [| | | | |n m].
  - left. split; [eexists; constructor|]. intros p H; inversion H.
  - right. split; [eexists; constructor|]. intros p H; inversion H.
  - right. split; [eexists; constructor|]. intros p H; inversion H.
  - right. split; [eexists; constructor|]. intros p H; inversion H.
  - left. split; [eexists; constructor|]. intros p H; inversion H.
  - left. split; [eexists; econstructor; apply dec_decimal|]. intros p H; inversion H.
Qed.
Lemma complains_det f a b : complains f a -> complains f b -> a = b.
Proof.
  intros Ha Hb. destruct Ha; inversion Hb; subst; auto.
  match goal with H1 : decimal n x, H2 : decimal n ?u, H3 : decimal m y, H4 : decimal m ?v |- _ =>
    rewrite (decimal_unique _ _ _ H1 H2), (decimal_unique _ _ _ H3 H4); reflexivity end.
Qed.
Lemma trouble_det f t t' : trouble_of f t -> trouble_of f t' -> t = t'.
Proof.
  intros [g a Ha|g p Hp] H; inversion H as [g' a' Ha'|g' p' Hp']; subst.
  - now rewrite (complains_det _ _ _ Ha Ha').
  - destruct Ha; inversion Hp'.
  - destruct Ha'; inversion Hp.
  - destruct Hp; inversion Hp'; reflexivity.
Qed.
