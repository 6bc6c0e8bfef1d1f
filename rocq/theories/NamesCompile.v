(* Compiled scripts make no errors (C79). *)
From Verif Require Import BoundsProofs FlowProofs TokenizeProofs TreeProofs ScriptProofs LogProofs SpecNames NamesProofs HomeProofs.
From Coq Require Import Lia.
Open Scope string_scope.
Open Scope list_scope.
Open Scope N_scope.

Ltac bl := constructor; [try exact Logic.I; cbn; auto; try contradiction|cbn [parts In]].

Lemma blameless_more (Sc Sc' : sid -> Prop) m : (forall s, Sc s -> Sc' s) -> blameless Sc m -> blameless Sc' m.
Proof.
  intros H Hm. induction Hm as [m H1 H2 IH]. constructor; [|exact IH].
  destruct m as [pats i|p name cust|f name cust|fs fe fx name cust|m1|m1|m1| |msg|msg|nm|m1 k|m1 f
                |om off name cust|p name cust|name|ms|t name cust|o m1|m1 name cust|m1|om d|k name cust cons]; auto.
  destruct o; cbn in *; auto.
Qed.
Lemma blameless_set_name Sc n : forall m, blameless Sc m -> blameless Sc (m_set_name n m).
Proof.
  fix IH 1. intros m Hm. inversion Hm as [m' H1 H2 Hx]. subst m'.
  destruct m as [pats i|p name cust|f name cust|fs fe fx name cust|m1|m1|m1| |msg|msg|nm|m1 k|m1 f
                |om off name cust|p name cust|name|ms|t name cust|o m1|m1 name cust|m1|om d|k name cust cons];
    cbn [m_set_name]; try exact Hm; cbn [parts] in H2.
  all: try (constructor; [cbn in *; now auto|cbn [parts]; now auto]).
  all: try (constructor; [cbn in *; now auto|cbn [parts]; intros x [<-|[]]; apply IH, H2; now left]).
  - destruct om as [m1|]; [|exact Hm].
    constructor; [cbn in *; now auto|cbn [parts]; intros x [<-|[]]; apply IH, H2; now left].
Qed.

Section Build.
  Variable Sc : sid -> Prop.
  Notation ok := (blameless Sc).
  Lemma ok_list ms : Forall ok ms -> forall x, In x ms -> ok x.
  Proof. intros H. now apply Forall_forall. Qed.
  Lemma ok_wrap m (f : matcher -> matcher) : (forall x, parts (f x) = [x]) ->
    (makes_only (fun _ => True) False Sc (f m)) -> ok m -> ok (f m).
  Proof. intros Hp Hf Hm. constructor; [exact Hf|]. rewrite Hp. intros x [<-|[]]. exact Hm. Qed.

  Lemma build_all_ok f l : (forall a m, f a = COk m -> ok m) -> forall ms, build_all f l = COk ms -> Forall ok ms.
  Proof.
    intros Hf. induction l as [|a l IH]; cbn [build_all]; intros ms H; [injection H as <-; constructor|].
    destruct (f a) as [m|e|p|] eqn:Ef; try discriminate. destruct (build_all f l) as [ms'|e|p|]; try discriminate.
    injection H as <-. constructor; eauto.
  Qed.
  Lemma inner_ok E pat st a m : (forall a m, pat a = COk m -> ok m) -> build_inner E pat st a = COk m -> ok m.
  Proof.
    intros Hp. unfold build_inner.
    repeat match goal with
    | |- (if ?b then _ else _) = _ -> _ => destruct b
    end; try discriminate.
    - destruct (child st (tok st a) 0) as [c|e|p|]; try discriminate. destruct (get_value c); [discriminate|].
      intros [= <-]. bl. intros x [].
    - destruct (get_value (tok st a)); [discriminate|].
      destruct (find_child st (tok st a) "Flags"); unfold compile_regex; destruct (e_regex E _); try discriminate;
        intros [= <-]; bl; intros x [].
    - destruct (child st (tok st a) 0) as [c0|e|p|]; try discriminate.
      destruct (child st (tok st a) 1) as [c1|e|p|]; try discriminate.
      destruct (child st (tok st a) 2) as [c2|e|p|]; try discriminate.
      destruct (_ =? 0); [discriminate|]. destruct (_ =? 0); [discriminate|].
      intros [= <-]. bl. intros x [].
    - destruct (child st (tok st a) 0) as [c|e|p|]; try discriminate. destruct (get_value c); [discriminate|].
      intros [= <-]. bl. intros x [].
    - destruct (tk_kids (tok st a)) as [|k l]; [intros [= <-]; bl; intros x []|].
      destruct (build_all pat (k :: l)) as [ms|e|p|] eqn:Eb; try discriminate.
      intros [= <-]. bl. apply ok_list. eapply build_all_ok; eauto.
    - destruct (tk_kids (tok st a)) as [|k l]; [intros [= <-]; bl; intros x []|].
      destruct (build_all pat (k :: l)) as [ms|e|p|] eqn:Eb; try discriminate.
      intros [= <-]. bl. apply ok_list. eapply build_all_ok; eauto.
  Qed.
  Lemma modifier_ok opt neg m : ok m -> ok (wrap_modifier opt neg m).
  Proof.
    intros Hm. unfold wrap_modifier. destruct opt; [|destruct neg; [|exact Hm]]; bl; intros x [<-|[]]; exact Hm.
  Qed.
  Lemma def_ok E pat st a name captured m : (forall a m, pat a = COk m -> ok m) ->
    build_def E pat st a name captured = COk m -> ok m.
  Proof.
    intros Hp. unfold build_def. destruct (negb _); [discriminate|].
    destruct (find_child_among _ _ _) as [k|]; [|discriminate].
    destruct (build_inner E pat st k) as [m1|e|p|] eqn:Ei; try discriminate. apply inner_ok in Ei; [|exact Hp].
    set (m2 := match name with [] => m1 | _ => m_set_name name m1 end).
    assert (H2 : ok m2) by (unfold m2; destruct name; auto using blameless_set_name). clearbody m2.
    destruct (wrap_attrs st (tok st a) m2) as [m3|e|p|] eqn:Ew; try discriminate.
    assert (H3 : ok m3).
    { unfold wrap_attrs in Ew. destruct (find_child _ _ _) as [at_|]; [|now injection Ew as <-].
      destruct (tk_kids _); [now injection Ew as <-|]. destruct (collect_attrs _ _ _); try discriminate.
      injection Ew as <-. bl. intros x [<-|[]]. exact H2. }
    set (m4 := wrap_modifier _ _ m3). assert (H4 : ok m4) by now apply modifier_ok. clearbody m4.
    destruct (wrap_repeat st (tok st a) m4) as [m5|e|p|] eqn:Er; try discriminate.
    assert (H5 : ok m5).
    { unfold wrap_repeat in Er. destruct (find_child_among _ _ _); [|now injection Er as <-].
      destruct (repeat_range _ _); try discriminate. injection Er as <-. bl. intros x [<-|[]]. exact H4. }
    intros [= <-]. set (m6 := wrap_modifier _ _ m5). assert (H6 : ok m6) by now apply modifier_ok. clearbody m6.
    destruct captured; [exact H6|]. bl. intros x [<-|[]]. exact H6.
  Qed.
  Lemma build_ok E st : forall f a m, build f E st a = COk m -> ok m.
  Proof.
    induction f as [|f IH]; intros a m; cbn [build]; [discriminate|]. unfold build_pat.
    destruct (str_eqb _ _).
    - destruct (find_child _ _ _) as [nt|].
      + destruct (child _ _ 0); try discriminate. destruct (nth_error _ 1); [|discriminate]. now apply def_ok.
      + destruct (nth_error _ 0); [|discriminate]. now apply def_ok.
    - destruct (str_eqb _ _); [|discriminate]. now apply def_ok.
  Qed.
  Lemma definition_ok E st a name captured m : construct_definition E st a name captured = COk m -> ok m.
  Proof. apply def_ok. apply build_ok. Qed.
End Build.

(* ---------- the hooks ---------- *)

(* what the hooks keep: [st] holds the tokens, [sc] is the scope context of the script *)
Definition fine (Sc : sid -> Prop) (st : state) (w : bst) : Prop :=
  added st (b_store w) /\ Sc (next_sid st) /\
  (forall s, Sc s -> (next_sid st <= s < next_sid (b_store w))%nat) /\
  blameless_scopes Sc (b_store w) /\ Forall (blameless Sc) (b_pats w).

Lemma next_set st s n v : next_sid (sc_set st s n v) = next_sid st.
Proof. unfold next_sid, sc_set, set_stack. cbn [st_scopes]. apply upd_length. Qed.
Lemma added_refl st : added st st.
Proof. now split. Qed.
Lemma added_trans st1 st2 st3 : added st1 st2 -> added st2 st3 -> added st1 st3.
Proof. intros [A1 A2] [B1 B2]. split; [lia|]. intros s Hs. rewrite B2, A2; auto. lia. Qed.
Lemma added_set st st' s n v : (next_sid st <= s)%nat -> added st st' -> added st (sc_set st' s n v).
Proof.
  intros Hs [A1 A2]. split; [now rewrite next_set|]. intros s' Hs'. rewrite <- A2 by exact Hs'.
  unfold sc_set, set_stack, stack_of. cbn [st_scopes]. apply nth_upd_other. lia.
Qed.
Lemma added_new st : added st (sc_new st).
Proof.
  unfold added, sc_new, next_sid, stack_of. cbn [st_scopes]. split; [rewrite app_length; lia|].
  intros s Hs. now rewrite app_nth1.
Qed.
Lemma new_empty st : stack_of (sc_new st) (next_sid st) = [].
Proof. unfold sc_new, next_sid, stack_of. cbn [st_scopes]. rewrite app_nth2 by lia. rewrite Nat.sub_diag. reflexivity. Qed.

Lemma fine_define Sc st w name m : fine Sc st w -> blameless Sc m -> fine Sc st (define (next_sid st) name m w).
Proof.
  intros (A1 & A2 & A3 & A4 & A5) Hm. split; [|split; [exact A2|split; [|split; [|exact A5]]]]; cbn [define b_store].
  - now apply added_set.
  - now rewrite next_set.
  - apply speak_set; [exact A4|]. intros x [= <-]. exact Hm.
Qed.
Lemma fine_assign Sc E st a w : fine Sc st w -> settles (fine Sc st) (hook_assign E st (next_sid st) a w).
Proof.
  intros Hw. unfold hook_assign. destruct (tk_kids (tok st a)) as [|i [|v r]]; try exact Logic.I.
  destruct (str_eqb _ "Identifier"); [apply fine_define; [exact Hw|]; bl; intros x []|].
  destruct (str_eqb _ "PatternDefinition"); [|exact Hw].
  destruct (construct_definition _ _ _ _ _) eqn:Ed; try exact Logic.I; [|exact Hw].
  apply fine_define; [exact Hw|]. eapply definition_ok; eauto.
Qed.
Lemma fine_patterns Sc E st l : forall w, fine Sc st w -> settles (fine Sc st) (add_patterns E st l w).
Proof.
  induction l as [|a l IH]; intros w Hw; cbn [add_patterns]; [exact Hw|].
  destruct (_ || _); [|now apply IH].
  destruct (construct_pattern E st a) as [m|e|p|] eqn:Ep; try exact Logic.I; [|exact Hw].
  apply IH. destruct Hw as (A1 & A2 & A3 & A4 & A5). repeat (split; [assumption|]). cbn [b_pats].
  apply Forall_app. split; [exact A5|]. constructor; [|constructor]. eapply build_ok; eauto.
Qed.
Lemma fine_imports Sc st root isc file l : blameless Sc root -> Sc isc ->
  forall w, fine Sc st w -> settles (fine Sc st) (import_all st (next_sid st) root isc file l w).
Proof.
  intros Hr Hi. induction l as [|[[i ident] name] l IH]; intros w Hw; cbn [import_all]; [exact Hw|].
  destruct (str_eqb ident "_").
  - destruct (str_eqb name "_"); [exact Hw|]. apply IH. now apply fine_define.
  - destruct (sc_get (b_store w) isc ident) as [[t|t|m]|] eqn:Hg; try exact Hw. apply IH. apply fine_define; [exact Hw|].
    apply stack_get_in in Hg as (sc & H1 & H2). destruct Hw as (_ & _ & _ & A4 & _).
    bl. intros x [<-|[]]. bl. intros x [<-|[]]. exact (A4 _ _ _ _ Hi H1 H2).
Qed.

(* what compiling a script comes to *)
Definition compiles_fine (c : str -> state -> res script_res) : Prop :=
  forall file st r st', c file st = Ret r st' ->
  added st st' /\ match r with ScriptOk m sc => self_contained st m sc st' | ScriptErr _ => True end.

Lemma scopes_frame (Sc : sid -> Prop) st st' : blameless_scopes Sc st -> added st st' -> (forall s, Sc s -> (s < next_sid st)%nat) ->
  blameless_scopes Sc st'.
Proof. intros H [_ A] Hs s sc n m H1 H2 H3. rewrite A in H2 by now apply Hs. eapply H; eauto. Qed.
Lemma scopes_both (Sc Sc' : sid -> Prop) st : blameless_scopes Sc st -> blameless_scopes Sc' st ->
  blameless_scopes (fun s => Sc s \/ Sc' s) st.
Proof.
  intros H1 H2 s sc n m [Hs|Hs] H3 H4; [apply (blameless_more Sc)|apply (blameless_more Sc')]; auto; [eapply H1|eapply H2]; eauto.
Qed.

Lemma fine_import F c st ff a w : compiles_fine c -> (exists Sc, fine Sc st w) ->
  settles (fun w => exists Sc, fine Sc st w) (hook_import F c st (next_sid st) ff a w).
Proof.
  intros Hc [Sc Hw]. unfold hook_import. destruct ff as [f|]; [|exists Sc; exact Hw].
  destruct (find_child st (tok st a) "ImportIdentifiers") as [ii|]; [|exact Logic.I].
  destruct (find_child st (tok st a) "Path") as [p|]; [|exact Logic.I].
  destruct (fs_join F f _) as [file|]; [|exact Logic.I].
  destruct (c file (b_store w)) as [[root isc|l] s'|p'|] eqn:Ec; try exact Logic.I.
  - apply Hc in Ec as [Ha (Sc' & B1 & B2 & B3 & B4)].
    destruct (import_idents st _) as [l|e|p'|]; try exact Logic.I.
    destruct Hw as (A1 & A2 & A3 & A4 & A5).
    assert (Hf : fine (fun s => Sc s \/ Sc' s) st (mkBst (b_name w) (b_pats w) (b_errs w) s')).
    { split; [|split; [now left|split; [|split]]]; cbn [b_store b_pats].
      - eapply added_trans; eauto.
      - destruct A1 as [A1 _], Ha as [Ha _]. intros s [Hs|Hs]; [apply A3 in Hs|apply B2 in Hs]; lia.
      - apply scopes_both; [|exact B3]. eapply scopes_frame; eauto. intros s Hs. now apply A3.
      - eapply Forall_impl; [|exact A5]. intros m. apply blameless_more. auto. }
    assert (Hr : blameless (fun s => Sc s \/ Sc' s) (m_set_name (last_root_alias l (m_name root)) root)).
    { apply blameless_set_name. apply (blameless_more Sc'); auto. }
    pose proof (fine_imports _ st _ isc file l Hr (or_intror B1) _ Hf) as Hi.
    destruct (import_all _ _ _ _ _ _ _); cbn [settles] in *; eauto.
  - apply Hc in Ec as [Ha _]. exists Sc. destruct Hw as (A1 & A2 & A3 & A4 & A5).
    split; [|split; [exact A2|split; [|split; [|exact A5]]]]; cbn [b_store].
    + eapply added_trans; eauto.
    + destruct Ha as [Ha _]. intros s Hs. apply A3 in Hs. lia.
    + eapply scopes_frame; eauto. intros s Hs. now apply A3.
Qed.

Lemma build_fine E P F c root name ff st r st' : compiles_fine c ->
  build_matcher E P F c root name ff st = Ret r st' ->
  added st st' /\ match r with ScriptOk m sc => self_contained st m sc st' | ScriptErr _ => True end.
Proof.
  intros Hc. unfold build_matcher. destruct (negb _).
  { intros [= <- <-]. split; [apply added_refl|exact Logic.I]. }
  fold (script_hooks E F c st (next_sid st) ff).
  assert (V : settles (fun w => exists Sc, fine Sc st w)
                (visit st (script_hooks E F c st (next_sid st) ff) root (mkBst name [] [] (sc_new st)))).
  { unfold visit. apply visit_go_keeps.
    - intros n a w Hw. rewrite hook_pick.
      destruct (str_eqb n "Error"); [unfold hook_error; now destruct (get_attr _ _)|].
      destruct (str_eqb n "AdextopaScope"); [unfold hook_scope; now destruct (get_attr _ _)|].
      destruct (str_eqb n "AssignmentExpression").
      { destruct Hw as [Sc Hw]. pose proof (fine_assign Sc E st a w Hw).
        destruct (hook_assign _ _ _ _ _); cbn [settles] in *; eauto. }
      destruct (str_eqb n "ImportStatement"); [now apply fine_import|].
      destruct (str_eqb n "PatternScope"); [|exact Hw].
      destruct Hw as [Sc Hw]. pose proof (fine_patterns Sc E st (tk_kids (tok st a)) w Hw) as Hp. unfold hook_patterns.
      destruct (add_patterns _ _ _ _); cbn [settles] in *; eauto.
    - exists (fun s => s = next_sid st). split; [|split; [reflexivity|split; [|split; [|constructor]]]]; cbn [b_store].
      + apply added_new.
      + intros s ->. unfold sc_new, next_sid. cbn. rewrite app_length. cbn. lia.
      + intros s sc n m -> H1 H2. rewrite new_empty in H1. destruct H1. }
  destruct (visit _ _ _ _) as [w|w e|p|]; cbn [settles] in V; intros H; try discriminate.
  - injection H as <- <-. destruct V as (Sc & A1 & A2 & A3 & A4 & A5). split; [exact A1|].
    exists Sc. split; [exact A2|split; [exact A3|split; [exact A4|]]]. unfold root_matcher.
    constructor; [exact Logic.I|]. intros x [<-|[]]. constructor; [exact A2|]. intros x [<-|[]].
    constructor; [exact Logic.I|]. intros x [<-|[]]. constructor; [exact Logic.I|]. now apply ok_list.
  - destruct V as (Sc & A1 & _). destruct (pe_msg e); [|destruct (error_string _ _ _ _); [|discriminate]];
      injection H as <- <-; auto.
Qed.

(* ---------- the parse ---------- *)

Ltac hm := repeat (constructor; [exact Logic.I|cbn [parts]; intros ? Hin;
  repeat (destruct Hin as [<-|Hin]); try (now destruct Hin)]).
Lemma script_home E : home (Script_ E) /\ home (ScriptSwitchMatcher E) /\ home (ScriptProgramMatcher E).
Proof.
  assert (H : home (ScriptPatternDefinition E)) by (unfold ScriptPatternDefinition, ScriptMatcher, ScriptRegexMatcher, ScriptAttributes; hm).
  assert (HP : home (ScriptPattern E)) by (constructor; [exact Logic.I|]; intros x [<-|[<-|[]]]; [|exact H]; hm; exact H).
  split; [|split]; hm; auto.
Qed.
Lemma hoist_scopes root a st : st_scopes (hoist root a st) = st_scopes st.
Proof. reflexivity. Qed.
Lemma fold_scopes (g : addr -> state -> option state) (Hg : forall k s s', g k s = Some s' -> st_scopes s' = st_scopes s) :
  forall l st st', fold_left (fun o k => match o with Some s => g k s | None => None end) l (Some st) = Some st' ->
  st_scopes st' = st_scopes st.
Proof.
  assert (H0 : forall l, fold_left (fun o k => match o with Some s => g k s | None => None end) l None = None).
  { induction l; cbn; auto. }
  induction l as [|k l IH]; intros st st'; cbn [fold_left]; [now intros [= <-]|].
  destruct (g k st) as [s|] eqn:Ek; [|now rewrite H0]. intros H. apply IH in H. apply Hg in Ek. congruence.
Qed.
Lemma collect_scopes root : forall f a st st', collect f root a st = Some st' -> st_scopes st' = st_scopes st.
Proof.
  induction f as [|f IH]; intros a st st'; cbn [collect]; [discriminate|].
  destruct (fold_left _ _ _) as [st1|] eqn:Ef; [|discriminate]. intros [= <-]. rewrite hoist_scopes.
  apply (fold_scopes (fun k st => collect f root k st)) in Ef; [exact Ef|exact IH].
Qed.
Lemma tokenize_home E P n c m st r st' : home m -> home_scope (c_scope c) st -> tokenize n E P c m st = Ret r st' ->
  elsewhere (c_scope c) st st'.
Proof.
  intros Hm Hs H. unfold tokenize in H. destruct (exec n E P m c (c_scope c) st) as [x st1|p|] eqn:Ex; try discriminate.
  apply exec_home in Ex; [|exact Hm]. apply Ex in Hs as [He _].
  enough (st_scopes st' = st_scopes st1) as Hsc by (unfold elsewhere, stack_of in *; now rewrite Hsc).
  assert (Hf : forall a, finish_token a st1 = Ret r st' -> st_scopes st' = st_scopes st1).
  { intros a Hf. unfold finish_token, collect_errors in Hf. destruct (fold_left _ _ _) as [s|] eqn:Ef; [|discriminate].
    injection Hf as _ <-. apply (fold_scopes (fun k s => collect (S (List.length (st_heap st1))) a k s)) in Ef; [exact Ef|].
    intros k s0 s1. apply collect_scopes. }
  destruct x as [[a|a|z|b q|b q| |]|e]; try (now injection H as _ <-); eauto;
    destruct q; try (now injection H as _ <-); eauto.
Qed.
Lemma elsewhere_added s st st' : (next_sid st <= s)%nat -> elsewhere s st st' -> added st st'.
Proof.
  intros Hs [H1 H2]. unfold added, next_sid in *. rewrite H1. split; [lia|]. intros s' Hs'. apply H2. lia.
Qed.

Lemma compile_fine n E F c P name ff log st r st' : compiles_fine c ->
  compile_with n E F c P name ff log st = Ret r st' ->
  added st st' /\ match r with ScriptOk m sc => self_contained st m sc st' | ScriptErr _ => True end.
Proof.
  intros Hc. unfold compile_with.
  assert (Hst : home_scope (next_sid st) (script_start E P name st) /\ added st (script_start E P name st)).
  { destruct (script_home E) as (_ & H1 & H2).
    assert (H0 : home_scope (next_sid st) (sc_new st)).
    { intros sc k m Hsc Hin. rewrite new_empty in Hsc. destruct Hsc. }
    unfold script_start, script_ctx, context_new, register_all, register, register_named. cbn [fst snd c_scope fold_left].
    split.
    - apply homely_set; [intros m [= <-]; exact H2|]. apply homely_set; [intros m [= <-]; exact H1|]. exact H0.
    - apply added_set; [lia|]. apply added_set; [lia|]. apply added_new. }
  destruct Hst as [Hh Ha]. unfold script_start, script_ctx in *.
  destruct (context_new P name st) as [cc st0] eqn:Ec. cbn [fst snd] in *.
  assert (Hcc : c_scope cc = next_sid st) by (now injection Ec as <- _). rewrite <- Hcc in Hh.
  destruct (tokenize n E P cc (Script_ E) _) as [t st1|p|] eqn:Et; try discriminate.
  apply tokenize_home in Et; [|apply script_home|exact Hh].
  assert (Ha1 : added st st1).
  { destruct Ha as [A1 A2]. destruct Et as [B1 B2]. unfold added, next_sid in *. rewrite B1. split; [lia|].
    intros s Hs. rewrite B2 by lia. auto. }
  destruct t as [a|[|e]].
  - destruct (build_matcher E P F c a name ff st1) as [b st2|p|] eqn:Eb; try discriminate.
    apply build_fine in Eb as [B1 B2]; [|exact Hc]. intros H.
    assert (b = r /\ st2 = st') as [-> ->].
    { destruct b; [destruct (_ && _); [discriminate|]|]; injection H as <- <-; auto. }
    split; [eapply added_trans; eauto|]. destruct r as [m sc|]; [|exact Logic.I].
    destruct B2 as (Sc & C1 & C2 & C3). exists Sc. split; [exact C1|]. split; [|exact C3].
    intros s Hs. apply C2 in Hs. destruct Ha1. lia.
  - intros [= <- <-]. auto.
  - intros [= <- <-]. auto.
Qed.
Lemma file_fine n E F log : forall d, compiles_fine (compile_file d n E F log).
Proof.
  induction d as [|d IH]; intros file st r st'; cbn [compile_file]; [discriminate|].
  destruct (fs_canon F file) as [full|]; [|discriminate]. destruct (fs_read F full); [|discriminate].
  now apply compile_fine.
Qed.
Lemma str_fine n E src name log st r st' : compile_str n E src name log st = Ret r st' ->
  added st st' /\ match r with ScriptOk m sc => self_contained st m sc st' | ScriptErr _ => True end.
Proof. apply compile_fine. discriminate. Qed.

(* parsing with a compiled script *)
Lemma script_blameless E P name st0 m sc st : tame E -> tidy E -> (forall Sc, polite (fun _ => True) False Sc E) ->
  self_contained st0 m sc st ->
  forall root st', Tokenizes E P (script_ctx P name st) m (snd (context_new P name st)) (TOk root) st' ->
  forall l x, preorder st' [root] l -> In x l -> is_error (tok st' x) = false.
Proof.
  intros HE HT Hp (Sc & H1 & H2 & H3 & H4) root st' Ht l x Hl Hx.
  set (Sc' := fun s => Sc s \/ s = next_sid st).
  assert (Hn : is_error (tok st' x) = true -> False).
  { eapply (tokenized_named (fun _ => True) False Sc'); [exact HE|exact HT|apply Hp| | | |exact Ht|exact Hl|exact Hx].
    - cbn [snd context_new]. intros s sc0 n m0 Hs Hsc Hin. destruct Hs as [Hs| ->].
      + destruct (added_new st) as [_ A]. rewrite A in Hsc by (apply H2 in Hs; lia).
        apply (blameless_more Sc); [unfold Sc'; auto|]. eapply H3; eauto.
      + rewrite new_empty in Hsc. destruct Hsc.
    - now right.
    - apply (blameless_more Sc); [unfold Sc'; auto|exact H4]. }
  destruct (is_error (tok st' x)); [now destruct Hn|reflexivity].
Qed.
Lemma text_contained n E src name log st m sc st' :
  compile_str n E src name log st = Ret (ScriptOk m sc) st' -> self_contained st m sc st'.
Proof. intros H. now apply str_fine in H. Qed.
Lemma file_contained d n E F log file st m sc st' :
  compile_file d n E F log file st = Ret (ScriptOk m sc) st' -> self_contained st m sc st'.
Proof. intros H. now apply file_fine in H. Qed.
Lemma text_added n E src name log st r st' : compile_str n E src name log st = Ret r st' -> added st st'.
Proof. intros H. now apply str_fine in H. Qed.
Lemma file_added d n E F log file st r st' : compile_file d n E F log file st = Ret r st' -> added st st'.
Proof. intros H. now apply file_fine in H. Qed.
Lemma runs_home E P m c s st r st' : home m -> home_scope s st -> Runs E P m c s st r st' ->
  elsewhere s st st' /\ home_scope s st'.
Proof. intros Hm Hs [n H]. apply exec_home in H; auto. Qed.
