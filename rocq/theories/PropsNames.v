(* C78: the names of tokens come from the grammar.  C79: so do errors, and
   compiled scripts have none.  C80: scope contexts of others are left alone.
   [speaks], [scopes_speak], [polite], [blameless], [self_contained], [home],
   [home_scope], [elsewhere], [added] (SpecNames.v); [preorder], [result_tokens],
   [Tokenizes] (Spec.v). *)
From Verif Require Import NamesProofs HomeProofs NamesCompile PropsPrograms PropsTokenize Samples SampleScripts.
From Verif Require Import SpecScript SpecNames.
Open Scope string_scope.
Open Scope list_scope.
Open Scope N_scope.

(* ---------------------------------------------------------------- C78 *)

(* Let [Nm] hold for all names that programs, literals, expressions, sequences
   and renamings of a grammar give ("Error" only when it can complain), and for
   those of the matchers it can refer to.  Then it holds for the names of all
   tokens of a result; and a token is marked as an error only if the grammar or
   a matcher it can refer to makes errors. *)
Theorem C78_runs : forall Nm err Sc E P m c s st r st', tame E -> polite Nm err Sc E ->
  scopes_speak Nm err Sc st -> Sc s -> Sc (c_scope c) -> speaks Nm err Sc m -> Runs E P m c s st r st' ->
  forall a l x, In a (result_tokens r) -> preorder st' [a] l -> In x l ->
  Nm (tk_name (tok st' x)) /\ (is_error (tok st' x) = true -> err).
Proof. exact runs_named. Qed.
Print Assumptions C78_runs.

(* The same after tokenizing, which moves errors *)
Theorem C78_tokenizes : forall Nm err Sc E P m c st a st', tame E -> tidy E -> polite Nm err Sc E ->
  scopes_speak Nm err Sc st -> Sc (c_scope c) -> speaks Nm err Sc m -> Tokenizes E P c m st (TOk a) st' ->
  forall l x, preorder st' [a] l -> In x l -> Nm (tk_name (tok st' x)) /\ (is_error (tok st' x) = true -> err).
Proof. exact tokenized_named. Qed.
Print Assumptions C78_tokenizes.

Example C78_example_env : forall Nm err Sc, polite Nm err Sc at_env.
Proof.
  intros Nm err Sc h st Hh Hf Hw Hs. split; [|split; [|split]]; cbn.
  - intros k a c s r st' Ha Hn H. injection H as <- <-. split; [exact Hw|split; [exact Hs|split; [auto|]]].
    intros b [<-|[]]. exact Hn.
  - intros k e c s r st' H. injection H as <- <-. split; [exact Hw|split; [exact Hs|split; [auto|]]]. intros b [].
  - intros k e c r st' H. injection H as <- <-. split; [exact Hw|split; [exact Hs|split; [auto|]]]. intros b [].
  - intros k c s r st' H. injection H as <- <-. split; [exact Hw|split; [exact Hs|split; [auto|]]]. intros b [].
Qed.
Definition greeting : matcher :=
  ProgramN "Line" [MMap (Equals_ "hello") (MapRename "Word"); MDiscard (Equals_ " "); EqualsN "Who" "you"].
Example C78_example_grammar :
  speaks (fun n => In n [lit "Line"; lit "Word"; lit "Who"; lit "Equals"]) False (fun _ => True) greeting /\
  scopes_speak (fun n => In n [lit "Line"; lit "Word"; lit "Who"; lit "Equals"]) False (fun _ => True) at_state.
Proof.
  split.
  - constructor; [cbn; auto|]. intros x [<-|[<-|[<-|[]]]].
    + constructor; [cbn; auto|]. intros x [<-|[]]. constructor; [cbn; auto 6|]. intros x [].
    + constructor; [intros []|]. intros x [<-|[]]. constructor; [cbn; auto 6|]. intros x [].
    + constructor; [cbn; auto|]. intros x [].
  - intros s sc n m _ H1 H2. unfold stack_of, at_state in H1. cbn [st_scopes] in H1.
    destruct s as [|[|s]]; cbn in H1; intuition (subst; contradiction).
Qed.
Example C78_example :
  match at_run 6 greeting "hello you" with
  | Ret (Ok (SToken a)) st =>
      map (fun k => tk_name (tok st k)) (a :: tk_kids (tok st a)) = [lit "Line"; lit "Word"; lit "Who"] /\
      forallb (fun k => negb (is_error (tok st k))) (a :: tk_kids (tok st a)) = true
  | _ => False
  end.
Proof. vm_compute. split; reflexivity. Qed.
(* with an assertion in the grammar there are errors *)
Example C78_example_complains :
  match at_run 6 (ProgramN "Line" [AssertIf (Equals_ "hello") "no greetings"; Equals_ " you"]) "hello you" with
  | Ret (Ok (SToken a)) st => map (fun k => (tk_name (tok st k), is_error (tok st k))) (tk_kids (tok st a)) =
      [(lit "Error", true); (lit "Equals", false)]
  | _ => False
  end.
Proof. vm_compute. reflexivity. Qed.

(* ---------------------------------------------------------------- C79 *)

(* Whatever the text, what is compiled from it makes no errors: its patterns and
   all matchers in its own scope context and those of the scripts it imports *)
Theorem C79_text : forall n E src name log st m sc st',
  compile_str n E src name log st = Ret (ScriptOk m sc) st' -> self_contained st m sc st'.
Proof. exact text_contained. Qed.
Print Assumptions C79_text.
Theorem C79_file : forall depth n E F log file st m sc st',
  compile_file depth n E F log file st = Ret (ScriptOk m sc) st' -> self_contained st m sc st'.
Proof. exact file_contained. Qed.
Print Assumptions C79_file.
(* Parsing any text with it gives a tree without errors, or no tree. *)
Theorem C79_parses : forall E P name st0 m sc st, tame E -> tidy E -> (forall Sc, polite (fun _ => True) False Sc E) ->
  self_contained st0 m sc st ->
  forall root st', Tokenizes E P (script_ctx P name st) m (snd (context_new P name st)) (TOk root) st' ->
  forall l x, preorder st' [root] l -> In x l -> is_error (tok st' x) = false.
Proof. exact script_blameless. Qed.
Print Assumptions C79_parses.

Example C79_example :
  match compile_str 100 at_env demo_text "T" false empty_state with
  | Ret (ScriptOk m _) st =>
      match tokenize 50 at_env (parser_new "x777") (script_ctx (parser_new "x777") "T" st) m (snd (context_new (parser_new "x777") "T" st)) with
      | Ret (TOk a) st' => map (fun k => (tk_name (tok st' k), tk_cvalue (tok st' k))) (a :: tk_kids (tok st' a)) =
          [(lit "List", lit "777"); (lit "Loop", lit "777")]
      | _ => False
      end
  | _ => False
  end.
Proof. vm_compute. reflexivity. Qed.

(* ---------------------------------------------------------------- C80 *)

(* A grammar without given scopes and user code only ever changes the scope
   context it is executed in. *)
Theorem C80_home : forall E P m c s st r st', home m -> home_scope s st -> Runs E P m c s st r st' ->
  elsewhere s st st' /\ home_scope s st'.
Proof. exact runs_home. Qed.
Print Assumptions C80_home.
Theorem C80_grammar : forall E, home (Script_ E) /\ home (ScriptSwitchMatcher E) /\ home (ScriptProgramMatcher E).
Proof. exact script_home. Qed.
Print Assumptions C80_grammar.
(* Compiling a script, with success or not, leaves all scope contexts there were
   as they were; so nothing that was compiled or registered before is changed. *)
Theorem C80_text : forall n E src name log st r st', compile_str n E src name log st = Ret r st' -> added st st'.
Proof. exact text_added. Qed.
Print Assumptions C80_text.
Theorem C80_file : forall depth n E F log file st r st', compile_file depth n E F log file st = Ret r st' -> added st st'.
Proof. exact file_added. Qed.
Print Assumptions C80_file.

(* two scripts that define the same names one after the other *)
Example C80_example :
  match compile_str 100 at_env demo_text "T" false at_state with
  | Ret (ScriptOk _ sc1) st1 =>
      match compile_str 100 at_env "<!--[adextopa version='1'] Digit = <='8'>-->(<Digit>)" "U" false st1 with
      | Ret (ScriptOk _ sc2) st2 =>
          (sc1, sc2) = (2, 4)%nat /\ sc_get st2 sc1 "Digit" = Some (VMatcher (EqualsN "Digit" "7")) /\
          sc_get st2 sc2 "Digit" = Some (VMatcher (EqualsN "Digit" "8"))
      | _ => False
      end
  | _ => False
  end.
Proof. vm_compute. repeat split. Qed.
