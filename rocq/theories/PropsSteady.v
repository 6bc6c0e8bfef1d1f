(* C67: scripts that make something of every text.  [steady_script]
   (SpecSteady.v), [enters_entry], [own_book], [results] (SpecMatch.v). *)
From Verif Require Import ScriptBuild Spec SteadyProofs SpecScript SpecMore SpecSyntax Samples SampleScripts SampleSteady SpecMatch SpecSteady.
Open Scope string_scope.
Open Scope list_scope.
Open Scope N_scope.

(* ---------------------------------------------------------------- C67 *)

(* A script in which references do not lead in circles without anything being
   taken has a reading of every text, and tokenizing ends with it. *)
Theorem C67_script : forall E P F compile name ff, tame E -> tidy E -> scope_tame E ->
  ascii_only (p_src P) -> slen (p_src P) < isize_bound ->
  forall d st, script_text E d (p_src P) -> (forall ns path, ~ In (Import ns path) (s_statements d)) -> script_fault d = None ->
  steady_script d -> let sc := S (next_sid st) in
  exists fuel st1, compile_with fuel E F compile P name ff false st = Ret (ScriptOk (compiled_script name sc d) sc) st1 /\
    forall Q label, ascii_only (p_src Q) -> slen (p_src Q) < isize_bound ->
      exists x D' t st2,
        enters_entry (p_src Q) (own_book sc d) (next_sid st1) (Whole (s_name name d) sc (s_patterns d)) (p_src Q) x D' /\
        Tokenizes E Q (fst (context_new Q label st1)) (compiled_script name sc d) (snd (context_new Q label st1)) t st2 /\
        results (p_src Q) st2 x t.
Proof. exact script_ends. Qed.
Print Assumptions C67_script.

(* Lists of lists refer to each other in a circle, but not before a "(" has
   been taken.  C19_example_tame, C36_example_tidy and C21_example_tame are the
   first three hypotheses for [at_env]. *)
Example C67_example_nest :
  nest_text = "<!--[adextopa version='1'] List = <{ <='('> (<Item>+) <=')'> }> Item = <[ (<='x'>) | (<List>) ]>-->(<List>)" /\
  script_text at_env nest_script nest_text /\ script_fault nest_script = None /\
  (forall ns path, ~ In (Import ns path) (s_statements nest_script)) /\ steady_script nest_script.
Proof.
  split; [reflexivity|]. split; [exact nest_written|]. split; [reflexivity|]. split; [|exact nest_steady].
  intros ns path. cbn. intuition discriminate.
Qed.
Example C67_example_nest_run :
  match compile_str 100 at_env nest_text "T" false empty_state with
  | Ret (ScriptOk m sc) st =>
      m = compiled_script "T" 1%nat nest_script /\
      let outcome := fun src => let P := parser_new src in let (c, st1) := context_new P "Test" st in
                     match tokenize 100 at_env P c m st1 with
                     | Ret (TOk a) st' => Some (Some (tk_mr (tok st' a)))
                     | Ret (TErr FFail) st' => Some None
                     | _ => None
                     end in
      outcome "(x(xx)((x)))!" = Some (Some (mkR 0 12)) /\ outcome "(x(" = Some None /\ outcome "()" = Some None
  | _ => False
  end.
Proof. vm_compute. repeat split. Qed.
(* the script of C61_example *)
Example C67_example_demo : steady_script demo_script.
Proof. exact demo_steady. Qed.
