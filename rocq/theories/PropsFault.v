(* C64: written patterns and scripts with faults.  [writes], [script_text],
   [fault_of], [script_fault], [script_wrong] (SpecSyntax.v),
   [complains], [crashes], [pattern_message] (SpecScript.v), [error_text] (Spec.v). *)
From Verif Require Import ScriptBuild Spec CompileProofs FaultProofs SpecScript SpecSyntax Samples SampleScripts.
Open Scope string_scope.
Open Scope list_scope.
Open Scope N_scope.

(* ---------------------------------------------------------------- C64 *)

(* every fault is either complained about or a crash *)
Theorem C64_faults : forall f,
  ((exists msg, complains f msg) /\ forall p, ~ crashes f p) \/ ((exists p, crashes f p) /\ forall msg, ~ complains f msg).
Proof. exact faults_fare. Qed.
Print Assumptions C64_faults.

(* a faulty pattern anywhere in a source is parsed like any other *)
Theorem C64_pattern : forall E P p f pre t r c s st, tame E -> tidy E ->
  ascii_only (p_src P) -> slen (p_src P) < isize_bound ->
  writes E p t -> p_src P = pre ++ t ++ r -> (forall x u, r = x :: u -> ~ In x (lit "*+{")) ->
  c_debug c = 0 -> c_off c = mkR (slen pre) (slen (p_src P)) -> valid_scope st s ->
  sc_get st s "SwitchMatcher" = Some (VMatcher (ScriptSwitchMatcher E)) ->
  sc_get st s "ProgramMatcher" = Some (VMatcher (ScriptProgramMatcher E)) ->
  fault_of p = Some f ->
  exists a st', Runs E P (ScriptPattern E) c s st (Ok (SToken a)) st' /\
    re (tk_mr (tok st' a)) = slen (pre ++ t) /\
    (forall msg, complains f msg -> construct_pattern E st' a = CErr msg) /\
    (forall q, crashes f q -> construct_pattern E st' a = CPan q).
Proof. exact pattern_refused. Qed.
Print Assumptions C64_pattern.

(* a script whose imports up to the fault can be carried out *)
Theorem C64_script : forall E P F compile name from_file, tame E -> tidy E ->
  ascii_only (p_src P) -> slen (p_src P) < isize_bound ->
  forall d st, script_text E d (p_src P) ->
  exists root st1, Tokenizes E P (script_ctx P name st) (Script_ E) (script_start E P name st) (TOk root) st1 /\
    forall f, script_wrong F compile (next_sid st1) from_file d (sc_new st1) (Faulty f) ->
      (forall p, crashes f p -> exists fuel, compile_with fuel E F compile P name from_file false st = Pan p) /\
      (forall msg, complains f msg -> exists fuel text st', error_text P (pattern_message msg) (mkR 0 0) text /\
         compile_with fuel E F compile P name from_file false st = Ret (ScriptErr [mkPE text (Some (mkR 0 0))]) st').
Proof. exact script_faulted. Qed.
Print Assumptions C64_script.

(* a script without imports; without a fault it is compiled (C60_alone) *)
Theorem C64_alone : forall E P F compile name from_file, tame E -> tidy E ->
  ascii_only (p_src P) -> slen (p_src P) < isize_bound ->
  forall d st f, script_text E d (p_src P) ->
  (forall names path, ~ In (Import names path) (s_statements d)) -> script_fault d = Some f ->
  (forall p, crashes f p -> exists fuel, compile_with fuel E F compile P name from_file false st = Pan p) /\
  (forall msg, complains f msg -> exists fuel text st', error_text P (pattern_message msg) (mkR 0 0) text /\
     compile_with fuel E F compile P name from_file false st = Ret (ScriptErr [mkPE text (Some (mkR 0 0))]) st').
Proof. exact script_refused_alone. Qed.
Print Assumptions C64_alone.

(* [tame at_env] and [tidy at_env] are C19_example_tame and C36_example_tidy *)
Example C64_example_text : faulty_text = "<!--[adextopa version='1'] Digit = <='7'>-->(<Digit>{3,2}) <=''>".
Proof. reflexivity. Qed.
Example C64_example_written : script_text at_env faulty_script faulty_text.
Proof. exact faulty_written. Qed.
Example C64_example_fault : script_fault faulty_script = Some (Reversed 3 2) /\
  complains (Reversed 3 2) "Error with repeat specifier: Maximum range is smaller than minimum: {3, 2}".
Proof.
  split; [reflexivity|]. apply (co_reversed 3 2 "3" "2").
  - split; [discriminate|]. split; [intros x [<-|[]]; vm_compute; split; discriminate|]. split; [reflexivity|discriminate].
  - split; [discriminate|]. split; [intros x [<-|[]]; vm_compute; split; discriminate|]. split; [reflexivity|discriminate].
Qed.
Example C64_example :
  match compile_str 100 at_env faulty_text "T" false empty_state with
  | Ret (ScriptErr [e]) st =>
      e = mkPE "Error: @[1:1]: Error attempting to create matcher from parsed pattern token: Error with repeat specifier: Maximum range is smaller than minimum: {3, 2}" (Some (mkR 0 0)) /\
      sc_get st 1%nat "Digit" = Some (VMatcher (EqualsN "Digit" "7"))
  | _ => False
  end.
Proof. vm_compute. auto. Qed.
(* the fault of a definition comes before those of the patterns *)
Example C64_example_crash :
  senseless_text = "<!--[adextopa version='1'] Odd = <%'','b',''>--><=''>" /\ script_text at_env senseless_script senseless_text /\
  script_fault senseless_script = Some EmptyStart /\
  compile_str 100 at_env senseless_text "T" false empty_state = Pan (PMessage "Sequence `start` pattern of """" makes no sense").
Proof. split; [reflexivity|]. split; [exact senseless_written|]. split; reflexivity. Qed.
