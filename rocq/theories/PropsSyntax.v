(* C60, C61: written patterns, scripts and files.  [writes], [meaning], [script_text],
   [fault_of], [faultless], [script_fault], [all_stated],
   [last_definition], [compiled_script], [sound], [compiled],
   [grown] (SpecSyntax.v). *)
From Verif Require Import ScriptBuild Spec CompileProofs ProjectProofs SpecScript SpecSyntax Samples ConformMatchers ConformGrammar ConformScript SampleScripts.
Open Scope string_scope.
Open Scope list_scope.
Open Scope N_scope.

(* ---------------------------------------------------------------- C60 *)

(* a pattern anywhere in a source, not followed by what would repeat it *)
Theorem C60_pattern : forall E P p pre t r c s st, tame E -> tidy E ->
  ascii_only (p_src P) -> slen (p_src P) < isize_bound ->
  writes E p t -> p_src P = pre ++ t ++ r -> (forall x u, r = x :: u -> ~ In x (lit "*+{")) ->
  c_debug c = 0 -> c_off c = mkR (slen pre) (slen (p_src P)) -> valid_scope st s ->
  sc_get st s "SwitchMatcher" = Some (VMatcher (ScriptSwitchMatcher E)) ->
  sc_get st s "ProgramMatcher" = Some (VMatcher (ScriptProgramMatcher E)) ->
  fault_of p = None ->
  exists a st', Runs E P (ScriptPattern E) c s st (Ok (SToken a)) st' /\
    re (tk_mr (tok st' a)) = slen (pre ++ t) /\ construct_pattern E st' a = COk (meaning p).
Proof. exact pattern_reads. Qed.
Print Assumptions C60_pattern.

(* a script whose imports can be carried out *)
Theorem C60_script : forall E P F compile name from_file, tame E -> tidy E ->
  ascii_only (p_src P) -> slen (p_src P) < isize_bound ->
  forall d st, script_text E d (p_src P) -> faultless (s_patterns d) ->
  exists root st1, Tokenizes E P (script_ctx P name st) (Script_ E) (script_start E P name st) (TOk root) st1 /\
    forall st', all_stated F compile (next_sid st1) from_file (s_statements d) (sc_new st1) st' ->
      exists fuel, compile_with fuel E F compile P name from_file false st =
        Ret (ScriptOk (compiled_script name (next_sid st1) d) (next_sid st1)) st'.
Proof. exact script_compiles. Qed.
Print Assumptions C60_script.

(* a script without imports *)
Theorem C60_alone : forall E P F compile name from_file, tame E -> tidy E ->
  ascii_only (p_src P) -> slen (p_src P) < isize_bound ->
  forall d st, scope_tame E -> script_text E d (p_src P) ->
  (forall names path, ~ In (Import names path) (s_statements d)) -> script_fault d = None ->
  exists fuel st', compile_with fuel E F compile P name from_file false st =
      Ret (ScriptOk (compiled_script name (S (next_sid st)) d) (S (next_sid st))) st' /\
    forall x, sc_get st' (S (next_sid st)) x = option_map VMatcher (last_definition x (s_statements d)).
Proof. exact script_compiles_alone. Qed.
Print Assumptions C60_alone.

(* [tame at_env], [tidy at_env] and [scope_tame at_env] are C19_example_tame,
   C36_example_tidy and C21_example_tame *)
Example C60_example_text : demo_text =
"# demo
<!--[adextopa version='1' name='List'] Digit = <='7'> # seven
 Any = <[ <='x' why='so'> | (<Digit>+) ]>-->
(<Any>{2,4})  <!='it\'s'>".
Proof. reflexivity. Qed.
Example C60_example_written : script_text at_env demo_script demo_text.
Proof. exact demo_written. Qed.
Example C60_example_faultless : script_fault demo_script = None /\ faultless (s_patterns demo_script).
Proof. split; [reflexivity|]. repeat constructor. Qed.
Example C60_example_small : ascii_only demo_text /\ slen demo_text < isize_bound.
Proof. split; [|reflexivity]. apply ascii_text. vm_compute. reflexivity. Qed.
(* what the theorem promises, and what the model computes *)
Example C60_example :
  match compile_str 100 at_env demo_text "T" false empty_state with
  | Ret (ScriptOk m sc) st =>
      m = compiled_script "T" 1%nat demo_script /\ sc = 1%nat /\
      sc_get st sc "Digit" = Some (VMatcher (EqualsN "Digit" "7")) /\
      sc_get st sc "Any" = option_map VMatcher (last_definition "Any" (s_statements demo_script)) /\
      sc_get st sc "Other" = None
  | _ => False
  end.
Proof. vm_compute. auto 10. Qed.
Example C60_example_matcher : compiled_script "T" 1%nat demo_script =
  MProgram [MSetScope (Some 1%nat) (MProxy (MProgram
     [MProgram [MRef (FStr "Any") "Ref" false] (mkPI "Loop" (Some (2, 4)) false false);
      MDiscard (MNot (Equals_ "it's"))] (mkPI "Program" None false false)) "Flatten" false)]
    (mkPI "List" None false true) /\
  last_definition "Any" (s_statements demo_script) = Some
    (MProgram [MDiscard (MMap (Equals_ "x") (MapAttrs [(lit "why", lit "so")]));
               MProgram [MRef (FStr "Digit") "Ref" false] (mkPI "Loop" (Some (1, usize_max)) false false)]
              (mkPI "Any" None true true)).
Proof. split; reflexivity. Qed.

(* ---------------------------------------------------------------- C61 *)

(* [m] and [sc] are what the file says ([compiled]) for every depth of imports
   and fuel from some [n] on, and nothing older is changed *)
Theorem C61_project : forall E F file d, tame E -> tidy E -> sound E F file d -> forall st, exists n m sc st',
  (forall depth fuel, (n <= depth)%nat -> (n <= fuel)%nat ->
     compile_file depth fuel E F false file st = Ret (ScriptOk m sc) st') /\
  compiled E F st' (next_sid st) (next_sid st') file d m sc /\ grown st st'.
Proof. exact project_compiles. Qed.
Print Assumptions C61_project.

Example C61_example_texts :
  lib_text = "<!--[adextopa version='1'] Digit = <='7'>-->" /\
  main_text = "<!--[adextopa version='1'] import { Digit as D, _ as Lib } from './lib'-->(<D>)".
Proof. split; reflexivity. Qed.
Example C61_example_sound : sound at_env two_files "/p/main" main_script.
Proof. exact main_sound. Qed.
(* scope 0 is that of the parse, 1 has the definitions, 2 and 3 are those of
   the imported file *)
Example C61_example :
  match compile_file 2 100 at_env two_files false "/p/main" empty_state with
  | Ret (ScriptOk m sc) st =>
      m = compiled_script "/p/main" 1%nat main_script /\ sc = 1%nat /\
      sc_get st 1%nat "D" = Some (VMatcher (MSetScope (Some 3%nat) (MMap (EqualsN "Digit" "7") (MapRename "D")))) /\
      sc_get st 1%nat "Lib" = Some (VMatcher (m_set_name "Lib" (compiled_script "/p/lib" 3%nat lib_script))) /\
      sc_get st 3%nat "Digit" = Some (VMatcher (EqualsN "Digit" "7")) /\
      sc_get st 1%nat "Digit" = None
  | _ => False
  end.
Proof. vm_compute. auto 10. Qed.
