(* C65: scripts and files with which something is wrong.  [script_fails],
   [trouble], [ends_in] (SpecScript.v), [script_wrong], [blames], [culprit],
   [explored], [ends_as], [no_script] (SpecSyntax.v), [error_text] (Spec.v). *)
From Verif Require Import ScriptBuild Spec CompileProofs FaultProofs FatalProofs BrokenProofs ProjectProofs CulpritProofs SpecScript SpecMore SpecSyntax Samples SampleScripts.
Open Scope string_scope.
Open Scope list_scope.
Open Scope N_scope.

(* ---------------------------------------------------------------- C65 *)

(* the tokens of a script, read in document order: the first that cannot be
   carried out ends the compilation *)
Theorem C65_tokens : forall E F compile P name from_file st root st1 l t, tame E -> tidy E ->
  Tokenizes E P (script_ctx P name st) (Script_ E) (script_start E P name st) (TOk root) st1 ->
  tk_name (tok st1 root) = "Script" -> preorder st1 [root] l ->
  (forall msg place, t = Complaint msg place -> sliceable (p_src P) place /\ re place < usize_max) ->
  script_fails E F compile st1 (next_sid st1) from_file l (name, [], sc_new st1) t ->
  exists fuel, ends_in P t (compile_with fuel E F compile P name from_file false st).
Proof. exact compile_fails. Qed.
Print Assumptions C65_tokens.

(* a written script, [compile] being what becomes of imported files *)
Theorem C65_script : forall E P F compile name from_file, tame E -> tidy E ->
  ascii_only (p_src P) -> slen (p_src P) < isize_bound ->
  forall d st, script_text E d (p_src P) ->
  exists root st1, Tokenizes E P (script_ctx P name st) (Script_ E) (script_start E P name st) (TOk root) st1 /\
    forall b, script_wrong F compile (next_sid st1) from_file d (sc_new st1) b ->
      exists t fuel, blames P b t /\ ends_in P t (compile_with fuel E F compile P name from_file false st).
Proof. exact script_refused. Qed.
Print Assumptions C65_script.

(* without a file there is nothing to import from *)
Theorem C65_forbidden : forall E P F compile name, tame E -> tidy E ->
  ascii_only (p_src P) -> slen (p_src P) < isize_bound ->
  forall d before names path after st, script_text E d (p_src P) ->
  s_statements d = before ++ Import names path :: after ->
  (forall ns p, ~ In (Import ns p) before) -> first_fault (map statement_fault before) = None ->
  exists fuel place text st', rs place <= re place /\ re place <= slen (p_src P) /\
    error_text P "Found import statement, but it is forbidden to use imports when not parsing from a file" place text /\
    compile_with fuel E F compile P name None false st = Ret (ScriptErr [mkPE text (Some place)]) st'.
Proof. exact import_forbidden. Qed.
Print Assumptions C65_forbidden.

(* files: the culprit decides how the compilation ends, for every depth of
   imports and fuel from some [n] on *)
Theorem C65_project : forall E F file c, tame E -> tidy E -> culprit E F file c -> forall st, exists n,
  forall depth fuel, (n <= depth)%nat -> (n <= fuel)%nat -> ends_as c (compile_file depth fuel E F false file st).
Proof. intros E F file c H1 H2 H3. exact (proj1 (culprit_stops E F H1 H2) file c H3). Qed.
Print Assumptions C65_project.

(* without circles a file is either sound (C61) or has a culprit, and the
   compilation ends *)
Theorem C65_explored : forall E F, tame E -> tidy E -> forall file, explored E F file -> forall st,
  (exists d, sound E F file d /\ exists n, forall depth fuel, (n <= depth)%nat -> (n <= fuel)%nat ->
     exists m sc st', compile_file depth fuel E F false file st = Ret (ScriptOk m sc) st') \/
  (exists c, culprit E F file c /\ exists n, forall depth fuel, (n <= depth)%nat -> (n <= fuel)%nat ->
     ends_as c (compile_file depth fuel E F false file st)).
Proof. exact explored_ends. Qed.
Print Assumptions C65_explored.
Theorem C65_not_both : forall E F, tame E -> tidy E -> forall file d c, sound E F file d -> culprit E F file c -> False.
Proof. exact sound_or_culprit. Qed.
Print Assumptions C65_not_both.

(* [tame at_env] and [tidy at_env] are C19_example_tame and C36_example_tidy *)
Example C65_example_texts :
  main_text = "<!--[adextopa version='1'] import { Digit as D, _ as Lib } from './lib'-->(<D>)" /\
  wanting_text = "<!--[adextopa version='1'] import { Digit, Other } from './base'-->" /\
  lib_text = "<!--[adextopa version='1'] Digit = <='7'>-->".
Proof. repeat split. Qed.
Example C65_example_culprit : culprit at_env three_files "/p/main" (Refuses (parser_named wanting_text "/p/lib") (Missing "Other" "/p/base")).
Proof. exact wanting_culprit. Qed.
(* what the model computes: the error of the second file, from the first *)
Example C65_example :
  match compile_file 3 100 at_env three_files false "/p/main" empty_state with
  | Ret (ScriptErr [e]) st =>
      e = mkPE "Error: /p/lib@[1:44-49]: Failed to import `Other` from '/p/base': Not found" (Some (mkR 43 48))
  | _ => False
  end.
Proof. vm_compute. reflexivity. Qed.
Example C65_example_forbidden :
  match compile_str 100 at_env main_text "T" false empty_state with
  | Ret (ScriptErr [e]) st => pe_range e = Some (mkR 27 71)
  | _ => False
  end.
Proof. vm_compute. reflexivity. Qed.
(* a file that is no script (C63), and one that is not there *)
Example C65_example_no_script : forall F file full, tame at_env -> fs_canon F file = Some full ->
  fs_read F full = Some (lit "  <!--[adextopa version=1] Digit = <='7'>-->") ->
  culprit at_env F file (Says (fun l => exists e, l = [e] /\ pe_range e = Some (mkR 24 26))).
Proof.
  intros F file full H0 H1 H2. eapply cu_no_script. split; [exact H1|]. split; [exact H2|]. intros compile st.
  destruct (unquoted_fatal at_env (parser_named "  <!--[adextopa version=1] Digit = <='7'>-->" full) F compile file (Some full) H0
    ltac:(apply ascii_text; vm_compute; reflexivity) ltac:(reflexivity)
    "  <!--[adextopa version=" "1]" " Digit = <='7'>-->" st until_version_open (proj2 unquoted_samples) eq_refl) as (fuel & text & st' & _ & H).
  exists fuel, [mkPE text (Some (mkR 24 26))], st'. split; [eauto|exact H].
Qed.
Example C65_example_lost : exists c, culprit at_env (mkFs (fun _ _ => None) (fun _ => None) (fun _ => None)) "/p/main" c.
Proof. eexists. apply cu_lost. reflexivity. Qed.
