(* C62: what becomes of scripts that are not written well.  [broken_body],
   [head_text], [says_nothing] (SpecSyntax.v). *)
From Verif Require Import ScriptBuild Spec BrokenProofs ScriptProofs SpecScript SpecSyntax Samples SampleScripts.
Open Scope string_scope.
Open Scope list_scope.
Open Scope N_scope.

(* ---------------------------------------------------------------- C62 *)

(* patterns, and then something that is no pattern, after a good head: all
   patterns of the script are dropped, and no error is reported *)
Theorem C62_dropped : forall E P F compile name from_file, tame E -> tidy E ->
  ascii_only (p_src P) -> slen (p_src P) < isize_bound ->
  forall lead l ss v n t ps tail st, lead_text lead -> head_text E l ss t ->
  last_of "version" l = Some v -> usize_text n v -> broken_body E ps tail -> p_src P = lead ++ t ++ tail ->
  exists root st1, Tokenizes E P (script_ctx P name st) (Script_ E) (script_start E P name st) (TOk root) st1 /\
    forall st', all_stated F compile (next_sid st1) from_file ss (sc_new st1) st' ->
      exists fuel, compile_with fuel E F compile P name from_file false st =
        Ret (ScriptOk (compiled_script name (next_sid st1) (mkScript (Some (l, ss)) [])) (next_sid st1)) st'.
Proof. exact junk_dropped. Qed.
Print Assumptions C62_dropped.

(* the same without a head: an error that does not say what is wrong *)
Theorem C62_junk : forall E P F compile name from_file, tame E -> tidy E ->
  ascii_only (p_src P) -> slen (p_src P) < isize_bound ->
  forall ps st, broken_body E ps (p_src P) ->
  exists fuel msg st', says_nothing msg /\
    compile_with fuel E F compile P name from_file false st = Ret (ScriptErr [mkPE msg None]) st'.
Proof. exact junk_refused. Qed.
Print Assumptions C62_junk.

(* a head without a version: it is passed over with all its definitions, and
   the patterns are compiled without an error *)
Theorem C62_no_version : forall E P F compile name from_file, tame E -> tidy E ->
  ascii_only (p_src P) -> slen (p_src P) < isize_bound ->
  forall lead l ss t ps tail st, lead_text lead -> head_text E l ss t ->
  last_of "version" l = None -> ps <> [] -> faultless ps -> body_text E ps tail -> p_src P = lead ++ t ++ tail ->
  exists root st1, Tokenizes E P (script_ctx P name st) (Script_ E) (script_start E P name st) (TOk root) st1 /\
    forall st', all_stated F compile (next_sid st1) from_file [] (sc_new st1) st' ->
      exists fuel, compile_with fuel E F compile P name from_file false st =
        Ret (ScriptOk (compiled_script name (next_sid st1) (mkScript None ps)) (next_sid st1)) st'.
Proof. exact no_version_compiles. Qed.
Print Assumptions C62_no_version.

Theorem C62_no_version_junk : forall E P F compile name from_file, tame E -> tidy E ->
  ascii_only (p_src P) -> slen (p_src P) < isize_bound ->
  forall lead l ss t ps tail st, lead_text lead -> head_text E l ss t ->
  last_of "version" l = None -> broken_body E ps tail -> p_src P = lead ++ t ++ tail ->
  exists fuel msg st', says_nothing msg /\
    compile_with fuel E F compile P name from_file false st = Ret (ScriptErr [mkPE msg None]) st'.
Proof. exact no_version_junk_refused. Qed.
Print Assumptions C62_no_version_junk.

(* a version that is no number: nothing is compiled, whatever follows the head *)
Theorem C62_bad_version : forall E P F compile name from_file, tame E -> tidy E ->
  ascii_only (p_src P) -> slen (p_src P) < isize_bound ->
  forall lead l ss v t tail st, lead_text lead -> head_text E l ss t ->
  last_of "version" l = Some v -> (forall n, ~ usize_text n v) -> p_src P = lead ++ t ++ tail ->
  exists fuel msg st', says_nothing msg /\
    compile_with fuel E F compile P name from_file false st = Ret (ScriptErr [mkPE msg None]) st'.
Proof. exact bad_version_refused. Qed.
Print Assumptions C62_bad_version.

(* nothing but blanks and comments *)
Theorem C62_nothing : forall E P F compile name from_file, tame E -> tidy E ->
  ascii_only (p_src P) -> slen (p_src P) < isize_bound ->
  forall st, body_text E [] (p_src P) ->
  exists fuel msg st', says_nothing msg /\
    compile_with fuel E F compile P name from_file false st = Ret (ScriptErr [mkPE msg None]) st'.
Proof. exact nothing_refused. Qed.
Print Assumptions C62_nothing.

(* [tame at_env] and [tidy at_env] are C19_example_tame and C36_example_tidy *)
Example C62_example_body : sevens = "<='7'> oops <='7'>" /\ broken_body at_env [seven] sevens.
Proof. split; [reflexivity|exact sevens_broken]. Qed.
Example C62_example_head : a_head "version" "1" = "<!--[adextopa version='1'] Digit = <='7'>-->" /\
  forall attr value, In (attr, value) [(lit "version", lit "1"); (lit "version", lit "one"); (lit "name", lit "N")] ->
  head_text at_env [(attr, value)] [Define "Digit" Unsigned Unsigned (KText "7") [] Once] (a_head attr value).
Proof.
  split; [reflexivity|]. intros attr value H. cbn in H.
  destruct H as [H|[H|[H|[]]]]; injection H as <- <-; apply head_written; try text;
    (eexists _, _; split; [reflexivity|]; split; [discriminate|chars]).
Qed.
Example C62_example_number : forall n, ~ usize_text n "one".
Proof. intros n H. apply ScriptProofs.parse_usize_spec in H. discriminate. Qed.
(* what the model computes *)
Example C62_example_dropped :
  match compile_str 100 at_env (a_head "version" "1" ++ sevens) "T" false empty_state with
  | Ret (ScriptOk m sc) st =>
      m = MProgram [MSetScope (Some 1%nat) (MProxy (MProgram [] (mkPI "Program" None false false)) "Flatten" false)] (mkPI "T" None false true) /\
      sc_get st sc "Digit" = Some (VMatcher (EqualsN "Digit" "7"))
  | _ => False
  end.
Proof. vm_compute. auto. Qed.
Example C62_example_junk :
  match compile_str 100 at_env sevens "T" false empty_state with Ret (ScriptErr [e]) _ => says_nothing (pe_msg e) | _ => False end.
Proof. vm_compute. left. reflexivity. Qed.
Example C62_example_no_version :
  match compile_str 100 at_env (a_head "name" "N" ++ lit "<='7'>") "T" false empty_state with
  | Ret (ScriptOk m sc) st => m = compiled_script "T" 1%nat (mkScript None [seven]) /\ sc_get st sc "Digit" = None
  | _ => False
  end.
Proof. vm_compute. auto. Qed.
Example C62_example_bad_version :
  match compile_str 100 at_env (a_head "version" "one" ++ lit "<='7'>") "T" false empty_state with
  | Ret (ScriptErr [e]) _ => says_nothing (pe_msg e) | _ => False end.
Proof. vm_compute. left. reflexivity. Qed.
Example C62_example_nothing :
  match compile_str 100 at_env "  # nothing here" "T" false empty_state with Ret (ScriptErr [e]) _ => says_nothing (pe_msg e) | _ => False end.
Proof. vm_compute. left. reflexivity. Qed.
Example C62_example_empty :
  match compile_str 100 at_env "" "T" false empty_state with Ret (ScriptErr [e]) _ => says_nothing (pe_msg e) | _ => False end.
Proof. vm_compute. right. reflexivity. Qed.
