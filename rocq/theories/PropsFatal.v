(* C63: a value of an attribute that is not quoted.  [open_script] and
   [unquoted] (SpecSyntax.v), [error_text] (Spec.v). *)
From Verif Require Import ScriptBuild Spec FatalProofs SpecScript SpecSyntax Samples SampleScripts.
Open Scope string_scope.
Open Scope list_scope.
Open Scope N_scope.

(* ---------------------------------------------------------------- C63 *)

(* wherever in a script an attribute has a value that is not quoted, the script
   is refused with this one error, which tells the place of the value *)
Theorem C63_unquoted : forall E P F compile name from_file, tame E ->
  ascii_only (p_src P) -> slen (p_src P) < isize_bound ->
  forall t v r st, open_script E t -> unquoted v r -> p_src P = t ++ v ++ r ->
  let place := mkR (slen t) (slen t + slen v) in
  exists fuel text st',
    error_text P "Malformed attribute detected. Attribute value is not single-quoted. The proper format for an attribute is: name='value'" place text /\
    compile_with fuel E F compile P name from_file false st = Ret (ScriptErr [mkPE text (Some place)]) st'.
Proof. exact unquoted_fatal. Qed.
Print Assumptions C63_unquoted.

(* [tame at_env] is C19_example_tame *)
Example C63_example_open : until_value = "<='7'> (?'x' <[ <='8'> | <='9' a='b' _c =" /\ open_script at_env until_value.
Proof. split; [reflexivity|exact until_value_open]. Qed.
Example C63_example_head : open_script at_env (lit "  <!--[adextopa version=").
Proof. exact until_version_open. Qed.
Example C63_example_unquoted : unquoted "d" " e='f'> ]>)" /\ unquoted "1]" " Digit = <='7'>-->".
Proof. exact unquoted_samples. Qed.
(* what the model computes *)
Example C63_example_pattern :
  match compile_str 100 at_env (until_value ++ lit "d e='f'> ]>)") "T" false empty_state with
  | Ret (ScriptErr [e]) _ => e = mkPE "Error: @[1:42-43]: Malformed attribute detected. Attribute value is not single-quoted. The proper format for an attribute is: name='value'" (Some (mkR 41 42))
  | _ => False
  end.
Proof. vm_compute. reflexivity. Qed.
Example C63_example_version :
  match compile_str 100 at_env "  <!--[adextopa version=1] Digit = <='7'>-->" "T" false empty_state with
  | Ret (ScriptErr [e]) _ => pe_range e = Some (mkR 24 26)
  | _ => False
  end.
Proof. vm_compute. reflexivity. Qed.
