(* C86: what is said of a text or a file that is not compiled.
   [said_unquoted], [refused], [file_refused] (SpecRefused.v). *)
From Verif Require Import ScriptBuild Spec SpecMore SpecScript SpecSyntax SpecShape SpecRefused RefusedProofs Samples SampleScripts SampleShape.
Open Scope string_scope.
Open Scope list_scope.
Open Scope N_scope.

(* the parse of a script gives up with a message for one reason only: a value without quotes *)
Theorem C86_fatal : forall E P name st n e st1, tame E -> ascii_only (p_src P) -> slen (p_src P) < isize_bound ->
  tokenize n E P (script_ctx P name st) (Script_ E) (script_start E P name st) = Ret (TErr (FError e)) st1 -> said_unquoted P e.
Proof. exact fatal_said. Qed.
Print Assumptions C86_fatal.

(* the errors of a text: those that the tokens before some token note, all of
   them and in their order, then the one that this token is to blame for *)
Theorem C86_text : forall E src name log n st l st', tame E -> tidy E -> ascii_only src -> slen src < isize_bound ->
  compile_str n E src name log st = Ret (ScriptErr l) st' ->
  refused E (parser_new src) None (fun _ _ => None) (fun _ _ => False) l.
Proof. exact text_refused. Qed.
Print Assumptions C86_text.

(* the same for a file, where the last errors can also be those of a file that
   it imports *)
Theorem C86_file : forall E F log depth n file st l st', tame E -> tidy E ->
  (forall full src, fs_read F full = Some src -> ascii_only src /\ slen src < isize_bound) ->
  compile_file depth n E F log file st = Ret (ScriptErr l) st' -> l <> [] /\ file_refused E F file l.
Proof. exact file_refuses. Qed.
Print Assumptions C86_file.

(* [tame at_env] and [tidy at_env] are C19_example_tame and C36_example_tidy;
   what the model computes: an error that is noted and one that ends the compilation *)
Example C86_example_text :
  match compile_str 200 at_env "<!--[adextopa name='x']--><=''>" "T" false empty_state with
  | Ret (ScriptErr l) _ => l =
      [mkPE "Error: @[1:1-27]: Adextopa scope must have a 'version' attribute" (Some (mkR 0 26));
       mkPE "Error: @[1:1]: Error attempting to create matcher from parsed pattern token: Value can not be empty for an `Equals` pattern definition"
            (Some (mkR 0 0))]
  | _ => False
  end.
Proof. vm_compute. reflexivity. Qed.
(* a value without quotes, a number that is too large, an import without a file *)
Example C86_example_value :
  match compile_str 200 at_env "<='a' b=c>" "T" false empty_state with
  | Ret (ScriptErr l) _ => l =
      [mkPE "Error: @[1:9-11]: Malformed attribute detected. Attribute value is not single-quoted. The proper format for an attribute is: name='value'"
            (Some (mkR 8 10))]
  | _ => False
  end.
Proof. vm_compute. reflexivity. Qed.
Example C86_example_large :
  match compile_str 200 at_env "<='8'>{99999999999999999999999}" "T" false empty_state with
  | Ret (ScriptErr l) _ => l =
      [mkPE "Error: @[1:1]: Error attempting to create matcher from parsed pattern token: number too large to fit in target type" (Some (mkR 0 0))]
  | _ => False
  end.
Proof. vm_compute. reflexivity. Qed.
Example C86_example_import :
  match compile_str 200 at_env "<!--[adextopa version='1'] import { _ as X } from 'a' -->" "T" false empty_state with
  | Ret (ScriptErr l) _ => l =
      [mkPE "Error: @[1:28-54]: Found import statement, but it is forbidden to use imports when not parsing from a file" (Some (mkR 27 53))]
  | _ => False
  end.
Proof. vm_compute. reflexivity. Qed.
(* the root of what is parsed can be an error; nothing more is then said of it *)
Example C86_example_root :
  match compile_str 200 at_env "<!--[adextopa version='x']--><=''>" "T" false empty_state with
  | Ret (ScriptErr l) _ => l = [mkPE "Expected provided token to be a `Script` token" None]
  | _ => False
  end.
Proof. vm_compute. reflexivity. Qed.
(* the error of a file that is imported *)
Example C86_example_file :
  match compile_file 3 100 at_env three_files false "/p/main" empty_state with
  | Ret (ScriptErr l) _ => l =
      [mkPE "Error: /p/lib@[1:44-49]: Failed to import `Other` from '/p/base': Not found" (Some (mkR 43 48))]
  | _ => False
  end.
Proof. vm_compute. reflexivity. Qed.
(* not every place is that of such a value *)
Example C86_example_not : forall text, ~ said_unquoted (parser_new "<='a' b=c>") (mkPE text (Some (mkR 0 3))).
Proof. exact quote_inside. Qed.
