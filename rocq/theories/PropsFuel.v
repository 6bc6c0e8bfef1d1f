(* C87: the outcome of a compilation does not depend on the bounds of the model
   (the fuel [n] of a parse and the nesting [d] of imports). *)
From Verif Require Import ScriptBuild Spec SpecMore SpecScript SpecGuard FuelProofs Samples SampleScripts.
Open Scope string_scope.
Open Scope list_scope.
Open Scope N_scope.

Theorem C87_text : forall n n' E src name log st, (n <= n')%nat ->
  compile_str n E src name log st <> OOF -> compile_str n' E src name log st = compile_str n E src name log st.
Proof. exact text_mono. Qed.
Print Assumptions C87_text.

Theorem C87_file : forall d d' n n' E F log file st, (d <= d')%nat -> (n <= n')%nat ->
  compile_file d n E F log file st <> OOF -> compile_file d' n' E F log file st = compile_file d n E F log file st.
Proof. exact file_mono. Qed.
Print Assumptions C87_file.

Theorem C87_file_unique : forall d d' n n' E F log file st,
  compile_file d n E F log file st <> OOF -> compile_file d' n' E F log file st <> OOF ->
  compile_file d n E F log file st = compile_file d' n' E F log file st.
Proof. exact file_unique. Qed.
Print Assumptions C87_file_unique.

(* every text has exactly one outcome *)
Theorem C87_outcome : forall E src name log st, tame E -> tidy E -> returning E -> slen src < isize_bound ->
  exists r, r <> OOF /\
    forall n, (18 * N.to_nat (slen src) + 24 <= n)%nat \/ compile_str n E src name log st <> OOF -> compile_str n E src name log st = r.
Proof. exact text_outcome. Qed.
Print Assumptions C87_outcome.

(* and so has every file, when the files do not import each other in circles *)
Theorem C87_file_outcome : forall E F rank size log, tame E -> tidy E -> returning E ->
  (forall full src, fs_read F full = Some src -> slen src <= size) -> size < isize_bound ->
  (forall full next, imports E F full next -> (rank next < rank full)%nat) ->
  forall file st, exists r, r <> OOF /\
    forall d n, ((forall full, fs_canon F file = Some full -> (rank full < d)%nat) /\ (18 * N.to_nat size + 24 <= n)%nat) \/
                compile_file (S d) n E F log file st <> OOF -> compile_file (S d) n E F log file st = r.
Proof. exact file_outcome. Qed.
Print Assumptions C87_file_outcome.

(* [tame at_env], [tidy at_env] and [returning at_env] are C19_example_tame,
   C36_example_tidy and C69_example_returning, the hypotheses about files hold in
   C69_example_floors; a bound that is too small, and
   one that is not *)
Example C87_example :
  compile_str 3 at_env "<='7'>" "T" false empty_state = OOF /\
  match compile_str 40 at_env "<='7'>" "T" false empty_state with Ret (ScriptOk _ _) _ => True | _ => False end /\
  compile_file 1 100 at_env three_files false "/p/main" empty_state = OOF /\
  match compile_file 3 100 at_env three_files false "/p/main" empty_state with Ret (ScriptErr [_]) _ => True | _ => False end.
Proof. split; [vm_compute; reflexivity|]. split; [vm_compute; exact I|]. split; [vm_compute; reflexivity|]. vm_compute. exact I. Qed.
