(* C69: grammars that refer to matchers by name only after having moved forward
   come to an end with every text; the grammar of scripts is one of them, so
   every compilation comes to an end.  [guarded], [guarded_names], [onward],
   [keeps_names], [known], [imports] (SpecGuard.v), [nested], [returning]
   (SpecMore.v). *)
From Verif Require Import ScriptBuild Spec SpecMore SpecScript SpecGuard GuardEnds GuardScript GuardCompile Samples SampleScripts SampleGuard.
Open Scope string_scope.
Open Scope list_scope.
Open Scope N_scope.

(* ---------------------------------------------------------------- C69 *)

(* A guarded grammar ends at every place in every text, within a nesting that
   grows with the text that is left. *)
Theorem C69_grammar : forall E P body rank top D, tame E -> returning E -> slen (p_src P) < isize_bound ->
  guarded_names body rank top D ->
  forall back tight r m d c s st, guarded body rank top back r m -> nested d m -> onward body back tight m ->
  keeps_names body m -> known body s st ->
  rs (c_off c) <= slen (p_src P) -> re (c_off c) = slen (p_src P) ->
  forall n, let left := N.to_nat (if back then slen (p_src P) else slen (p_src P) - rs (c_off c)) in
  (N.to_nat (slen (p_src P)) + 3 + left * (top * D) + r * D + d <= n)%nat -> exec n E P m c s st <> OOF.
Proof. exact grammar_ends. Qed.
Print Assumptions C69_grammar.

(* Parsing any text as a script ends. *)
Theorem C69_parse : forall E P name st n, tame E -> tidy E -> returning E -> slen (p_src P) < isize_bound ->
  (18 * N.to_nat (slen (p_src P)) + 24 <= n)%nat ->
  tokenize n E P (script_ctx P name st) (Script_ E) (script_start E P name st) <> OOF.
Proof. exact script_ends. Qed.
Print Assumptions C69_parse.

(* So does compiling it, if the compilations of the files it asks for do. *)
Theorem C69_compile : forall E P, tame E -> tidy E -> returning E -> slen (p_src P) < isize_bound ->
  forall F compile name ff log st n, (18 * N.to_nat (slen (p_src P)) + 24 <= n)%nat ->
  (forall f file s, ff = Some f -> asks_for E F P f file -> compile file s <> OOF) ->
  compile_with n E F compile P name ff log st <> OOF.
Proof. exact compile_ends. Qed.
Print Assumptions C69_compile.
Theorem C69_str : forall E src name log st n, tame E -> tidy E -> returning E -> slen src < isize_bound ->
  (18 * N.to_nat (slen src) + 24 <= n)%nat -> compile_str n E src name log st <> OOF.
Proof. exact str_ends. Qed.
Print Assumptions C69_str.

(* and compiling a file, whatever texts the files contain, if the files do not
   import each other in circles *)
Theorem C69_file : forall E F rank size log, tame E -> tidy E -> returning E ->
  (forall full src, fs_read F full = Some src -> slen src <= size) -> size < isize_bound ->
  (forall full next, imports E F full next -> (rank next < rank full)%nat) ->
  forall d n file st, (forall full, fs_canon F file = Some full -> (rank full < d)%nat) ->
  (18 * N.to_nat size + 24 <= n)%nat -> compile_file (S d) n E F log file st <> OOF.
Proof. exact file_ends. Qed.
Print Assumptions C69_file.

(* C19_example_tame and C36_example_tidy are the first two hypotheses for
   [at_env] *)
Example C69_example_returning : returning at_env.
Proof. repeat split; discriminate. Qed.

(* brackets *)
Example C69_example_nest :
  nest_body "Nest" = Some (ProgramN "Nest" [EqualsN "Open" "("; MOptional (Ref_ "Nest"); EqualsN "Close" ")"; MOptional (Ref_ "Nest")]) /\
  guarded_names nest_body (fun _ => 0%nat) 1 3 /\ guarded nest_body (fun _ => 0%nat) 1 false 0 nest_matcher /\
  nested 3 nest_matcher /\ onward nest_body false false nest_matcher /\ keeps_names nest_body nest_matcher.
Proof.
  split; [reflexivity|]. split; [exact nest_names|]. split; [apply nest_guarded|].
  split; [exact nest_nested|]. split; [exact nest_onward|exact nest_keeps].
Qed.
Example C69_example_nest_known : known nest_body 0%nat at_state.
Proof. intros n m b H. cbn in H. discriminate. Qed.
Example C69_example_nest_run :
  let range_of r := match r with Ret (Ok (SToken a)) st => Some (tk_mr (tok st a)) | _ => None end in
  range_of (at_run 38 nest_matcher "(()())()") = Some (mkR 0 8) /\
  range_of (at_run 38 nest_matcher "(()))(") = Some (mkR 0 4) /\
  match at_run 38 nest_matcher "((((((" with Ret (Err FFail) _ => True | _ => False end.
Proof. vm_compute. repeat split. Qed.
(* a body that goes to itself at once is not guarded *)
Example C69_example_unguarded : forall rank top D,
  ~ guarded_names (fun n => if str_eqb n "A" then Some (Ref_ "A") else None) rank top D.
Proof.
  intros rank top D H. destruct (H (lit "A") (Ref_ "A") eq_refl) as (_ & _ & _ & _ & Hg).
  inversion Hg as [|r n name b Hlt|back r m (x & o & n & b & Hm & _)|back r m _ Hr _|]; subst; [exact (Nat.lt_irrefl _ Hlt)|discriminate Hm|exact (Hr _ _ _ eq_refl)].
Qed.

(* scripts: a good one, and one that only opens brackets *)
Example C69_example_text : slen demo_text < isize_bound /\
  match compile_str (18 * N.to_nat (slen demo_text) + 24) at_env demo_text "T" false empty_state with Ret (ScriptOk _ _) _ => True | _ => False end.
Proof. split; [reflexivity|]. vm_compute. exact Logic.I. Qed.
Example C69_example_open : slen (lit "<[<[<[ <{ (?'") = 13 /\
  match compile_str (18 * 13 + 24) at_env "<[<[<[ <{ (?'" "T" false empty_state with Ret (ScriptErr [_]) _ => True | _ => False end.
Proof. split; [reflexivity|]. vm_compute. exact Logic.I. Qed.

(* two files, the one imports the other *)
Example C69_example_floors :
  (forall full next, imports at_env two_floors full next ->
     ((if str_eqb next "/p/main" then 1 else 0) < (if str_eqb full "/p/main" then 1 else 0))%nat) /\
  (forall full src, fs_read two_floors full = Some src -> slen src <= 100) /\
  match compile_file 3 (18 * 100 + 24) at_env two_floors false "/p/main" empty_state with Ret (ScriptOk _ _) _ => True | _ => False end.
Proof.
  split; [exact (floors_rank at_env)|]. split; [exact floors_size|]. vm_compute. exact Logic.I.
Qed.
