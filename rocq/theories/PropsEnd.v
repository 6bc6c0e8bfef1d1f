(* C68: scripts have at most one reading of a text, and tokenizing ends exactly
   if there is one.  [reads], [enters_entry], [kept], [answers], [results], [told]
   (SpecMatch.v), [sane], [measured], [circular_script] (SpecSteady.v). *)
From Verif Require Import ScriptBuild Spec FateProofs SpecScript SpecMore SpecSyntax Samples SampleScripts SampleReads SampleSteady SpecMatch SpecSteady.
Open Scope string_scope.
Open Scope list_scope.
Open Scope N_scope.

(* ---------------------------------------------------------------- C68 *)

Theorem C68_unique : forall source D s p w x D1 y D2,
  reads source D s p w x D1 -> reads source D s p w y D2 -> x = y /\ D1 = D2.
Proof. exact reads_once. Qed.
Print Assumptions C68_unique.
Theorem C68_unique_entry : forall source D s e w x D1 y D2,
  enters_entry source D s e w x D1 -> enters_entry source D s e w y D2 -> x = y /\ D1 = D2.
Proof. exact enters_once. Qed.
Print Assumptions C68_unique_entry.

(* Whatever fuel it is given, the matcher of a pattern either runs out of it or
   gives what a reading says. *)
Theorem C68_pattern : forall E P (V : sid -> Prop), tame E -> ascii_only (p_src P) -> slen (p_src P) < isize_bound ->
  forall D s p w pre, sane_book V D -> sane p -> p_src P = pre ++ w -> V s ->
  forall c st, c_debug c = 0 -> c_off c = mkR (start_of (p_src P) w) (slen (p_src P)) -> kept V D st ->
  forall n, exec n E P (meaning p) c s st = OOF \/
    exists x D' y st', reads (p_src P) D s p w x D' /\ exec n E P (meaning p) c s st = Ret y st' /\
      kept V D' st' /\ answers (p_src P) st' w x y.
Proof. exact pattern_fate. Qed.
Print Assumptions C68_pattern.

(* So does a compiled script: it never panics, and it ends with nothing but what
   its patterns say. *)
Theorem C68_script : forall E P F compile name ff, tame E -> tidy E -> scope_tame E -> measured E ->
  ascii_only (p_src P) -> slen (p_src P) < isize_bound ->
  forall d st, script_text E d (p_src P) -> (forall ns path, ~ In (Import ns path) (s_statements d)) -> script_fault d = None ->
  let sc := S (next_sid st) in
  exists fuel st1, compile_with fuel E F compile P name ff false st = Ret (ScriptOk (compiled_script name sc d) sc) st1 /\
    (sc < next_sid st1)%nat /\
    forall Q label, ascii_only (p_src Q) -> slen (p_src Q) < isize_bound ->
    forall n, let out := tokenize n E Q (fst (context_new Q label st1)) (compiled_script name sc d) (snd (context_new Q label st1)) in
      out = OOF \/ exists x D' t st2,
        enters_entry (p_src Q) (own_book sc d) (next_sid st1) (Whole (s_name name d) sc (s_patterns d)) (p_src Q) x D' /\
        out = Ret t st2 /\ results (p_src Q) st2 x t.
Proof. exact script_fate. Qed.
Print Assumptions C68_script.

(* and a file with all the files it imports *)
Theorem C68_project : forall E F file d, tame E -> tidy E -> measured E -> sound E F file d -> forall st, exists n sc st1 D,
  (forall depth fuel, (n <= depth)%nat -> (n <= fuel)%nat ->
     compile_file depth fuel E F false file st = Ret (ScriptOk (compiled_script file sc d) sc) st1) /\
  told E F D (next_sid st) (next_sid st1) file d sc /\ (forall x, D (next_sid st1) x = None) /\
  forall Q label, ascii_only (p_src Q) -> slen (p_src Q) < isize_bound ->
  forall k, let out := tokenize k E Q (fst (context_new Q label st1)) (compiled_script file sc d) (snd (context_new Q label st1)) in
    out = OOF \/ exists x D' t st2,
      enters_entry (p_src Q) D (next_sid st1) (Whole (s_name file d) sc (s_patterns d)) (p_src Q) x D' /\
      out = Ret t st2 /\ results (p_src Q) st2 x t.
Proof. exact project_fate. Qed.
Print Assumptions C68_project.

(* A script whose first pattern leads to definitions that lead to each other
   before anything else is done is accepted, and ends with no text. *)
Theorem C68_circular : forall E P F compile name ff, tame E -> tidy E -> scope_tame E -> measured E ->
  ascii_only (p_src P) -> slen (p_src P) < isize_bound ->
  forall d st, script_text E d (p_src P) -> (forall ns path, ~ In (Import ns path) (s_statements d)) -> script_fault d = None ->
  circular_script d -> let sc := S (next_sid st) in
  exists fuel st1, compile_with fuel E F compile P name ff false st = Ret (ScriptOk (compiled_script name sc d) sc) st1 /\
    forall Q label, ascii_only (p_src Q) -> slen (p_src Q) < isize_bound ->
    forall n, tokenize n E Q (fst (context_new Q label st1)) (compiled_script name sc d) (snd (context_new Q label st1)) = OOF.
Proof. exact script_circles. Qed.
Print Assumptions C68_circular.

(* C19_example_tame, C36_example_tidy and C21_example_tame are the first three
   hypotheses for [at_env]; its regular expressions do not compile, those of
   [digit_env] are digits *)
Example C68_example_measured : measured at_env /\ measured digit_env /\ exists f, e_regex digit_env "\d+" = Some f /\ f "42!" = Some (0, 2).
Proof. split; [discriminate|]. split; [exact digits_measured|]. eexists. split; reflexivity. Qed.
Example C68_example_sane : sane quoted_pat /\ Forall sane (s_patterns demo_script) /\
  sane (Pat Captured Unsigned Unsigned (KRegex "\d+" [] (e_regex digit_env "\d+")) [] OneOrMore) /\
  ~ sane (Pat Captured Unsigned Unsigned (KText []) [] Once).
Proof. exact samples_sane. Qed.

(* a sum that starts with a sum *)
Example C68_example_sum :
  sum_text = "<!--[adextopa version='1'] Sum = <{ (<Sum>) <='+'> (<='1'>) }>-->(<Sum>)" /\
  script_text at_env sum_script sum_text /\ script_fault sum_script = None /\
  (forall ns path, ~ In (Import ns path) (s_statements sum_script)) /\ circular_script sum_script.
Proof.
  split; [reflexivity|]. split; [exact sum_written|]. split; [reflexivity|]. split; [|exact sum_circular].
  intros ns path. cbn. intuition discriminate.
Qed.
Example C68_example_sum_run :
  match compile_str 100 at_env sum_text "T" false empty_state with
  | Ret (ScriptOk m sc) st =>
      m = compiled_script "T" 1%nat sum_script /\
      let P := parser_new "1+1" in let (c, st1) := context_new P "Test" st in
      tokenize 400 at_env P c m st1 = OOF
  | _ => False
  end.
Proof. vm_compute. repeat split. Qed.
(* of the two readings of C66_example_read and C66_example_missed each is the only one *)
Example C68_example_only : forall x D', enters_entry "x77it" (own_book 1%nat demo_script) 2%nat demo_entry "x77it" x D' -> x = Took demo_node "it".
Proof. intros x D' H. destruct demo_read as [D1 H1]. exact (proj1 (enters_once _ _ _ _ _ _ _ _ _ H H1)). Qed.
