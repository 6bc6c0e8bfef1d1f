(* C66: what the patterns of a script make of a text.  [reads], [enters_entry]
   and what they are made of, [renders], [kept], [answers], [results]
   (SpecMatch.v). *)
From Verif Require Import ScriptBuild Spec ReadProofs BookProofs SpecScript SpecMore SpecSyntax Samples SampleScripts SampleReads SpecMatch.
Open Scope string_scope.
Open Scope list_scope.
Open Scope N_scope.

(* ---------------------------------------------------------------- C66 *)

(* Used anywhere in a text, the matcher of a pattern gives what the pattern
   says.  [V] are the scripts that take part, [D] their definitions. *)
Theorem C66_pattern : forall E P (V : sid -> Prop), tame E -> ascii_only (p_src P) -> slen (p_src P) < isize_bound ->
  forall D s p w pre x D', reads (p_src P) D s p w x D' -> p_src P = pre ++ w -> V s ->
  forall c st, c_debug c = 0 -> c_off c = mkR (start_of (p_src P) w) (slen (p_src P)) -> kept V D st ->
  exists y st', Runs E P (meaning p) c s st y st' /\ kept V D' st' /\ answers (p_src P) st' w x y.
Proof. exact pattern_answers. Qed.
Print Assumptions C66_pattern.

(* so does the matcher of a definition, of an imported one, and of a whole script *)
Theorem C66_entry : forall E P (V : sid -> Prop), tame E -> ascii_only (p_src P) -> slen (p_src P) < isize_bound ->
  forall D s e w pre x D', enters_entry (p_src P) D s e w x D' -> within V e -> p_src P = pre ++ w -> V s ->
  forall c st, c_debug c = 0 -> c_off c = mkR (start_of (p_src P) w) (slen (p_src P)) -> kept V D st ->
  exists y st', Runs E P (entry_matcher e) c s st y st' /\ kept V D' st' /\ answers (p_src P) st' w x y.
Proof. exact entry_answers. Qed.
Print Assumptions C66_entry.

(* From the text of a script and a text for it to the tokens: the script is
   compiled, and what it makes of the text is what tokenizing gives. *)
Theorem C66_script : forall E P F compile name from_file, tame E -> tidy E -> scope_tame E ->
  ascii_only (p_src P) -> slen (p_src P) < isize_bound ->
  forall d st, script_text E d (p_src P) -> (forall names path, ~ In (Import names path) (s_statements d)) -> script_fault d = None ->
  let sc := S (next_sid st) in
  exists fuel st1, compile_with fuel E F compile P name from_file false st = Ret (ScriptOk (compiled_script name sc d) sc) st1 /\
    (sc < next_sid st1)%nat /\
    forall Q label x D', ascii_only (p_src Q) -> slen (p_src Q) < isize_bound ->
      enters_entry (p_src Q) (own_book sc d) (next_sid st1) (Whole (s_name name d) sc (s_patterns d)) (p_src Q) x D' ->
      exists t st2, Tokenizes E Q (fst (context_new Q label st1)) (compiled_script name sc d) (snd (context_new Q label st1)) t st2 /\
        results (p_src Q) st2 x t.
Proof. exact script_reads. Qed.
Print Assumptions C66_script.

(* The same for a file and all the files it imports: [D] is what they define,
   those of each file in a scope of its own. *)
Theorem C66_project : forall E F file d, tame E -> tidy E -> sound E F file d -> forall st, exists n sc st1 D,
  (forall depth fuel, (n <= depth)%nat -> (n <= fuel)%nat ->
     compile_file depth fuel E F false file st = Ret (ScriptOk (compiled_script file sc d) sc) st1) /\
  told E F D (next_sid st) (next_sid st1) file d sc /\ (forall x, D (next_sid st1) x = None) /\
  forall Q label x D', ascii_only (p_src Q) -> slen (p_src Q) < isize_bound ->
    enters_entry (p_src Q) D (next_sid st1) (Whole (s_name file d) sc (s_patterns d)) (p_src Q) x D' ->
    exists t st2, Tokenizes E Q (fst (context_new Q label st1)) (compiled_script file sc d) (snd (context_new Q label st1)) t st2 /\
      results (p_src Q) st2 x t.
Proof. exact project_reads. Qed.
Print Assumptions C66_project.

(* [tame at_env], [tidy at_env] and [scope_tame at_env] are C19_example_tame,
   C36_example_tidy and C21_example_tame; the script is that of C60_example_text *)
Example C66_example_read :
  exists D', enters_entry "x77it" (own_book 1%nat demo_script) 2%nat demo_entry "x77it" (Took demo_node "it") D'.
Proof. exact demo_read. Qed.
Example C66_example_missed :
  exists D', enters_entry "xxit's" (own_book 1%nat demo_script) 2%nat demo_entry "xxit's" Missed D'.
Proof. exact demo_missed. Qed.
(* what the model computes for them *)
Example C66_example_run :
  match compile_str 100 at_env demo_text "T" false empty_state with
  | Ret (ScriptOk m sc) st =>
      m = compiled_script "T" 1%nat demo_script /\ sc = 1%nat /\ next_sid st = 2%nat /\
      m = entry_matcher demo_entry /\
      (let P := parser_new "x77it" in
       let (c, st1) := context_new P "Test" st in
       match tokenize 100 at_env P c m st1 with
       | Ret (TOk a) st' =>
           let shown := fun k => (tk_name (tok st' k), tk_mr (tok st' k), tk_cr (tok st' k), get_value (tok st' k)) in
           let kids := fun k => tk_kids (tok st' k) in
           shown a = (lit "List", mkR 0 3, mkR 1 3, lit "77") /\
           map shown (kids a) = [(lit "Loop", mkR 0 3, mkR 1 3, lit "77")] /\
           map shown (flat_map kids (kids a)) = [(lit "Loop", mkR 1 3, mkR 1 3, lit "77")] /\
           map shown (flat_map kids (flat_map kids (kids a))) =
             [(lit "Digit", mkR 1 2, mkR 1 2, lit "7"); (lit "Digit", mkR 2 3, mkR 2 3, lit "7")]
       | _ => False
       end) /\
      (let P := parser_new "xxit's" in
       let (c, st1) := context_new P "Test" st in
       match tokenize 100 at_env P c m st1 with Ret (TErr FFail) _ => True | _ => False end)
  | _ => False
  end.
Proof. vm_compute. repeat split. Qed.

(* no definitions at all *)
Example C66_example_kept : kept (fun s => s = 0%nat) (fun _ _ => None) (sc_new empty_state).
Proof. split; [intros s ->; vm_compute; auto|]. split; [intros s x ->; reflexivity|discriminate]. Qed.
(* a text between quotes: the value is without the escape; the attribute is
   added to that of the sequence; captured as "Q", it is called "Name" (C42) *)
Example C66_example_quoted : forall D s, quoted_text = "_'it\'s'7" /\ exists D', reads quoted_text D s quoted_pat "'it\'s'7"
    (Took (Node "Name" (mkR 1 8) (mkR 2 7) "it\'s" [(lit "__value", lit "it's"); (lit "kind", lit "text")] []) "7") D'.
Proof. intros D s. split; [reflexivity|exact (quoted_read D s)]. Qed.
Example C66_example_quoted_run :
  match exec 20 at_env (parser_new quoted_text) (meaning quoted_pat) (mkCtx 0 0%nat [] (mkR 1 9) "Test") 0%nat (sc_new empty_state) with
  | Ret (Ok (SToken a)) st =>
      let t := tok st a in
      tk_name t = "Name" /\ tk_mr t = mkR 1 8 /\ tk_cr t = mkR 2 7 /\ get_cvalue t = "it\'s" /\ get_value t = "it's" /\
      get_attr "kind" t = Some (lit "text")
  | _ => False
  end.
Proof. vm_compute. auto 10. Qed.

(* a reference to something unknown is an error, once it is reached *)
Example C66_example_lost :
  lost_text = "(<='a'>) <[ <='b'> | <Nothing> ]>" /\
  (exists D', enters_entry "ac" (own_book 1%nat lost_script) 2%nat lost_entry "ac" (Unknown "Nothing") D') /\
  exists D', enters_entry "ab" (own_book 1%nat lost_script) 2%nat lost_entry "ab"
    (Took (Node "T" (mkR 0 2) (mkR 0 1) "a" [] [Node "Equals" (mkR 0 1) (mkR 0 1) "a" [] []]) []) D'.
Proof. split; [reflexivity|exact lost_read]. Qed.
Example C66_example_lost_run :
  match compile_str 100 at_env lost_text "T" false empty_state with
  | Ret (ScriptOk m sc) st =>
      m = compiled_script "T" 1%nat lost_script /\ sc = 1%nat /\ next_sid st = 2%nat /\
      (let P := parser_new "ac" in
       let (c, st1) := context_new P "Test" st in
       match tokenize 100 at_env P c m st1 with Ret (TErr e) _ => e = unknown_failure "Nothing" | _ => False end) /\
      (let P := parser_new "ab" in
       let (c, st1) := context_new P "Test" st in
       match tokenize 100 at_env P c m st1 with
       | Ret (TOk a) st' => tk_name (tok st' a) = "T" /\ tk_mr (tok st' a) = mkR 0 2 /\ tk_cr (tok st' a) = mkR 0 1
       | _ => False
       end)
  | _ => False
  end.
Proof. vm_compute. repeat split. Qed.

(* the files of C61_example_texts *)
Example C66_example_project :
  told at_env two_files two_book 0%nat 4%nat "/p/main" main_script 1%nat /\
  exists D', enters_entry "7" two_book 4%nat (Whole (s_name "/p/main" main_script) 1%nat (s_patterns main_script)) "7"
    (Took (Node "/p/main" (mkR 0 1) (mkR 0 1) "7" [] [Node "D" (mkR 0 1) (mkR 0 1) "7" [] []]) []) D'.
Proof. split; [exact two_told|exact two_read]. Qed.
Example C66_example_project_run :
  match compile_file 2 100 at_env two_files false "/p/main" empty_state with
  | Ret (ScriptOk m sc) st =>
      m = compiled_script "/p/main" 1%nat main_script /\ sc = 1%nat /\ next_sid st = 4%nat /\
      (let P := parser_new "7" in
       let (c, st1) := context_new P "Test" st in
       match tokenize 100 at_env P c m st1 with
       | Ret (TOk a) st' =>
           let shown := fun k => (tk_name (tok st' k), tk_mr (tok st' k), tk_cr (tok st' k), get_value (tok st' k)) in
           shown a = (lit "/p/main", mkR 0 1, mkR 0 1, lit "7") /\
           map shown (tk_kids (tok st' a)) = [(lit "D", mkR 0 1, mkR 0 1, lit "7")]
       | _ => False
       end)
  | _ => False
  end.
Proof. vm_compute. repeat split. Qed.
