(* C81 to C83: the grammar of scripts on ASCII texts: it does not panic, its
   tokens have the children their names demand, and a compilation panics only
   because of a regex that does not compile, an empty sequence delimiter or a
   file that is not found.  [well_shaped], [script_shape], [script_tree],
   [script_token], [hopeless], [spoilt] (SpecShape.v). *)
From Verif Require Import ScriptBuild Spec SpecMore SpecScript SpecShape SpecRefused ShapeCompile Samples SampleShape.
Open Scope string_scope.
Open Scope list_scope.
Open Scope N_scope.

(* ---------------------------------------------------------------- C81 *)

(* every token of a parsed script is an error with a message, or it has the
   children that its name demands and lies within the text; only the root has
   errors as children *)
Theorem C81_shapes : forall E P name st root st1 l, tame E -> tidy E -> ascii_only (p_src P) -> slen (p_src P) < isize_bound ->
  Tokenizes E P (script_ctx P name st) (Script_ E) (script_start E P name st) (TOk root) st1 -> preorder st1 [root] l ->
  (tk_name (tok st1 root) = "Script" \/ is_error (tok st1 root) = true) /\
  forall a, In a l -> well_shaped st1 a /\
    (is_error (tok st1 a) = false -> rs (tk_mr (tok st1 a)) <= slen (p_src P) /\ re (tk_mr (tok st1 a)) <= slen (p_src P)) /\
    (a <> root -> forall k, In k (tk_kids (tok st1 a)) -> is_error (tok st1 k) = false).
Proof. exact shapes. Qed.
Print Assumptions C81_shapes.

(* C19_example_tame and C36_example_tidy are the first two hypotheses for
   [at_env] *)
Example C81_example :
  ascii_only shape_text /\ slen shape_text < isize_bound /\
  match shape_parse 200 shape_text with
  | Ret (TOk a) st =>
      outline 20 st a = lits
        [("Script", ["AdextopaScope"; "PatternScope"; "Error"]);
         ("AdextopaScope", ["Attributes"; "Scope"]);
         ("Attributes", ["Attribute"]); ("Attribute", ["Name"; "Value"]); ("Name", []); ("Value", []);
         ("Scope", ["ImportStatement"; "AssignmentExpression"]);
         ("ImportStatement", ["ImportIdentifiers"; "Path"]);
         ("ImportIdentifiers", ["ImportIdentifier"]);
         ("ImportIdentifier", ["ImportName"; "ImportAsName"]); ("ImportName", []); ("ImportAsName", []); ("Path", []);
         ("AssignmentExpression", ["Identifier"; "PatternDefinition"]); ("Identifier", []);
         ("PatternDefinition", ["SequenceMatcher"]);
         ("SequenceMatcher", ["StartPattern"; "EndPattern"; "EscapePattern"]);
         ("StartPattern", []); ("EndPattern", []); ("EscapePattern", []);
         ("PatternScope", ["PatternDefinitionCaptured"; "PatternDefinition"]);
         ("PatternDefinitionCaptured", ["MatcherName"; "PatternDefinition"]);
         ("MatcherName", ["Name"]); ("Name", []);
         ("PatternDefinition", ["InnerOptionalModifier"; "SwitchMatcher"; "Attributes"; "RepeatRange"]);
         ("InnerOptionalModifier", []);
         ("SwitchMatcher", ["PatternDefinition"; "PatternDefinitionCaptured"]);
         ("PatternDefinition", ["EqualsMatcher"]); ("EqualsMatcher", ["String"]); ("String", []);
         ("PatternDefinitionCaptured", ["PatternDefinition"]);
         ("PatternDefinition", ["CustomMatcher"]); ("CustomMatcher", ["Identifier"]); ("Identifier", []);
         ("Attributes", ["Attribute"]); ("Attribute", ["Name"; "Value"]); ("Name", []); ("Value", []);
         ("RepeatRange", ["Minimum"; "Seperator"]); ("Minimum", []); ("Seperator", []);
         ("PatternDefinition", ["CustomMatcher"]); ("CustomMatcher", ["Identifier"]); ("Identifier", []);
         ("Error", [])]
  | _ => False
  end.
Proof. split; [exact shape_ascii|split; [reflexivity|vm_compute; reflexivity]]. Qed.

(* the shapes forbid something: a sequence needs its three parts, in order *)
Example C81_example_not :
  script_shape "SequenceMatcher" (names ["StartPattern"; "EndPattern"; "EscapePattern"]) /\
  ~ script_shape "SequenceMatcher" (names ["StartPattern"; "EscapePattern"; "EndPattern"]) /\
  ~ script_shape "SequenceMatcher" (names ["StartPattern"; "EndPattern"]) /\
  ~ script_shape "Comment" (names ["Comment"]).
Proof. exact shape_not. Qed.

(* ---------------------------------------------------------------- C82 *)

(* parsing an ASCII script does not panic, whatever the text *)
Theorem C82_no_panic : forall E P name st n p, tame E -> ascii_only (p_src P) -> slen (p_src P) < isize_bound ->
  tokenize n E P (script_ctx P name st) (Script_ E) (script_start E P name st) <> Pan p.
Proof. exact parse_safe. Qed.
Print Assumptions C82_no_panic.

(* and returns, within a number of nested calls that is linear in its length *)
Theorem C82_returns : forall E P name st n, tame E -> tidy E -> returning E ->
  ascii_only (p_src P) -> slen (p_src P) < isize_bound -> (18 * N.to_nat (slen (p_src P)) + 24 <= n)%nat ->
  exists r st1, tokenize n E P (script_ctx P name st) (Script_ E) (script_start E P name st) = Ret r st1.
Proof. exact parse_returns. Qed.
Print Assumptions C82_returns.

(* C69_example_returning is the third hypothesis for [at_env]; a text that is
   not a script is no exception *)
Example C82_example :
  (18 * N.to_nat (slen "<[<[<[ <{ (?'") + 24 = 258)%nat /\
  (exists r st, shape_parse 258 "<[<[<[ <{ (?'" = Ret r st) /\
  shape_parse 5 "<[<[<[ <{ (?'" = OOF.
Proof. split; [vm_compute; reflexivity|split; [exact broken_parse|vm_compute; reflexivity]]. Qed.
(* ASCII is needed *)
Example C82_example_not_ascii : shape_parse 200 "<='é'>" = Pan PSlice.
Proof. vm_compute. reflexivity. Qed.

(* ---------------------------------------------------------------- C83 *)

(* compiling an ASCII script panics only because of a regex that does not
   compile or a sequence whose start or end is empty *)
Theorem C83_text : forall E src name log n st p, tame E -> tidy E -> ascii_only src -> slen src < isize_bound ->
  compile_str n E src name log st = Pan p ->
  exists st1 a, script_token E (parser_new src) st1 a /\ hopeless E st1 a p.
Proof. exact text_excused. Qed.
Print Assumptions C83_text.

Theorem C83_text_returns : forall E src name log st n, tame E -> tidy E -> returning E ->
  ascii_only src -> slen src < isize_bound -> (18 * N.to_nat (slen src) + 24 <= n)%nat ->
  (exists r st1, compile_str n E src name log st = Ret r st1) \/
  exists st1 a p, script_token E (parser_new src) st1 a /\ hopeless E st1 a p /\ compile_str n E src name log st = Pan p.
Proof. exact text_returns. Qed.
Print Assumptions C83_text_returns.

(* the same for files; there it can also be a file that is not found *)
Theorem C83_file : forall E F log depth n file st p, tame E -> tidy E ->
  (forall full src, fs_read F full = Some src -> ascii_only src /\ slen src < isize_bound) ->
  compile_file depth n E F log file st = Pan p -> spoilt E F file p.
Proof. exact file_excused. Qed.
Print Assumptions C83_file.

Example C83_example :
  compile_str 200 at_env "<%'a','',''>" "T" false empty_state =
    Pan (PMessage "Sequence `end` pattern of """" makes no sense") /\
  compile_str 200 at_env "</(/>" "T" false empty_state = Pan PUnwrap /\
  (exists r st, compile_str 258 at_env "<[<[<[ <{ (?'" "T" false empty_state = Ret r st).
Proof. split; [vm_compute; reflexivity|split; [vm_compute; reflexivity|exact broken_compile]]. Qed.

Example C83_example_file :
  compile_file 3 200 at_env odd_files false "/p/main" empty_state =
    Pan (PMessage "Sequence `end` pattern of """" makes no sense") /\
  compile_file 3 200 at_env odd_files false "/p/none" empty_state = Pan PUnwrap /\
  (forall full src, fs_read odd_files full = Some src -> ascii_only src /\ slen src < isize_bound).
Proof. split; [vm_compute; reflexivity|split; [vm_compute; reflexivity|exact odd_ascii]]. Qed.

(* a text without [%] and [/] is harmless *)
Theorem C83_signs : forall E P st a, tame E -> tidy E -> ascii_only (p_src P) -> slen (p_src P) < isize_bound -> script_token E P st a ->
  (tk_name (tok st a) = "SequenceMatcher" -> In "%"%char (p_src P)) /\ (tk_name (tok st a) = "RegexMatcher" -> In "/"%char (p_src P)).
Proof. exact signs. Qed.
Print Assumptions C83_signs.

Theorem C83_plain : forall E src name log n st p, tame E -> tidy E -> ascii_only src -> slen src < isize_bound ->
  ~ In "%"%char src -> ~ In "/"%char src -> compile_str n E src name log st <> Pan p.
Proof. exact plain_text. Qed.
Print Assumptions C83_plain.

(* both texts of C83_example that panic have one of the two characters *)
Example C83_example_plain :
  In "%"%char (lit "<%'a','',''>") /\ ~ In "/"%char (lit "<%'a','',''>") /\
  ~ In "%"%char (lit "</(/>") /\ In "/"%char (lit "</(/>") /\
  ~ In "%"%char (lit "<[<[<[ <{ (?'") /\ ~ In "/"%char (lit "<[<[<[ <{ (?'").
Proof. exact plain_signs. Qed.

(* more closely: a panic takes a [/], or a [%] together with an empty string *)
Theorem C83_filled : forall E src name log n st p, tame E -> tidy E -> ascii_only src -> slen src < isize_bound ->
  compile_str n E src name log st = Pan p ->
  (In "/"%char src /\ p = PUnwrap) \/ (In "%"%char src /\ exists pre post, src = pre ++ lit "''" ++ post).
Proof. exact filled_text. Qed.
Print Assumptions C83_filled.

(* the text of C83_example has such a string; a sequence without one compiles *)
Example C83_example_filled :
  lit "<%'a','',''>" = lit "<%'a'," ++ lit "''" ++ lit ",''>" /\
  match compile_str 200 at_env "<%'a','b','c'>" "T" false empty_state with Ret (ScriptOk _ _) _ => True | _ => False end.
Proof. split; [reflexivity|vm_compute; exact I]. Qed.

(* and for files, with the file that is to blame: it is not there, it imports
   from a path that leads nowhere, or its text has such characters *)
Theorem C83_file_filled : forall E F log depth n file st p, tame E -> tidy E ->
  (forall full src, fs_read F full = Some src -> ascii_only src /\ slen src < isize_bound) ->
  compile_file depth n E F log file st = Pan p -> exists other, reached E F file other /\ panic_reason E F other p.
Proof. exact filled_file. Qed.
Print Assumptions C83_file_filled.

(* the files of C83_example_file: the imported one is to blame *)
Example C83_example_blame : forall m,
  panic_reason at_env odd_files "/p/odd" (PMessage m) /\ ~ panic_reason at_env odd_files "/p/main" (PMessage m).
Proof. exact odd_blame. Qed.
