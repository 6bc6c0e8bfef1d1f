(* C84: the tokens of an ASCII script that have no children cover the text of a
   lexeme of their kind, and their value is what that text stands for.
   [lexeme], [written] (SpecLex.v), [script_leaves], [script_token]
   (SpecShape.v). *)
From Verif Require Import ScriptBuild Spec SpecMore SpecScript SpecLex SpecShape ShapeCompile Samples SampleShape SampleLex.
Open Scope string_scope.
Open Scope list_scope.
Open Scope N_scope.

Theorem C84_leaves : forall E P st a, tame E -> tidy E -> ascii_only (p_src P) -> slen (p_src P) < isize_bound ->
  script_token E P st a -> In (tk_name (tok st a)) script_leaves -> written P st a.
Proof. exact leaves_written. Qed.
Print Assumptions C84_leaves.

(* C19_example_tame and C36_example_tidy are the first two hypotheses for
   [at_env] *)
Example C84_example :
  ascii_only lex_text /\ slen lex_text < isize_bound /\
  match shape_parse 200 lex_text with
  | Ret (TOk a) st =>
      leaves 20 st a =
        [leaf "Comment" "#1" 0 2; leaf "Name" "it's" 5 12; leaf "OuterOptionalModifier" "?" 12 13;
         leaf "RegexStart" "/" 14 15; leaf "Part" "a" 15 16; leaf "Part" "]/" 16 21; leaf "Part" "\/" 21 23;
         leaf "Part" "+" 23 24; leaf "RegexEnd" "/" 24 25; leaf "Flags" "im" 25 27; leaf "Name" "k" 28 29;
         leaf "Value" "v" 30 33; leaf "Minimum" "2" 35 36; leaf "Seperator" "," 36 37; leaf "Maximum" "30" 37 39;
         leaf "InnerNotModifier" "!" 43 44; leaf "Identifier" "$x" 44 46; leaf "OuterOptionalModifier" "?" 48 49;
         leaf "String" "" 51 53; leaf "RepeatZeroOrMore" "*" 54 55]
  | _ => False
  end.
Proof. split; [exact lex_ascii|split; [reflexivity|vm_compute; reflexivity]]. Qed.

(* the lexemes forbid something *)
Example C84_example_not :
  ~ lexeme "Identifier" "ab" "ab" "c" /\ lexeme "Identifier" "abc" "abc" " " /\
  ~ lexeme "Minimum" "1x" "1x" "}" /\
  lexeme "String" "it's" "'it\'s'" ">" /\ ~ lexeme "String" "it's" "'it's'" ">" /\ ~ lexeme "String" "its" "its" ">".
Proof. exact lex_not. Qed.
