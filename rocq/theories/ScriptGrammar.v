(* The grammar of the script language: the macros of src/script/v1/matchers. *)
From Verif Require Export ReEngine.
Open Scope string_scope.
Open Scope list_scope.
Open Scope N_scope.

Section Grammar.
Variable E : env.

(* the regular expressions that occur in the grammar *)
(* whitespace.rs:4, 8: [^\S\n\r]* *)
Definition re_ws0 : finder :=
  re_find [[Star (fun x => cspace E x && negb (x =? 10) && negb (x =? 13))]].
(* whitespace.rs:26, 30: \s* *)
Definition re_wsn0 : finder := re_find [[Star (cspace E)]].
(* identifier.rs:4, 8: [a-zA-Z$_][a-zA-Z0-9$_]* *)
Definition id_start : N -> bool :=
  fun x => rng "a" "z" x || rng "A" "Z" x || ch "$" x || ch "_" x.
Definition re_identifier : finder :=
  re_find [[One id_start; Star (fun x => id_start x || rng "0" "9" x)]].
(* comment.rs:4: #[^\r\n]* *)
Definition re_comment : finder :=
  re_find [[One (ch "#"); Star (fun x => negb (x =? 10) && negb (x =? 13))]].
(* repeat_range.rs:7, 11: \d+ *)
Definition re_digits : finder := re_find [plus (cdigit E)].
(* attribute.rs:6: [\w+_]+ *)
Definition attr_char : N -> bool := fun x => cword E x || ch "+" x || ch "_" x.
Definition re_attr_name : finder := re_find [plus attr_char].
(* attribute.rs:10: [^'\s]+ *)
Definition re_unquoted : finder := re_find [plus (fun x => negb (ch "'" x) && negb (cspace E x))].
(* attribute.rs:14: _[\w+_]+ *)
Definition re_underscore : finder := re_find [One (ch "_") :: plus attr_char].
(* regex_matcher.rs:10: [^/\\\[]* *)
Definition re_part : finder :=
  re_find [[Star (fun x => negb (ch "/" x) && negb (ch "\" x) && negb (ch "[" x))]].
(* regex_matcher.rs:14: \\.  (the dot does not match \n) *)
Definition re_escape : finder := re_find [[One (ch "\"); One (fun x => negb (x =? 10))]].
(* regex_matcher.rs:19: [imsU]* *)
Definition re_flags : finder :=
  re_find [[Star (fun x => ch "i" x || ch "m" x || ch "s" x || ch "U" x)]].
(* sequence_matcher.rs:5: %\s* *)
Definition re_percent : finder := re_find [[One (ch "%"); Star (cspace E)]].
(* sequence_matcher.rs:7, 9: \s*,\s* *)
Definition re_comma : finder := re_find [[Star (cspace E); One (ch ","); Star (cspace E)]].
(* import_statement.rs:24: \s+as\s+ *)
Definition re_as : finder :=
  re_find [plus (cspace E) ++ lit_re "as" ++ plus (cspace E)].
(* adextopa_scope.rs:6: <!--\[adextopa *)
Definition re_scope_start : finder := re_find [lit_re "<!--[adextopa"].
(* pattern_definition.rs:15, 26: \?!|!\? *)
Definition re_both : finder := re_find [lit_re "?!"; lit_re "!?"].

(* whitespace.rs:3-5 *)
Definition ScriptWS0 : matcher := MDiscard (MatchesN "Whitespace" re_ws0).
(* whitespace.rs:25-27 *)
Definition ScriptWSN0 : matcher := MDiscard (MatchesN "Whitespace" re_wsn0).
(* identifier.rs:3-9 *)
Definition ScriptIdentifierN (n : str) : matcher := MatchesN n re_identifier.
Definition ScriptIdentifier : matcher := ScriptIdentifierN "Identifier".
(* string.rs:3-9 *)
Definition ScriptStringN (n : str) : matcher := SequenceN n "'" "'" "\".
Definition ScriptString : matcher := ScriptStringN "String".
(* comment.rs:3-5 *)
Definition ScriptComment : matcher := MatchesN "Comment" re_comment.
(* attribute.rs:10 *)
Definition msg_malformed : str :=
  "Malformed attribute detected. Attribute value is not single-quoted. The proper format for an attribute is: name='value'".
(* attribute.rs:3-19 *)
Definition ScriptAttribute : matcher :=
  ProgramN "Attribute" [
    StoreM "AttributeStartOffset" Pin_;
    MatchesN "Name" re_attr_name;
    ScriptWS0;
    MDiscard (Equals_ "=");
    ScriptWS0;
    FatalIf (Matches_ re_unquoted) msg_malformed;
    ScriptStringN "Value";
    PinNOM "Pin" (FFetch "AttributeStartOffset.range")
      (AssertIf (Matches_ re_underscore) "Attribute names can not start with an underscore")].
(* attributes.rs:3-10 *)
Definition ScriptAttributes : matcher :=
  MOptional (LoopRN (Included 1) Unbounded "Attributes" [ScriptAttribute; ScriptWSN0]).
(* custom_matcher.rs:3-7 *)
Definition ScriptCustomMatcher : matcher := ProgramN "CustomMatcher" [ScriptIdentifier].
(* equals_matcher.rs:3-8 *)
Definition ScriptEqualsMatcher : matcher :=
  ProgramN "EqualsMatcher" [MDiscard (Equals_ "="); ScriptString].
(* sequence_matcher.rs:3-12 *)
Definition ScriptSequenceMatcher : matcher :=
  ProgramN "SequenceMatcher" [
    MDiscard (Matches_ re_percent);
    ScriptStringN "StartPattern";
    MDiscard (Matches_ re_comma);
    ScriptStringN "EndPattern";
    MDiscard (Matches_ re_comma);
    ScriptStringN "EscapePattern"].
(* regex_matcher.rs:3-58 *)
Definition ScriptRegexMatcher : matcher :=
  MMap (ProgramN "RegexMatcher" [
          EqualsN "RegexStart" "/";
          Proxy_ (LoopN "RegexCaptureLoop" [
            MatchesN "Part" re_part;
            Switch_ [
              MatchesN "Part" re_escape;
              Proxy_ (Program_ [
                EqualsN "RegexEnd" "/";
                MatchesN "Flags" re_flags;
                MBreak "RegexCaptureLoop"]);
              SequenceN "Part" "[" "]" "\"]])])
       MapRegex.
(* matcher.rs:3-12 *)
Definition ScriptMatcher : matcher :=
  SwitchN "Matcher" [
    ScriptRegexMatcher;
    ScriptEqualsMatcher;
    ScriptSequenceMatcher;
    ScriptCustomMatcher;
    Ref_ "SwitchMatcher";
    Ref_ "ProgramMatcher"].
(* repeat_zero_or_more.rs:3-5, repeat_one_or_more.rs:3-5 *)
Definition ScriptRepeatZeroOrMore : matcher := EqualsN "RepeatZeroOrMore" "*".
Definition ScriptRepeatOneOrMore : matcher := EqualsN "RepeatOneOrMore" "+".
(* repeat_range.rs:3-15 *)
Definition ScriptRepeatRange : matcher :=
  ProgramN "RepeatRange" [
    MDiscard (Equals_ "{");
    ScriptWS0;
    MatchesN "Minimum" re_digits;
    ScriptWS0;
    MOptional (EqualsN "Seperator" ",");
    ScriptWS0;
    MOptional (MatchesN "Maximum" re_digits);
    ScriptWS0;
    MDiscard (Equals_ "}")].
(* repeat_specifier.rs:7-13 *)
Definition ScriptRepeatSpecifier : matcher :=
  SwitchN "RepeatSpecifier" [ScriptRepeatZeroOrMore; ScriptRepeatOneOrMore; ScriptRepeatRange].
(* pattern_definition.rs:16, 27 *)
Definition msg_both : str :=
  "Can not use ? and ! at the same time in this context. Use one or the other, not both.".
(* pattern_definition.rs:3-58 *)
Definition ScriptPatternDefinition : matcher :=
  MMap (ProgramN "PatternDefinition" [
          AssertIf (Matches_ re_both) msg_both;
          MOptional (Switch_ [EqualsN "OuterOptionalModifier" "?"; EqualsN "OuterNotModifier" "!"]);
          MDiscard (Equals_ "<");
          AssertIf (Matches_ re_both) msg_both;
          MOptional (Switch_ [EqualsN "InnerOptionalModifier" "?"; EqualsN "InnerNotModifier" "!"]);
          ScriptWSN0;
          ScriptMatcher;
          ScriptWSN0;
          ScriptAttributes;
          MDiscard (Equals_ ">");
          MOptional ScriptRepeatSpecifier])
       MapPatternDef.
(* matcher_name.rs:3-8 *)
Definition ScriptMatcherName : matcher :=
  ProgramN "MatcherName" [MDiscard (Equals_ "?"); ScriptStringN "Name"].
(* pattern.rs:3-16 *)
Definition ScriptPattern : matcher :=
  SwitchN "Pattern" [
    ProgramN "PatternDefinitionCaptured" [
      MDiscard (Equals_ "(");
      ScriptWSN0;
      MOptional ScriptMatcherName;
      ScriptWSN0;
      ScriptPatternDefinition;
      ScriptWSN0;
      MDiscard (Equals_ ")")];
    ScriptPatternDefinition].
(* switch_matcher.rs:3-31 *)
Definition ScriptSwitchMatcher : matcher :=
  ProgramN "SwitchMatcher" [
    MDiscard (Equals_ "[");
    Proxy_ (Loop_ [
      ScriptWSN0;
      Switch_ [MDiscard (Program_ [Equals_ "]"; MBreak ""]); ScriptPattern];
      ScriptWSN0;
      MDiscard (Switch_ [Equals_ "|"; Program_ [Equals_ "]"; MBreak ""]])])].
(* program_matcher.rs:3-22 *)
Definition ScriptProgramMatcher : matcher :=
  ProgramN "ProgramMatcher" [
    MDiscard (Equals_ "{");
    Proxy_ (Loop_ [
      ScriptWSN0;
      ScriptPattern;
      ScriptWSN0;
      MDiscard (MOptional (Program_ [Equals_ "}"; MBreak ""]))])].
(* assignment_expression.rs:3-14 *)
Definition ScriptAssignmentExpression : matcher :=
  ProgramN "AssignmentExpression" [
    ScriptIdentifier;
    ScriptWSN0;
    MDiscard (Equals_ "=");
    ScriptWSN0;
    Switch_ [ScriptIdentifier; ScriptPatternDefinition]].
(* import_statement.rs:3-42 *)
Definition ScriptImportStatement : matcher :=
  ProgramN "ImportStatement" [
    MDiscard (Equals_ "import");
    ScriptWS0;
    ProgramN "ImportIdentifiers" [
      MDiscard (Equals_ "{");
      Proxy_ (LoopN "IdentifiersLoop" [
        ScriptWSN0;
        Switch_ [
          MDiscard (Program_ [Equals_ "}"; MBreak "IdentifiersLoop"]);
          ProgramN "ImportIdentifier" [
            ScriptIdentifierN "ImportName";
            MOptional (Proxy_ (Program_ [
              MDiscard (Matches_ re_as);
              ScriptIdentifierN "ImportAsName"]));
            MDiscard (MOptional (Equals_ ","))]]])];
    ScriptWS0;
    MDiscard (Equals_ "from");
    ScriptWS0;
    ScriptStringN "Path"].
(* adextopa_scope.rs:3-77 *)
Definition ScriptAdextopaScope : matcher :=
  MMap (ProgramN "AdextopaScope" [
          MDiscard (Matches_ re_scope_start);
          ScriptWS0;
          ScriptAttributes;
          MDiscard (Equals_ "]");
          PinN "EndOfScopeHeader";
          MOptional (LoopN "Scope" [
            ScriptWSN0;
            Switch_ [
              ScriptComment;
              ScriptImportStatement;
              ScriptAssignmentExpression;
              MDiscard (Program_ [PinM (Equals_ "-->"); MBreak ""])]]);
          MDiscard (Equals_ "-->")])
       MapAdextopaScope.
(* pattern_scope.rs:3-25 *)
Definition ScriptPatternScope : matcher :=
  MMap (LoopRN (Included 1) Unbounded "PatternScope" [
          ScriptWSN0;
          Switch_ [ScriptComment; ScriptPattern]])
       MapPatternScope.
(* script.rs:3-28 *)
Definition Script_ : matcher :=
  MMap (ProgramN "Script" [
          MOptional (LoopN "PreHead" [ScriptWSN0; ScriptComment]);
          ScriptWSN0;
          MOptional ScriptAdextopaScope;
          MOptional ScriptPatternScope])
       MapScript.
End Grammar.
