(* The shape of the trees that scripts are parsed into. *)
From Verif Require Import ScriptBuild Spec SpecMore SpecScript.
Open Scope string_scope.
Open Scope list_scope.
Open Scope N_scope.

(* the names of those of the tokens [l] that are not errors *)
Definition labels (st : state) (l : list addr) : list str :=
  map (fun a => tk_name (tok st a)) (filter (fun a => negb (is_error (tok st a))) l).

(* what comes in a list of names: one out of [ns], at most one, or any number *)
Inductive slot := Exactly (ns : list str) | Perhaps (ns : list str) | Any (ns : list str).
Fixpoint follows (l : list slot) (ks : list str) : Prop :=
  match l with
  | [] => ks = []
  | Exactly ns :: l' => exists n ks', In n ns /\ ks = n :: ks' /\ follows l' ks'
  | Perhaps ns :: l' => follows l' ks \/ exists n ks', In n ns /\ ks = n :: ks' /\ follows l' ks'
  | Any ns :: l' => exists k1 k2, ks = k1 ++ k2 /\ Forall (fun n => In n ns) k1 /\ follows l' k2
  end.

Definition names : list string -> list str := map lit.
Definition pattern_names : list string := ["PatternDefinitionCaptured"; "PatternDefinition"].
Definition matcher_names : list string :=
  ["RegexMatcher"; "EqualsMatcher"; "SequenceMatcher"; "CustomMatcher"; "SwitchMatcher"; "ProgramMatcher"].
Definition repeat_names : list string := ["RepeatZeroOrMore"; "RepeatOneOrMore"; "RepeatRange"].

Definition one ns := Exactly (names ns).
Definition opt ns := Perhaps (names ns).
Definition many ns := Any (names ns).

(* which children a token has, by its name *)
Definition script_tree : list (str * list slot) :=
  [(lit "Script", [opt ["PreHead"]; opt ["AdextopaScope"]; opt ["PatternScope"]]);
   (lit "PreHead", [many ["Comment"]]);
   (lit "AdextopaScope", [opt ["Attributes"]; opt ["Scope"]]);
   (lit "Scope", [many ["Comment"; "ImportStatement"; "AssignmentExpression"]]);
   (lit "PatternScope", [many ("Comment" :: pattern_names)]);
   (lit "PatternDefinitionCaptured", [opt ["MatcherName"]; one ["PatternDefinition"]]);
   (lit "PatternDefinition",
     [opt ["OuterOptionalModifier"; "OuterNotModifier"]; opt ["InnerOptionalModifier"; "InnerNotModifier"];
      one matcher_names; opt ["Attributes"]; opt repeat_names]);
   (lit "MatcherName", [one ["Name"]]);
   (lit "RegexMatcher", [one ["RegexStart"]; many ["Part"; "RegexEnd"; "Flags"]]);
   (lit "EqualsMatcher", [one ["String"]]);
   (lit "SequenceMatcher", [one ["StartPattern"]; one ["EndPattern"]; one ["EscapePattern"]]);
   (lit "CustomMatcher", [one ["Identifier"]]);
   (lit "SwitchMatcher", [many pattern_names]);
   (lit "ProgramMatcher", [many pattern_names]);
   (lit "RepeatRange", [one ["Minimum"]; opt ["Seperator"]; opt ["Maximum"]]);
   (lit "Attributes", [many ["Attribute"]]);
   (lit "Attribute", [one ["Name"]; one ["Value"]]);
   (lit "AssignmentExpression", [one ["Identifier"]; one ["Identifier"; "PatternDefinition"]]);
   (lit "ImportStatement", [one ["ImportIdentifiers"]; one ["Path"]]);
   (lit "ImportIdentifiers", [many ["ImportIdentifier"]]);
   (lit "ImportIdentifier", [one ["ImportName"]; opt ["ImportAsName"]])].
(* the names of tokens without children *)
Definition script_leaves : list str := names
  ["Comment"; "Identifier"; "String"; "Name"; "Value"; "RegexStart"; "RegexEnd"; "Part"; "Flags"; "StartPattern";
   "EndPattern"; "EscapePattern"; "RepeatZeroOrMore"; "RepeatOneOrMore"; "Minimum"; "Seperator"; "Maximum";
   "OuterOptionalModifier"; "OuterNotModifier"; "InnerOptionalModifier"; "InnerNotModifier"; "ImportName";
   "ImportAsName"; "Path"].
Definition script_shape (name : str) (ks : list str) : Prop :=
  (exists slots, In (name, slots) script_tree /\ follows slots ks) \/ (In name script_leaves /\ ks = []).

(* a token is an error with a message and nothing in it, or has the children its name demands *)
Definition well_shaped (st : state) (a : addr) : Prop :=
  if is_error (tok st a)
  then tk_name (tok st a) = "Error" /\ get_attr "__message" (tok st a) <> None /\ tk_kids (tok st a) = []
  else script_shape (tk_name (tok st a)) (labels st (tk_kids (tok st a))).

(* ---------- what cannot be built ---------- *)

(* [st] holds the tokens of the source of [P], [a] is one of them *)
Definition script_token (E : env) (P : parser) (st : state) (a : addr) : Prop :=
  exists name st0 root l,
    Tokenizes E P (script_ctx P name st0) (Script_ E) (script_start E P name st0) (TOk root) st /\
    preorder st [root] l /\ In a l.

(* the regex that is made of a "RegexMatcher" token *)
Inductive regex_text (st : state) (a : addr) : str -> Prop :=
| rt_plain : no_kid st a ["Flags"] -> regex_text st a (get_value (tok st a))
| rt_flags f : first_kid st a ["Flags"] f ->
    regex_text st a (lit "(?" ++ get_cvalue (tok st f) ++ lit ")" ++ get_value (tok st a)).

(* a token that the code cannot make a matcher of, and what happens *)
Inductive hopeless (E : env) (st : state) (a : addr) : panic -> Prop :=
| hl_regex v : tk_name (tok st a) = "RegexMatcher" -> regex_text st a v -> e_regex E v = None ->
    hopeless E st a PUnwrap
| hl_start s l : tk_name (tok st a) = "SequenceMatcher" -> tk_kids (tok st a) = s :: l -> get_value (tok st s) = [] ->
    hopeless E st a (PMessage "Sequence `start` pattern of """" makes no sense")
| hl_end s e l : tk_name (tok st a) = "SequenceMatcher" -> tk_kids (tok st a) = s :: e :: l -> get_value (tok st e) = [] ->
    hopeless E st a (PMessage "Sequence `end` pattern of """" makes no sense").

(* a file that cannot be compiled without a panic: it is not there, has such a token,
   imports from a path that leads nowhere, or imports such a file *)
Inductive spoilt (E : env) (F : fs) : str -> panic -> Prop :=
| sp_place file : fs_canon F file = None -> spoilt E F file PUnwrap
| sp_read file full : fs_canon F file = Some full -> fs_read F full = None -> spoilt E F file PUnwrap
| sp_token file full src st a p : fs_canon F file = Some full -> fs_read F full = Some src ->
    script_token E (parser_named src full) st a -> hopeless E st a p -> spoilt E F file p
| sp_path file full src st a q : fs_canon F file = Some full -> fs_read F full = Some src ->
    script_token E (parser_named src full) st a -> tk_name (tok st a) = "ImportStatement" ->
    first_kid st a ["Path"] q -> fs_join F full (get_value (tok st q)) = None -> spoilt E F file PUnwrap
| sp_import file full src st a q other p : fs_canon F file = Some full -> fs_read F full = Some src ->
    script_token E (parser_named src full) st a -> tk_name (tok st a) = "ImportStatement" ->
    first_kid st a ["Path"] q -> fs_join F full (get_value (tok st q)) = Some other -> spoilt E F other p ->
    spoilt E F file p.
