(* Vocabulary for the properties of compiled scripts, stated without the
   functions of ScriptBuild. *)
From Verif Require Import ScriptBuild Spec.
Open Scope string_scope.
Open Scope list_scope.
Open Scope N_scope.

(* ---------- children by name ---------- *)

(* [k] is the first child of [a] whose name is one of [names] *)
Definition first_kid (st : state) (a : addr) (names : list String.string) (k : addr) : Prop :=
  exists before after, tk_kids (tok st a) = before ++ k :: after /\
    (exists n, In n names /\ tk_name (tok st k) = lit n) /\
    forall x n, In x before -> In n names -> tk_name (tok st x) <> lit n.
Definition no_kid (st : state) (a : addr) (names : list String.string) : Prop :=
  forall x n, In x (tk_kids (tok st a)) -> In n names -> tk_name (tok st x) <> lit n.

(* ---------- repeat specifiers ---------- *)

(* a number the way `str::parse::<usize>` takes it: an optional "+" and digits *)
Definition usize_text (n : N) (s : str) : Prop :=
  numeral n s \/ exists d, s = "+"%char :: d /\ numeral n d.

(* the number of repetitions a specifier token asks for: at least [lo], and
   fewer than [hi], with usize::MAX for "no limit" *)
Inductive repeat_means (st : state) (a : addr) : N -> N -> Prop :=
| rm_star : tk_name (tok st a) = "RepeatZeroOrMore" -> repeat_means st a 0 usize_max
| rm_plus : tk_name (tok st a) = "RepeatOneOrMore" -> repeat_means st a 1 usize_max
| rm_exact k n :
    tk_name (tok st a) = "RepeatRange" -> first_kid st a ["Minimum"] k ->
    usize_text n (get_cvalue (tok st k)) -> no_kid st a ["Seperator"] ->
    repeat_means st a 0 n
| rm_from k sep n :
    tk_name (tok st a) = "RepeatRange" -> first_kid st a ["Minimum"] k ->
    usize_text n (get_cvalue (tok st k)) -> first_kid st a ["Seperator"] sep ->
    no_kid st a ["Maximum"] -> repeat_means st a n usize_max
| rm_between k sep k' n n' :
    tk_name (tok st a) = "RepeatRange" -> first_kid st a ["Minimum"] k ->
    usize_text n (get_cvalue (tok st k)) -> first_kid st a ["Seperator"] sep ->
    first_kid st a ["Maximum"] k' -> usize_text n' (get_cvalue (tok st k')) -> n <= n' ->
    repeat_means st a n n'.

(* ---------- what a pattern in a script means ---------- *)

(* the text of a string token or identifier *)
Definition text_of (st : state) (a : addr) (v : str) : Prop := get_value (tok st a) = v.

(* name='value' pairs; a later attribute replaces an earlier one *)
Inductive attr_list (st : state) : list addr -> list (str * str) -> list (str * str) -> Prop :=
| ap_end acc : attr_list st [] acc acc
| ap_next a l k v r acc acc' :
    tk_kids (tok st a) = k :: v :: r ->
    attr_list st l (assoc_set (get_cvalue (tok st k)) (get_cvalue (tok st v)) acc) acc' ->
    attr_list st (a :: l) acc acc'.

(* the layer of attributes *)
Inductive with_attrs (st : state) (a : addr) (m : matcher) : matcher -> Prop :=
| wa_none : no_kid st a ["Attributes"] -> with_attrs st a m m
| wa_empty k : first_kid st a ["Attributes"] k -> tk_kids (tok st k) = [] -> with_attrs st a m m
| wa_some k l : first_kid st a ["Attributes"] k -> tk_kids (tok st k) <> [] ->
    attr_list st (tk_kids (tok st k)) [] l -> with_attrs st a m (MMap m (MapAttrs l)).

(* the layer of a "?" or "!"; "?" wins *)
Inductive with_sign (st : state) (a : addr) (opt neg : String.string) (m : matcher) : matcher -> Prop :=
| ws_opt k : first_kid st a [opt] k -> with_sign st a opt neg m (MOptional m)
| ws_not k : no_kid st a [opt] -> first_kid st a [neg] k -> with_sign st a opt neg m (MNot m)
| ws_none : no_kid st a [opt] -> no_kid st a [neg] -> with_sign st a opt neg m m.

Definition repeats : list String.string := ["RepeatZeroOrMore"; "RepeatOneOrMore"; "RepeatRange"].
(* the layer of a repetition *)
Inductive with_repeat (st : state) (a : addr) (m : matcher) : matcher -> Prop :=
| wr_none : no_kid st a repeats -> with_repeat st a m m
| wr_some k lo hi : first_kid st a repeats k -> repeat_means st k lo hi ->
    with_repeat st a m (MProgram [m] (mkPI "Loop" (Some (lo, hi)) false false)).

(* a name given to the pattern replaces the name of the innermost matcher *)
Definition with_name (name : str) (m m' : matcher) : Prop :=
  (name = [] /\ m' = m) \/ (name <> [] /\ m' = m_set_name name m).

Definition cores : list String.string :=
  ["CustomMatcher"; "EqualsMatcher"; "RegexMatcher"; "SequenceMatcher"; "ProgramMatcher"; "SwitchMatcher"].

(* [pattern_means E st a m]: the pattern token [a] stands for the matcher [m];
   [def_means] is the part between "<" and ">" with its modifiers, [core_means]
   what is left without them *)
Inductive pattern_means (E : env) (st : state) : addr -> matcher -> Prop :=
| pm_named a nt nk nr x d r m :
    tk_name (tok st a) = "PatternDefinitionCaptured" ->
    first_kid st a ["MatcherName"] nt -> tk_kids (tok st nt) = nk :: nr ->
    tk_kids (tok st a) = x :: d :: r ->
    def_means E st d (tk_name (tok st nk)) m -> pattern_means E st a m
| pm_captured a d r m :
    tk_name (tok st a) = "PatternDefinitionCaptured" -> no_kid st a ["MatcherName"] ->
    tk_kids (tok st a) = d :: r ->
    def_means E st d [] m -> pattern_means E st a m
| pm_plain a m :
    tk_name (tok st a) = "PatternDefinition" -> def_means E st a [] m ->
    pattern_means E st a (MDiscard m)
with def_means (E : env) (st : state) : addr -> str -> matcher -> Prop :=
| dm_layers a name k core named attributed signed repeated m :
    tk_name (tok st a) = "PatternDefinition" ->
    first_kid st a cores k -> core_means E st k core ->
    with_name name core named ->
    with_attrs st a named attributed ->
    with_sign st a "InnerOptionalModifier" "InnerNotModifier" attributed signed ->
    with_repeat st a signed repeated ->
    with_sign st a "OuterOptionalModifier" "OuterNotModifier" repeated m ->
    def_means E st a name m
with core_means (E : env) (st : state) : addr -> matcher -> Prop :=
| cm_equals a k r v :
    tk_name (tok st a) = "EqualsMatcher" -> tk_kids (tok st a) = k :: r ->
    text_of st k v -> v <> [] -> core_means E st a (MEquals (FStr v) "Equals" false)
| cm_regex a v f :
    tk_name (tok st a) = "RegexMatcher" -> text_of st a v -> v <> [] ->
    no_kid st a ["Flags"] -> e_regex E v = Some f ->
    core_means E st a (MMatches f "Matches" false)
| cm_regex_flags a v k f :
    tk_name (tok st a) = "RegexMatcher" -> text_of st a v -> v <> [] ->
    first_kid st a ["Flags"] k ->
    e_regex E (lit "(?" ++ get_cvalue (tok st k) ++ lit ")" ++ v) = Some f ->
    core_means E st a (MMatches f "Matches" false)
| cm_sequence a s e x r vs ve vx :
    tk_name (tok st a) = "SequenceMatcher" -> tk_kids (tok st a) = s :: e :: x :: r ->
    text_of st s vs -> text_of st e ve -> text_of st x vx -> vs <> [] -> ve <> [] ->
    core_means E st a (MSequence (FStr vs) (FStr ve) (FStr vx) "Sequence" false)
| cm_custom a k r v :
    tk_name (tok st a) = "CustomMatcher" -> tk_kids (tok st a) = k :: r ->
    text_of st k v -> v <> [] -> core_means E st a (MRef (FStr v) "Ref" false)
| cm_empty a :
    tk_name (tok st a) = "SwitchMatcher" \/ tk_name (tok st a) = "ProgramMatcher" ->
    tk_kids (tok st a) = [] -> core_means E st a MNull
| cm_switch a ms :
    tk_name (tok st a) = "SwitchMatcher" -> tk_kids (tok st a) <> [] ->
    patterns_mean E st (tk_kids (tok st a)) ms ->
    core_means E st a (MProgram ms (mkPI "Switch" None true false))
| cm_program a ms :
    tk_name (tok st a) = "ProgramMatcher" -> tk_kids (tok st a) <> [] ->
    patterns_mean E st (tk_kids (tok st a)) ms ->
    core_means E st a (MProgram ms (mkPI "Program" None false false))
with patterns_mean (E : env) (st : state) : list addr -> list matcher -> Prop :=
| ps_nil : patterns_mean E st [] []
| ps_cons a l m ms : pattern_means E st a m -> patterns_mean E st l ms ->
    patterns_mean E st (a :: l) (m :: ms).

(* ---------- patterns that stand for no matcher ---------- *)

(* What can be wrong with a pattern: an empty text, an empty start or end of a
   delimited sequence, a regular expression that does not compile, a number of
   repetitions that is no usize, a range of repetitions upside down. *)
Inductive fault := EmptyText | EmptyStart | EmptyEnd | BadRegex | TooLarge | Reversed (n m : N).
(* the reason given for it, or the panic it ends in *)
Inductive complains : fault -> str -> Prop :=
| co_empty : complains EmptyText "Value can not be empty for an `Equals` pattern definition"
| co_large : complains TooLarge "number too large to fit in target type"
| co_reversed n m x y : decimal n x -> decimal m y ->
    complains (Reversed n m)
      (lit "Error with repeat specifier: Maximum range is smaller than minimum: {" ++ x ++ lit ", " ++ y ++ lit "}").
Inductive crashes : fault -> panic -> Prop :=
| cr_start : crashes EmptyStart (PMessage "Sequence `start` pattern of """" makes no sense")
| cr_end : crashes EmptyEnd (PMessage "Sequence `end` pattern of """" makes no sense")
| cr_regex : crashes BadRegex PUnwrap.

(* what is said of a script because of it *)
Definition pattern_message (msg : str) : str :=
  lit "Error attempting to create matcher from parsed pattern token: " ++ msg.

(* Why no script comes out: one error about a place in the source, the errors of
   an imported file, a panic. *)
Inductive trouble :=
| Complaint (msg : str) (place : range)
| Inherited (l : list parse_error)
| Crash (p : panic).
Inductive trouble_of : fault -> trouble -> Prop :=
| to_complaint f msg : complains f msg -> trouble_of f (Complaint (pattern_message msg) (mkR 0 0))
| to_crash f p : crashes f p -> trouble_of f (Crash p).
(* what a compilation then ends with *)
Definition ends_in (P : parser) (t : trouble) (out : res script_res) : Prop :=
  match t with
  | Complaint msg place => exists text st,
      error_text P msg place text /\ out = Ret (ScriptErr [mkPE text (Some place)]) st
  | Inherited l => exists st, out = Ret (ScriptErr l) st
  | Crash p => out = Pan p
  end.

(* a number in decimal, leading zeros allowed, of whatever size *)
Definition number (n : N) (s : str) : Prop :=
  s <> [] /\ (forall x, In x s -> is_digit x) /\ digits_value 0 s = n.
Definition too_large (s : str) : Prop := exists n, number n s /\ usize_max < n.

Inductive repeat_fails (st : state) (a : addr) : fault -> Prop :=
| rf_least k : tk_name (tok st a) = "RepeatRange" -> first_kid st a ["Minimum"] k ->
    too_large (get_cvalue (tok st k)) -> repeat_fails st a TooLarge
| rf_most k sep k' n : tk_name (tok st a) = "RepeatRange" -> first_kid st a ["Minimum"] k ->
    usize_text n (get_cvalue (tok st k)) -> first_kid st a ["Seperator"] sep ->
    first_kid st a ["Maximum"] k' -> too_large (get_cvalue (tok st k')) -> repeat_fails st a TooLarge
| rf_order k sep k' n n' : tk_name (tok st a) = "RepeatRange" -> first_kid st a ["Minimum"] k ->
    usize_text n (get_cvalue (tok st k)) -> first_kid st a ["Seperator"] sep ->
    first_kid st a ["Maximum"] k' -> usize_text n' (get_cvalue (tok st k')) -> n' < n ->
    repeat_fails st a (Reversed n n').

(* [pattern_fails E st a f]: the first thing that is wrong with the pattern
   token [a] is [f]; what is between the brackets comes before the repetition *)
Inductive pattern_fails (E : env) (st : state) : addr -> fault -> Prop :=
| pf_named a nt nk nr x d r f :
    tk_name (tok st a) = "PatternDefinitionCaptured" ->
    first_kid st a ["MatcherName"] nt -> tk_kids (tok st nt) = nk :: nr ->
    tk_kids (tok st a) = x :: d :: r -> def_fails E st d f -> pattern_fails E st a f
| pf_captured a d r f :
    tk_name (tok st a) = "PatternDefinitionCaptured" -> no_kid st a ["MatcherName"] ->
    tk_kids (tok st a) = d :: r -> def_fails E st d f -> pattern_fails E st a f
| pf_plain a f : tk_name (tok st a) = "PatternDefinition" -> def_fails E st a f -> pattern_fails E st a f
with def_fails (E : env) (st : state) : addr -> fault -> Prop :=
| df_core a k f : tk_name (tok st a) = "PatternDefinition" -> first_kid st a cores k ->
    core_fails E st k f -> def_fails E st a f
| df_repeat a k core attributed q f : tk_name (tok st a) = "PatternDefinition" -> first_kid st a cores k ->
    core_means E st k core -> with_attrs st a core attributed -> first_kid st a repeats q -> repeat_fails st q f ->
    def_fails E st a f
with core_fails (E : env) (st : state) : addr -> fault -> Prop :=
| cf_equals a k r :
    tk_name (tok st a) = "EqualsMatcher" -> tk_kids (tok st a) = k :: r -> text_of st k [] -> core_fails E st a EmptyText
| cf_regex a v :
    tk_name (tok st a) = "RegexMatcher" -> text_of st a v -> v <> [] -> no_kid st a ["Flags"] ->
    e_regex E v = None -> core_fails E st a BadRegex
| cf_regex_flags a v k :
    tk_name (tok st a) = "RegexMatcher" -> text_of st a v -> v <> [] -> first_kid st a ["Flags"] k ->
    e_regex E (lit "(?" ++ get_cvalue (tok st k) ++ lit ")" ++ v) = None -> core_fails E st a BadRegex
| cf_start a s e x r :
    tk_name (tok st a) = "SequenceMatcher" -> tk_kids (tok st a) = s :: e :: x :: r -> text_of st s [] ->
    core_fails E st a EmptyStart
| cf_end a s e x r v :
    tk_name (tok st a) = "SequenceMatcher" -> tk_kids (tok st a) = s :: e :: x :: r -> text_of st s v -> v <> [] ->
    text_of st e [] -> core_fails E st a EmptyEnd
| cf_patterns a f :
    tk_name (tok st a) = "SwitchMatcher" \/ tk_name (tok st a) = "ProgramMatcher" ->
    patterns_fail E st (tk_kids (tok st a)) f -> core_fails E st a f
with patterns_fail (E : env) (st : state) : list addr -> fault -> Prop :=
| pl_here a l f : pattern_fails E st a f -> patterns_fail E st (a :: l) f
| pl_later a l m f : pattern_means E st a m -> patterns_fail E st l f -> patterns_fail E st (a :: l) f.

(* ---------- what a script means ---------- *)

(* [import_names st l ids]: the import identifiers [l] and the names they ask
   for and give *)
Inductive import_names (st : state) : list addr -> list (str * str) -> Prop :=
| in_nil : import_names st [] []
| in_same a l i ids :
    first_kid st a ["ImportName"] i -> no_kid st a ["ImportAsName"] -> import_names st l ids ->
    import_names st (a :: l) ((get_value (tok st i), get_value (tok st i)) :: ids)
| in_as a l i x ids :
    first_kid st a ["ImportName"] i -> first_kid st a ["ImportAsName"] x -> import_names st l ids ->
    import_names st (a :: l) ((get_value (tok st i), get_value (tok st x)) :: ids).

(* binding what is imported, in order; [root] is the compiled file, [isc] its
   definitions *)
Inductive imports (sc : sid) (root : matcher) (isc : sid) : list (str * str) -> state -> state -> Prop :=
| im_nil st : imports sc root isc [] st st
| im_root name ids st st' :
    name <> lit "_" -> imports sc root isc ids (sc_set st sc name (VMatcher root)) st' ->
    imports sc root isc ((lit "_", name) :: ids) st st'
| im_definition x name m ids st st' :
    x <> lit "_" -> sc_get st isc x = Some (VMatcher m) ->
    imports sc root isc ids (sc_set st sc name (VMatcher (MSetScope (Some isc) (MMap m (MapRename name))))) st' ->
    imports sc root isc ((x, name) :: ids) st st'.
(* Names that cannot be taken over: the whole file without another name, a name
   that has no matcher.  [l] are the tokens of the names that are left. *)
Definition msg_forbidden : str :=
  "Found import statement, but it is forbidden to use imports when not parsing from a file".
Definition msg_unnamed : str := "Error root import '_' must be named using 'import {{ _ as Name }}'".
Definition msg_missing (x file : str) : str :=
  lit "Failed to import `" ++ x ++ lit "` from '" ++ file ++ lit "': Not found".
Inductive import_fails (st : state) (sc : sid) (root : matcher) (isc : sid) (file : str)
  : list addr -> list (str * str) -> state -> trouble -> Prop :=
| if_unnamed a l i ids s : first_kid st a ["ImportName"] i ->
    import_fails st sc root isc file (a :: l) ((lit "_", lit "_") :: ids) s (Complaint msg_unnamed (tk_mr (tok st i)))
| if_missing a l i x name ids s : first_kid st a ["ImportName"] i -> x <> lit "_" ->
    (forall m, sc_get s isc x <> Some (VMatcher m)) ->
    import_fails st sc root isc file (a :: l) ((x, name) :: ids) s (Complaint (msg_missing x file) (tk_mr (tok st i)))
| if_root a l name ids s t : name <> lit "_" ->
    import_fails st sc root isc file l ids (sc_set s sc name (VMatcher root)) t ->
    import_fails st sc root isc file (a :: l) ((lit "_", name) :: ids) s t
| if_definition a l x name m ids s t : x <> lit "_" -> sc_get s isc x = Some (VMatcher m) ->
    import_fails st sc root isc file l ids (sc_set s sc name (VMatcher (MSetScope (Some isc) (MMap m (MapRename name))))) t ->
    import_fails st sc root isc file (a :: l) ((x, name) :: ids) s t.
(* all `_ as Name` of a statement share one matcher, which gets the last name *)
Definition root_alias (ids : list (str * str)) (dflt : str) : str :=
  last (map snd (filter (fun p => str_eqb (fst p) "_") ids)) dflt.

Definition pattern_token (st : state) (a : addr) : bool :=
  str_eqb (tk_name (tok st a)) "PatternDefinitionCaptured" || str_eqb (tk_name (tok st a)) "PatternDefinition".

(* what a script has said so far: its name, its patterns, and the store with
   its definitions *)
Definition script_state : Type := (str * list matcher * state)%type.

Section Script.
  Variables (E : env) (F : fs) (compile : str -> state -> res script_res).
  Variables (st : state) (sc : sid) (from_file : option str).

  (* the effect of one token *)
  Inductive token_says (a : addr) : script_state -> script_state -> Prop :=
  | sy_error w : tk_name (tok st a) = "Error" -> get_attr "__message" (tok st a) <> None -> token_says a w w
  | sy_name v name pats s : tk_name (tok st a) = "AdextopaScope" -> get_attr "name" (tok st a) = Some v ->
      token_says a (name, pats, s) (v, pats, s)
  | sy_no_name w : tk_name (tok st a) = "AdextopaScope" -> get_attr "name" (tok st a) = None -> token_says a w w
  | sy_alias i v r name pats s :
      tk_name (tok st a) = "AssignmentExpression" -> tk_kids (tok st a) = i :: v :: r ->
      tk_name (tok st v) = "Identifier" ->
      token_says a (name, pats, s)
        (name, pats, sc_set s sc (get_value (tok st i)) (VMatcher (MRef (FStr (get_value (tok st a))) "Ref" false)))
  | sy_define i v r m name pats s :
      tk_name (tok st a) = "AssignmentExpression" -> tk_kids (tok st a) = i :: v :: r ->
      tk_name (tok st v) = "PatternDefinition" -> def_means E st v (get_value (tok st i)) m ->
      token_says a (name, pats, s) (name, pats, sc_set s sc (get_value (tok st i)) (VMatcher m))
  | sy_assign_other i v r w :
      tk_name (tok st a) = "AssignmentExpression" -> tk_kids (tok st a) = i :: v :: r ->
      tk_name (tok st v) <> "Identifier" -> tk_name (tok st v) <> "PatternDefinition" -> token_says a w w
  | sy_import ff ii p file root isc s1 ids name pats s s' :
      tk_name (tok st a) = "ImportStatement" -> from_file = Some ff ->
      first_kid st a ["ImportIdentifiers"] ii -> first_kid st a ["Path"] p ->
      fs_join F ff (get_value (tok st p)) = Some file ->
      compile file s = Ret (ScriptOk root isc) s1 ->
      import_names st (tk_kids (tok st ii)) ids ->
      imports sc (m_set_name (root_alias ids (m_name root)) root) isc ids s1 s' ->
      token_says a (name, pats, s) (name, pats, s')
  | sy_patterns ms name pats s :
      tk_name (tok st a) = "PatternScope" ->
      patterns_mean E st (filter (pattern_token st) (tk_kids (tok st a))) ms ->
      token_says a (name, pats, s) (name, pats ++ ms, s)
  | sy_other w :
      ~ In (tk_name (tok st a))
           [lit "Error"; lit "AdextopaScope"; lit "AssignmentExpression"; lit "ImportStatement"; lit "PatternScope"] ->
      token_says a w w.

  (* a token with a faulty pattern, or an import that cannot be carried out *)
  Inductive token_fails (a : addr) (s : state) : trouble -> Prop :=
  | tf_define i v r f t :
      tk_name (tok st a) = "AssignmentExpression" -> tk_kids (tok st a) = i :: v :: r ->
      tk_name (tok st v) = "PatternDefinition" -> def_fails E st v f -> trouble_of f t -> token_fails a s t
  | tf_patterns f t :
      tk_name (tok st a) = "PatternScope" ->
      patterns_fail E st (filter (pattern_token st) (tk_kids (tok st a))) f -> trouble_of f t -> token_fails a s t
  | tf_forbidden :
      tk_name (tok st a) = "ImportStatement" -> from_file = None ->
      token_fails a s (Complaint msg_forbidden (tk_mr (tok st a)))
  | tf_path ff ii p :
      tk_name (tok st a) = "ImportStatement" -> from_file = Some ff ->
      first_kid st a ["ImportIdentifiers"] ii -> first_kid st a ["Path"] p ->
      fs_join F ff (get_value (tok st p)) = None -> token_fails a s (Crash PUnwrap)
  | tf_refused ff ii p file l s1 :
      tk_name (tok st a) = "ImportStatement" -> from_file = Some ff ->
      first_kid st a ["ImportIdentifiers"] ii -> first_kid st a ["Path"] p ->
      fs_join F ff (get_value (tok st p)) = Some file ->
      compile file s = Ret (ScriptErr l) s1 -> token_fails a s (Inherited l)
  | tf_crash ff ii p file q :
      tk_name (tok st a) = "ImportStatement" -> from_file = Some ff ->
      first_kid st a ["ImportIdentifiers"] ii -> first_kid st a ["Path"] p ->
      fs_join F ff (get_value (tok st p)) = Some file ->
      compile file s = Pan q -> token_fails a s (Crash q)
  | tf_import ff ii p file root isc s1 ids t :
      tk_name (tok st a) = "ImportStatement" -> from_file = Some ff ->
      first_kid st a ["ImportIdentifiers"] ii -> first_kid st a ["Path"] p ->
      fs_join F ff (get_value (tok st p)) = Some file ->
      compile file s = Ret (ScriptOk root isc) s1 ->
      import_names st (tk_kids (tok st ii)) ids ->
      import_fails st sc (m_set_name (root_alias ids (m_name root)) root) isc file (tk_kids (tok st ii)) ids s1 t ->
      token_fails a s t.

  (* all tokens of a script one after the other *)
  Inductive script_says : list addr -> script_state -> script_state -> Prop :=
  | ss_nil w : script_says [] w w
  | ss_cons a l w w1 w' : token_says a w w1 -> script_says l w1 w' -> script_says (a :: l) w w'.
  (* some of them, without an error token, and then one that fails *)
  Inductive script_fails : list addr -> script_state -> trouble -> Prop :=
  | sf_here a l name pats s t : token_fails a s t -> script_fails (a :: l) (name, pats, s) t
  | sf_later a l w w1 t : tk_name (tok st a) <> "Error" -> token_says a w w1 -> script_fails l w1 t ->
      script_fails (a :: l) w t.
End Script.

(* the state and context in which a script is parsed *)
Definition script_ctx (P : parser) (name : str) (st : state) : ctx := fst (context_new P name st).
Definition script_start (E : env) (P : parser) (name : str) (st : state) : state :=
  register_all (snd (context_new P name st)) (script_ctx P name st) [ScriptSwitchMatcher E; ScriptProgramMatcher E].

(* ---------- imports in a circle ---------- *)

(* a token that a script can contain before its first statement *)
Definition no_statement (st : state) (a : addr) : Prop :=
  ~ In (tk_name (tok st a)) [lit "AssignmentExpression"; lit "ImportStatement"; lit "PatternScope"] /\
  (tk_name (tok st a) = "Error" -> get_attr "__message" (tok st a) <> None).
(* parsed on its own, the file [full] is a script whose first statement is an
   import of the file [next] *)
Definition imports_first (E : env) (F : fs) (full next : str) : Prop :=
  exists src root st before imp after ii p file,
    fs_read F full = Some src /\
    (let P := parser_named src full in
     Tokenizes E P (script_ctx P full empty_state) (Script_ E) (script_start E P full empty_state) (TOk root) st) /\
    tk_name (tok st root) = "Script" /\
    preorder st [root] (before ++ imp :: after) /\
    (forall a, In a before -> no_statement st a) /\
    tk_name (tok st imp) = "ImportStatement" /\
    first_kid st imp ["ImportIdentifiers"] ii /\ first_kid st imp ["Path"] p /\
    fs_join F full (get_value (tok st p)) = Some file /\ fs_canon F file = Some next.
