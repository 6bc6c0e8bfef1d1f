(* From parsed scripts to matchers: src/script/v1/parser.rs and
   src/script/v1/matchers/repeat_specifier.rs.  Line numbers without a file name
   refer to src/script/v1/parser.rs. *)
From Verif Require Export ScriptGrammar.
Open Scope string_scope.
Open Scope list_scope.
Open Scope N_scope.

(* Result<A, String> of Rust code that may panic; CFuel: still running *)
Inductive cres (A : Type) :=
| COk (a : A)
| CErr (e : str)
| CPan (p : panic)
| CFuel.
Arguments COk {A} a.
Arguments CErr {A} e.
Arguments CPan {A} p.
Arguments CFuel {A}.
Notation "'let*' x := m 'in' k" :=
  (match m with COk x => k | CErr e => CErr e | CPan p => CPan p | CFuel => CFuel end)
  (at level 200, x pattern, m at level 100, k at level 200).

(* src/token.rs:172-186, find_child_fuzzy with a regex `^(a|b|..)$` *)
Definition find_child_among (st : state) (t : token) (names : list String.string) : option addr :=
  find (fun k => existsb (fun n => str_eqb (tk_name (tok st k)) (lit n)) names) (tk_kids t).

(* lines 19-21 *)
Definition PATTERN_MATCHER : list String.string :=
  ["CustomMatcher"; "EqualsMatcher"; "RegexMatcher"; "SequenceMatcher"; "ProgramMatcher"; "SwitchMatcher"].
(* lines 23-25 *)
Definition REPEAT_SPECIFIER : list String.string := ["RepeatZeroOrMore"; "RepeatOneOrMore"; "RepeatRange"].

(* src/token.rs:188-193, has_child *)
Definition has_child (st : state) (t : token) (name : str) : bool :=
  match find_child st t name with Some _ => true | None => false end.

(* `children[n].borrow()`, e.g. line 37; panics when out of bounds *)
Definition child (st : state) (t : token) (n : nat) : cres token :=
  match nth_error (tk_kids t) n with Some k => COk (tok st k) | None => CPan PIndex end.

(* `.parse::<usize>()` with the error turned into its text
   (src/script/v1/matchers/repeat_specifier.rs:30-33, 38-41) *)
Definition parse_or_err (s : str) : cres N :=
  match parse_usize s with
  | Some n => COk n
  | None => if forallb (fun c => match digit c with Some _ => true | None => false end) s
            then CErr "number too large to fit in target type"
            else CErr "invalid digit found in string"
  end.

(* src/script/v1/matchers/repeat_specifier.rs:16-60, get_repeat_specifier_range *)
Definition repeat_range (st : state) (a : addr) : cres (N * N) :=
  let t := tok st a in
  let n := tk_name t in
  if str_eqb n "RepeatZeroOrMore" then COk (0, usize_max)
  else if str_eqb n "RepeatOneOrMore" then COk (1, usize_max)
  else if str_eqb n "RepeatRange" then
    match find_child st t "Minimum" with
    | None => CPan PUnwrap
    | Some m =>
        let* lo := parse_or_err (get_cvalue (tok st m)) in
        if has_child st t "Seperator" then
          match find_child st t "Maximum" with
          | Some m =>
              let* hi := parse_or_err (get_cvalue (tok st m)) in
              if hi <? lo
              then CErr (lit "Error with repeat specifier: Maximum range is smaller than minimum: {"
                         ++ dec lo ++ lit ", " ++ dec hi ++ lit "}")
              else COk (lo, hi)
          | None => COk (lo, usize_max)
          end
        else COk (0, lo)
    end
  else CErr (lit "Expected one of `RepeatZeroOrMore`, `RepeatOneOrMore`, or `RepeatRange` tokens, but received a `"
             ++ n ++ lit "` token instead").

(* lines 95-98, 114-117: build all children, stopping at the first error *)
Fixpoint build_all (f : addr -> cres matcher) (l : list addr) : cres (list matcher) :=
  match l with
  | [] => COk []
  | a :: l' => let* m := f a in let* ms := build_all f l' in COk (m :: ms)
  end.

(* `Regex::new(..).unwrap()` (src/matchers/matches.rs:157) *)
Definition compile_regex (E : env) (s : str) : cres matcher :=
  match e_regex E s with Some f => COk (Matches_ f) | None => CPan PUnwrap end.

(* lines 29-125, construct_matcher_from_inner_definition; [pat] is
   construct_matcher_from_pattern *)
Definition build_inner (E : env) (pat : addr -> cres matcher) (st : state) (a : addr) : cres matcher :=
  let t := tok st a in
  let n := tk_name t in
  if str_eqb n "EqualsMatcher" then
    let* c := child st t 0 in
    match get_value c with
    | [] => CErr "Value can not be empty for an `Equals` pattern definition"
    | v => COk (Equals_ v)
    end
  else if str_eqb n "RegexMatcher" then
    match get_value t with
    | [] => CErr "Value can not be empty for a `Matches` pattern definition"
    | v => match find_child st t "Flags" with
           | Some f => compile_regex E (lit "(?" ++ get_cvalue (tok st f) ++ lit ")" ++ v)
           | None => compile_regex E v
           end
    end
  else if str_eqb n "SequenceMatcher" then
    let* s := child st t 0 in
    let* e := child st t 1 in
    let* x := child st t 2 in
    if slen (get_value s) =? 0 then CPan (PMessage "Sequence `start` pattern of """" makes no sense")
    else if slen (get_value e) =? 0 then CPan (PMessage "Sequence `end` pattern of """" makes no sense")
    else COk (Sequence_ (get_value s) (get_value e) (get_value x))
  else if str_eqb n "CustomMatcher" then
    let* c := child st t 0 in
    match get_value c with
    | [] => CErr "Identifier can not be empty for a `CustomMatcher` pattern definition"
    | v => COk (Ref_ v)
    end
  else if str_eqb n "SwitchMatcher" then
    match tk_kids t with
    | [] => COk MNull
    | l => let* ms := build_all pat l in COk (Switch_ ms)
    end
  else if str_eqb n "ProgramMatcher" then
    match tk_kids t with
    | [] => COk MNull
    | l => let* ms := build_all pat l in COk (Program_ ms)
    end
  else CErr "Unkown pattern type".

(* lines 169-177: the attributes of the children of an "Attributes" token *)
Fixpoint collect_attrs (st : state) (l : list addr) (acc : list (str * str)) : cres (list (str * str)) :=
  match l with
  | [] => COk acc
  | a :: l' =>
      let* k := child st (tok st a) 0 in
      let* v := child st (tok st a) 1 in
      collect_attrs st l' (assoc_set (get_cvalue k) (get_cvalue v) acc)
  end.

(* lines 163-196: wrap with the attribute closure *)
Definition wrap_attrs (st : state) (t : token) (m : matcher) : cres matcher :=
  match find_child st t "Attributes" with
  | Some a =>
      match tk_kids (tok st a) with
      | [] => COk m
      | l => let* at_ := collect_attrs st l [] in COk (MMap m (MapAttrs at_))
      end
  | None => COk m
  end.

(* lines 198-202, 213-217: `?` and `!` *)
Definition wrap_modifier (opt neg : bool) (m : matcher) : matcher :=
  if opt then MOptional m else if neg then MNot m else m.

(* lines 204-211: the repeat specifier *)
Definition wrap_repeat (st : state) (t : token) (m : matcher) : cres matcher :=
  match find_child_among st t REPEAT_SPECIFIER with
  | Some a => let* r := repeat_range st a in
              COk (LoopR (Included (fst r)) (Excluded (snd r)) [m])
  | None => COk m
  end.

(* lines 127-224, construct_matcher_from_pattern_definition (the first component
   of the pair; the second, the inner matcher, is only used by unit tests) *)
Definition build_def (E : env) (pat : addr -> cres matcher) (st : state) (a : addr)
  (name : str) (captured : bool) : cres matcher :=
  let t := tok st a in
  if negb (str_eqb (tk_name t) "PatternDefinition")
  then CErr (lit "Expected a `PatternDefinition` token, but received a `" ++ tk_name t
             ++ lit "` token instead")
  else
    match find_child_among st t PATTERN_MATCHER with
    | None => CErr "Unexpected pattern token encountered"
    | Some k =>
        let* m := build_inner E pat st k in
        let m := match name with [] => m | _ => m_set_name name m end in
        let* m := wrap_attrs st t m in
        let m := wrap_modifier (has_child st t "InnerOptionalModifier")
                               (has_child st t "InnerNotModifier") m in
        let* m := wrap_repeat st t m in
        let m := wrap_modifier (has_child st t "OuterOptionalModifier")
                               (has_child st t "OuterNotModifier") m in
        COk (if captured then m else MDiscard m)
    end.

(* lines 226-261, construct_matcher_from_pattern; line 237 takes get_name() of
   the name token *)
Definition build_pat (E : env) (pat : addr -> cres matcher) (st : state) (a : addr) : cres matcher :=
  let t := tok st a in
  if str_eqb (tk_name t) "PatternDefinitionCaptured" then
    match find_child st t "MatcherName" with
    | Some nt =>
        let* c := child st (tok st nt) 0 in
        match nth_error (tk_kids t) 1 with
        | Some d => build_def E pat st d (tk_name c) true
        | None => CPan PIndex
        end
    | None =>
        match nth_error (tk_kids t) 0 with
        | Some d => build_def E pat st d [] true
        | None => CPan PIndex
        end
    end
  else if str_eqb (tk_name t) "PatternDefinition" then build_def E pat st a [] false
  else CErr (lit "Expected a `PatternDefinitionCaptured`, or `PatternDefinition` token, but received a `"
             ++ tk_name t ++ lit "` token instead").

(* lines 226-261 with the recursion of lines 96 and 115 *)
Fixpoint build (fuel : nat) (E : env) (st : state) (a : addr) : cres matcher :=
  match fuel with
  | O => CFuel
  | S f => build_pat E (build f E st) st a
  end.

(* the depth of the token tree is at most the number of tokens *)
Definition construct_pattern (E : env) (st : state) (a : addr) : cres matcher :=
  build (S (List.length (st_heap st))) E st a.
Definition construct_definition (E : env) (st : state) (a : addr) (name : str) (captured : bool)
  : cres matcher :=
  build_def E (construct_pattern E st) st a name captured.

(* ---------- build_matcher_from_tokens ---------- *)

(* The file system (std::fs, std::path): lines 347, 569-572, 580-583.
   fs_join f p: Path::new(f).parent().unwrap().join(p).canonicalize();
   fs_canon p: Path::new(p).canonicalize(); fs_read: fs::read_to_string
   (src/parser.rs:28).  None is an Err or None on which unwrap() panics. *)
Record fs := mkFs {
  fs_join : str -> str -> option str;
  fs_canon : str -> option str;
  fs_read : str -> option str
}.

(* What the hooks of lines 286-433 change: the name of root_matcher, the
   patterns of scoped_matcher, parse_errors, and the store (scope contexts). *)
Record bst := mkBst {
  b_name : str;
  b_pats : list matcher;
  b_errs : list parse_error;
  b_store : state
}.

(* Result<(MatcherRef, ScopeContextRef), Vec<ParseError>> *)
Inductive script_res :=
| ScriptOk (m : matcher) (s : sid)
| ScriptErr (l : list parse_error).

(* lines 287-294 *)
Definition hook_error (st : state) : hook bst := fun a w =>
  match get_attr "__message" (tok st a) with
  | Some m => VOk (mkBst (b_name w) (b_pats w) (b_errs w ++ [mkPE m (Some (tk_mr (tok st a)))]) (b_store w))
  | None => VPan PUnwrap
  end.

(* lines 295-305 *)
Definition hook_scope (st : state) : hook bst := fun a w =>
  match get_attr "name" (tok st a) with
  | Some v => VOk (mkBst v (b_pats w) (b_errs w) (b_store w))
  | None => VOk w
  end.

(* lines 328, 425 *)
Definition pattern_error (e : str) : parse_error :=
  mkPE (lit "Error attempting to create matcher from parsed pattern token: " ++ e) None.

(* scope_context.borrow_mut().set(name, VariableType::Matcher(m)) *)
Definition define (sc : sid) (name : str) (m : matcher) (w : bst) : bst :=
  mkBst (b_name w) (b_pats w) (b_errs w) (sc_set (b_store w) sc name (VMatcher m)).

(* lines 306-334 *)
Definition hook_assign (E : env) (st : state) (sc : sid) : hook bst := fun a w =>
  let t := tok st a in
  match tk_kids t with
  | i :: v :: _ =>
      let name := get_value (tok st i) in
      if str_eqb (tk_name (tok st v)) "Identifier" then VOk (define sc name (Ref_ (get_value t)) w)
      else if str_eqb (tk_name (tok st v)) "PatternDefinition" then
        match construct_definition E st v name true with
        | COk m => VOk (define sc name m w)
        | CErr e => VErr w (pattern_error e)
        | CPan p => VPan p
        | CFuel => VFuel
        end
      else VOk w
  | _ => VPan PIndex
  end.

(* lines 368-375: the (ImportName token, imported name, own name) of one
   import identifier *)
Definition import_ident (st : state) (a : addr) : cres (addr * str * str) :=
  let t := tok st a in
  match find_child st t "ImportName" with
  | None => CPan PUnwrap
  | Some i =>
      let ident := get_value (tok st i) in
      COk (i, ident, match find_child st t "ImportAsName" with
                     | Some x => get_value (tok st x)
                     | None => ident
                     end)
  end.

(* line 382 renames the shared root matcher once per imported `_`; the last name
   is the one all of them see *)
Definition last_root_alias (l : list (addr * str * str)) (dflt : str) : str :=
  fold_left (fun acc p => if str_eqb (snd (fst p)) "_" then snd p else acc) l dflt.

(* lines 367-407 *)
Fixpoint import_all (st : state) (sc : sid) (root : matcher) (isc : sid) (file : str)
  (l : list (addr * str * str)) (w : bst) : vres bst :=
  match l with
  | [] => VOk w
  | (i, ident, name) :: l' =>
      if str_eqb ident "_" then
        if str_eqb name "_"
        then VErr w (mkPE "Error root import '_' must be named using 'import {{ _ as Name }}'"
                          (Some (tk_mr (tok st i))))
        else import_all st sc root isc file l' (define sc name root w)
      else
        match sc_get (b_store w) isc ident with
        | Some (VMatcher m) =>
            import_all st sc root isc file l'
              (define sc name (MSetScope (Some isc) (MMap m (MapRename name))) w)
        | _ => VErr w (mkPE (lit "Failed to import `" ++ ident ++ lit "` from '" ++ file
                             ++ lit "': Not found") (Some (tk_mr (tok st i))))
        end
  end.

(* all identifiers of the statement; find_child(..).unwrap() may panic *)
Fixpoint import_idents (st : state) (l : list addr) : cres (list (addr * str * str)) :=
  match l with
  | [] => COk []
  | a :: l' => let* x := import_ident st a in let* xs := import_idents st l' in COk (x :: xs)
  end.

(* lines 335-410; [compile_file] is compile_script_from_file_internal.
   SIMPLIFICATION: the identifiers are read before the loop, so a missing
   "ImportName" child (which the grammar never produces) panics a bit earlier. *)
Definition hook_import (F : fs) (compile_file : str -> state -> res script_res) (st : state)
  (sc : sid) (from_file : option str) : hook bst := fun a w =>
  let t := tok st a in
  match from_file with
  | None => VErr w (mkPE "Found import statement, but it is forbidden to use imports when not parsing from a file"
                         (Some (tk_mr t)))
  | Some ff =>
      match find_child st t "ImportIdentifiers", find_child st t "Path" with
      | Some ii, Some p =>
          match fs_join F ff (get_value (tok st p)) with
          | None => VPan PUnwrap
          | Some file =>
              match compile_file file (b_store w) with
              | Ret (ScriptErr l) s' =>
                  VErr (mkBst (b_name w) (b_pats w) (b_errs w ++ l) s') (mkPE "" None)
              | Ret (ScriptOk root isc) s' =>
                  match import_idents st (tk_kids (tok st ii)) with
                  | COk l =>
                      import_all st sc (m_set_name (last_root_alias l (m_name root)) root) isc file l
                                 (mkBst (b_name w) (b_pats w) (b_errs w) s')
                  | CErr _ => VPan PUnwrap
                  | CPan p => VPan p
                  | CFuel => VFuel
                  end
              | Pan p => VPan p
              | OOF => VFuel
              end
          end
      | _, _ => VPan PUnwrap
      end
  end.

(* lines 415-429 *)
Fixpoint add_patterns (E : env) (st : state) (l : list addr) (w : bst) : vres bst :=
  match l with
  | [] => VOk w
  | a :: l' =>
      let n := tk_name (tok st a) in
      if str_eqb n "PatternDefinitionCaptured" || str_eqb n "PatternDefinition" then
        match construct_pattern E st a with
        | COk m => add_patterns E st l' (mkBst (b_name w) (b_pats w ++ [m]) (b_errs w) (b_store w))
        | CErr e => VErr w (pattern_error e)
        | CPan p => VPan p
        | CFuel => VFuel
        end
      else add_patterns E st l' w
  end.
(* lines 411-432 *)
Definition hook_patterns (E : env) (st : state) : hook bst := fun a w =>
  add_patterns E st (tk_kids (tok st a)) w.

(* lines 276, 277, 281-284, 300, 382: the compiled matcher *)
Definition root_matcher (name : str) (sc : sid) (pats : list matcher) : matcher :=
  MProgram [MSetScope (Some sc) (Proxy_ (Program_ pats))] (mkPI name None false true).

(* lines 263-456, build_matcher_from_tokens.  [st] holds the parsed tokens. *)
Definition build_matcher (E : env) (P : parser) (F : fs) (compile_file : str -> state -> res script_res)
  (root : addr) (name : str) (from_file : option str) (st : state) : res script_res :=
  if negb (str_eqb (tk_name (tok st root)) "Script")
  then Ret (ScriptErr [mkPE "Expected provided token to be a `Script` token" None]) st
  else
    let sc := next_sid st in
    let hooks := [
      (lit "Error", hook_error st);
      (lit "AdextopaScope", hook_scope st);
      (lit "AssignmentExpression", hook_assign E st sc);
      (lit "ImportStatement", hook_import F compile_file st sc from_file);
      (lit "PatternScope", hook_patterns E st)] in
    match visit st hooks root (mkBst name [] [] (sc_new st)) with
    | VOk w => Ret (ScriptOk (root_matcher (b_name w) sc (b_pats w)) sc) (b_store w)
    | VErr w e =>
        match pe_msg e with
        | [] => Ret (ScriptErr (b_errs w)) (b_store w)
        | msg =>
            let r := match pe_range e with Some r => r | None => blank_range end in
            let! text := error_string E P msg r in
            Ret (ScriptErr (b_errs w ++ [mkPE text (Some r)])) (b_store w)
        end
    | VPan p => Pan p
    | VFuel => OOF
    end.

(* lines 468-475 (only with FLAG_LOG_STDERR): printing unwraps "__message" *)
Definition log_ok (st : state) (a : addr) : bool :=
  forallb (fun k => negb (str_eqb (tk_name (tok st k)) "Error")
                    || match get_attr "__message" (tok st k) with Some _ => true | None => false end)
          (tk_kids (tok st a)).

(* lines 489-551, compile_script.  [log] is flags & FLAG_LOG_STDERR > 0; the
   printed text is in LogOps.v.  The ParserContextRef of the result is not
   represented. *)
Definition compile_with (fuel : nat) (E : env) (F : fs) (compile_file : str -> state -> res script_res)
  (P : parser) (name : str) (from_file : option str) (log : bool) (st : state) : res script_res :=
  let (c, st) := context_new P name st in
  let st := register_all st c [ScriptSwitchMatcher E; ScriptProgramMatcher E] in
  do r, st <- tokenize fuel E P c (Script_ E) st;
  match r with
  | TOk a =>
      do b, st' <- build_matcher E P F compile_file a name from_file st;
      match b with
      | ScriptOk _ _ => if log && negb (log_ok st a) then Pan PUnwrap else Ret b st'
      | ScriptErr _ => Ret b st'
      end
  | TErr FFail =>
      Ret (ScriptErr [mkPE "Failed to parse script with an unknown error. This is likely a bug. Please report this issue to the adextopa maintainers." None]) st
  | TErr (FError e) => Ret (ScriptErr [e]) st
  end.

(* lines 565-574, compile_script_from_file_internal, and 576-588,
   compile_script_from_file (same body); [depth] bounds the nesting of imports,
   [fuel] is the fuel of each parse *)
Fixpoint compile_file (depth : nat) (fuel : nat) (E : env) (F : fs) (log : bool) (file : str) (st : state)
  : res script_res :=
  match depth with
  | O => OOF
  | S d =>
      match fs_canon F file with
      | None => Pan PUnwrap
      | Some full =>
          match fs_read F full with
          | None => Pan PUnwrap
          | Some src =>
              compile_with fuel E F (compile_file d fuel E F log) (parser_named src full) file
                           (Some full) log st
          end
      end
  end.

(* lines 553-563, compile_script_from_str: no imports are possible *)
Definition compile_str (fuel : nat) (E : env) (src name : str) (log : bool) (st : state) : res script_res :=
  compile_with fuel E (mkFs (fun _ _ => None) (fun _ => None) (fun _ => None)) (fun _ _ => OOF)
               (parser_new src) name None log st.
