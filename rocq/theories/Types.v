(* Data types of the engine: ranges, tokens, matchers, scopes, contexts, state,
   outcomes, and the elementary operations on them. *)
From Verif Require Export Str.
Open Scope string_scope.
Open Scope list_scope.
Open Scope N_scope.

(* src/source_range.rs:5-9 *)
Record range := mkR { rs : N; re : N }.

(* src/source_range.rs:16-18, new_blank *)
Definition blank_range : range := mkR 0 0.

(* src/source_range.rs:28-33, clone_with_len *)
Definition clone_with_len (r : range) (len : N) : range := mkR (rs r) (rs r + len).

(* TokenRef (src/token.rs:16): the address of a token in the token heap. *)
Definition addr := nat.
(* ScopeContextRef (src/scope_context.rs:5): index of a scope context. *)
Definition sid := nat.

(* Which of the two Token implementations: StandardToken (src/token.rs:200-213)
   or PinToken (src/matchers/pin.rs:67-79). *)
Inductive tkind := KStandard | KPin.

(* Fields of StandardToken (src/token.rs:200-213) and PinToken
   (src/matchers/pin.rs:67-79).  The parser field is omitted: there is one
   parser per execution. *)
Record token := mkTok {
  tk_kind : tkind;
  tk_cr : range;              (* captured_range *)
  tk_mr : range;              (* matched_range *)
  tk_name : str;
  tk_value : option str;
  tk_cvalue : str;            (* captured_value *)
  tk_mvalue : str;            (* matched_value *)
  tk_parent : option addr;
  tk_kids : list addr;        (* children *)
  tk_attrs : list (str * str);
  tk_flags : N
}.

(* src/token.rs:10-12 *)
Definition IS_FAILURE : N := 1.
Definition IS_ERROR : N := 2.
Definition IS_WARNING : N := 4.

(* src/parse_error.rs:4-7 *)
Record parse_error := mkPE { pe_msg : str; pe_range : option range }.

(* src/matcher.rs:11-19 *)
Inductive success :=
| SToken (a : addr)
| SProxy (a : addr)
| SSkip (z : Z)
| SBreak (name : str) (s : success)
| SContinue (name : str) (s : success)
| SNone
| SStop.

(* src/matcher.rs:22-25 *)
Inductive failure := FFail | FError (e : parse_error).

(* Result<MatcherSuccess, MatcherFailure> *)
Inductive mres := Ok (s : success) | Err (f : failure).

(* Regex::find on a haystack: leftmost match as byte offsets. *)
Definition finder := str -> option (N * N).

(* Non-recursive fields of ProgramPattern (src/matchers/program.rs:35-41);
   [pi_iter] is iterate_range, [pi_stop] is on_first_match = Stop. *)
Record pinfo := mkPI {
  pi_name : str;
  pi_iter : option (N * N);
  pi_stop : bool;
  pi_custom : bool
}.

(* The closures that are passed to MapPattern (src/matchers/map.rs:8-17):
   the ones written in this repository, and user closures by index. *)
Inductive mapfn :=
| MapUser (k : N)                    (* arbitrary user closures *)
| MapFatalIf (msg : str)             (* src/matchers/fatal_if.rs:6-28 *)
| MapFatalIfNot (msg : str)          (* src/matchers/fatal_if_not.rs:6-30 *)
| MapAssertIf (msg : str)            (* src/matchers/assert_if.rs:20-39 *)
| MapAssertIfNot (msg : str)         (* src/matchers/assert_if_not.rs:20-45 *)
| MapAttrs (l : list (str * str))    (* src/script/v1/parser.rs:182-195 *)
| MapRename (name : str)             (* src/script/v1/parser.rs:394-399 *)
| MapPatternDef                      (* src/script/v1/matchers/pattern_definition.rs *)
| MapRegex                           (* src/script/v1/matchers/regex_matcher.rs *)
| MapAdextopaScope                   (* src/script/v1/matchers/adextopa_scope.rs *)
| MapPatternScope                    (* src/script/v1/matchers/pattern_scope.rs *)
| MapScript.                         (* src/script/v1/matchers/script.rs *)

(* All matchers of src/matchers/*.rs.  [MUser] stands for a user
   implementation of the Matcher trait (src/matcher.rs:35-72). *)
Inductive matcher :=
| MProgram (pats : list matcher) (i : pinfo)             (* program.rs:35-41 *)
| MEquals (p : fetchable) (name : str) (custom : bool)   (* equals.rs:13-21 *)
| MMatches (r : finder) (name : str) (custom : bool)     (* matches.rs:12-16 *)
| MSequence (s e esc : fetchable) (name : str) (custom : bool) (* sequence.rs:13-23 *)
| MNot (m : matcher)                                     (* not.rs:9-11 *)
| MOptional (m : matcher)                                (* optional.rs:8-10 *)
| MDiscard (m : matcher)                                 (* discard.rs:11-13 *)
| MNull                                                  (* null.rs:9 *)
| MPanic (msg : str)                                     (* panic.rs:11-13 *)
| MErrorP (msg : str)                                    (* error.rs:48-50 *)
| MBreak (name : str)                                    (* break.rs:9-11 *)
| MCatch (m : matcher) (k : N)                           (* catch.rs:7-13 *)
| MMap (m : matcher) (f : mapfn)                         (* map.rs:8-17 *)
| MPin (m : option matcher) (off : fetchable) (name : str) (custom : bool) (* pin.rs:284-293 *)
| MStore (p : storepat) (name : str) (custom : bool)     (* store.rs:16-20 *)
| MFetch (name : str)                                    (* fetch.rs:102-104 *)
| MRegister (ms : list matcher)                          (* register.rs:10-12 *)
| MRef (t : fetchable) (name : str) (custom : bool)      (* ref.rs:12-20 *)
| MSetScope (s : option sid) (m : matcher)               (* set_scope.rs:9-12 *)
| MProxy (m : matcher) (name : str) (custom : bool)      (* proxy_children.rs:8-12 *)
| MExpand (m : matcher)                                  (* expand_range.rs:8-10 *)
| MDebug (m : option matcher) (mode : N)                 (* debug.rs:8-11 *)
| MUser (k : N) (name : str) (custom consuming : bool)   (* matcher.rs:35-72 *)
(* A Fetchable argument: a string, a Fetch!() or a matcher (fetch.rs:11-99). *)
with fetchable :=
| FStr (s : str)
| FFetch (name : str)
| FMatcher (m : matcher)
(* StorePatternType (store.rs:10-13) *)
with storepat :=
| SPMatcher (m : matcher)
| SPString (s : str).

(* src/scope.rs:6-10 *)
Inductive variable :=
| VToken (a : addr)
| VString (s : str)
| VMatcher (m : matcher).

(* src/scope.rs:15-17 *)
Definition scope := list (str * variable).

(* The shared mutable store: all tokens and all scope contexts
   (src/scope_context.rs:8-10; a stack is a list, innermost scope first). *)
Record state := mkSt {
  st_heap : list token;
  st_scopes : list (list scope)
}.

(* src/parser_context.rs:19-26.  The token stack is a list, top first.  The
   parser field is omitted (one parser per execution). *)
Record ctx := mkCtx {
  c_debug : N;
  c_scope : sid;
  c_stack : list addr;
  c_off : range;
  c_name : str
}.

(* src/parser.rs:7-10 *)
Record parser := mkParser { p_src : str; p_file : str }.

(* Why an execution panicked. *)
Inductive panic :=
| PSlice            (* invalid `&source[a..b]` *)
| POverflow         (* integer overflow with overflow checks enabled *)
| PNotForward       (* assert! in src/matchers/program.rs:657 *)
| PUnreachable      (* unreachable!() *)
| PMessage (m : str)(* explicit panic!(..) *)
| PUnwrap           (* Option/Result::unwrap on None/Err *)
| PIndex            (* Vec index out of bounds *)
| PBorrow.          (* RefCell already borrowed *)

(* Outcome of running a piece of Rust code: a value and the new store, a panic,
   or the fuel of the model ran out (the code is still running). *)
Inductive res (A : Type) :=
| Ret (a : A) (s : state)
| Pan (p : panic)
| OOF.
Arguments Ret {A} a s.
Arguments Pan {A} p.
Arguments OOF {A}.

Notation "'do' x , s <- m ; k" :=
  (match m with Ret x s => k | Pan pp => Pan pp | OOF => OOF end)
  (at level 200, x pattern, s name, m at level 100, k at level 200,
   format "'do'  x ,  s  <-  m ;  '//' k").

(* External behaviour: overflow checks of the build profile, user closures,
   Unicode classes for non-ASCII characters, and Regex::new. *)
Record env := mkEnv {
  e_checks : bool;
  e_map_ok : N -> addr -> ctx -> sid -> state -> res mres;
  e_map_err : N -> failure -> ctx -> sid -> state -> res mres;
  e_catch : N -> failure -> ctx -> state -> res mres;
  e_user : N -> ctx -> sid -> state -> res mres;
  e_word : N -> bool;
  e_space : N -> bool;
  e_digit : N -> bool;
  e_regex : str -> option finder
}.

(* ---- heap ---- *)

(* A value for dangling addresses, which Rust references never are. *)
Definition dead_token : token :=
  mkTok KStandard blank_range blank_range [] None [] [] None [] [] 0.

(* `token.borrow()` *)
Definition tok (st : state) (a : addr) : token := nth a (st_heap st) dead_token.

(* `*token.borrow_mut() = t` *)
Definition set_tok (st : state) (a : addr) (t : token) : state :=
  mkSt (upd a t (st_heap st)) (st_scopes st).

(* `Rc::new(RefCell::new(Box::new(..)))` for a token; the new address is the
   length of the old heap. *)
Definition alloc (st : state) (t : token) : state :=
  mkSt (st_heap st ++ [t]) (st_scopes st).
Definition next_addr (st : state) : addr := List.length (st_heap st).

(* ---- token methods ---- *)

(* src/source_range.rs:20-26, SourceRange::to_string *)
Definition range_text (P : parser) (r : range) : str :=
  char_substring (p_src P) (rs r) (re r).

(* src/token.rs:232-251, StandardToken::new_with_matched_range *)
Definition std_token2 (P : parser) (name : str) (cr mr : range) : token :=
  mkTok KStandard cr mr name None (range_text P cr) (range_text P mr) None [] [] 0.

(* src/token.rs:216-230, StandardToken::new *)
Definition std_token (P : parser) (name : str) (r : range) : token :=
  mkTok KStandard r r name None (range_text P r) (range_text P r) None [] [] 0.

(* src/matchers/pin.rs:98-117, PinToken::new_with_matched_range *)
Definition pin_token (P : parser) (name : str) (r : range) : token :=
  mkTok KPin r r name None (range_text P r) (range_text P r) None [] [] 0.

(* adextopa_macros/src/lib.rs:31-34 (StandardToken recomputes the text),
   src/matchers/pin.rs:133-135 (PinToken does not) *)
Definition set_cr (P : parser) (r : range) (t : token) : token :=
  mkTok (tk_kind t) r (tk_mr t) (tk_name t) (tk_value t)
        (match tk_kind t with KStandard => range_text P r | KPin => tk_cvalue t end)
        (tk_mvalue t) (tk_parent t) (tk_kids t) (tk_attrs t) (tk_flags t).

(* adextopa_macros/src/lib.rs:44-47, src/matchers/pin.rs:145-147 *)
Definition set_mr (P : parser) (r : range) (t : token) : token :=
  mkTok (tk_kind t) (tk_cr t) r (tk_name t) (tk_value t) (tk_cvalue t)
        (match tk_kind t with KStandard => range_text P r | KPin => tk_mvalue t end)
        (tk_parent t) (tk_kids t) (tk_attrs t) (tk_flags t).

(* adextopa_macros/src/lib.rs:64-66 *)
Definition set_parent (p : option addr) (t : token) : token :=
  mkTok (tk_kind t) (tk_cr t) (tk_mr t) (tk_name t) (tk_value t) (tk_cvalue t)
        (tk_mvalue t) p (tk_kids t) (tk_attrs t) (tk_flags t).

(* adextopa_macros/src/lib.rs:76-78 *)
Definition set_kids (l : list addr) (t : token) : token :=
  mkTok (tk_kind t) (tk_cr t) (tk_mr t) (tk_name t) (tk_value t) (tk_cvalue t)
        (tk_mvalue t) (tk_parent t) l (tk_attrs t) (tk_flags t).

(* adextopa_macros/src/lib.rs:53-55 *)
Definition set_tname (n : str) (t : token) : token :=
  mkTok (tk_kind t) (tk_cr t) (tk_mr t) n (tk_value t) (tk_cvalue t)
        (tk_mvalue t) (tk_parent t) (tk_kids t) (tk_attrs t) (tk_flags t).

(* adextopa_macros/src/lib.rs:138-140 *)
Definition set_attr (k v : str) (t : token) : token :=
  mkTok (tk_kind t) (tk_cr t) (tk_mr t) (tk_name t) (tk_value t) (tk_cvalue t)
        (tk_mvalue t) (tk_parent t) (tk_kids t) (assoc_set k v (tk_attrs t)) (tk_flags t).

(* adextopa_macros/src/lib.rs:150-152 *)
Definition enable_flags (f : N) (t : token) : token :=
  mkTok (tk_kind t) (tk_cr t) (tk_mr t) (tk_name t) (tk_value t) (tk_cvalue t)
        (tk_mvalue t) (tk_parent t) (tk_kids t) (tk_attrs t) (N.lor (tk_flags t) f).

(* adextopa_macros/src/lib.rs:158-160, with IS_ERROR *)
Definition is_error (t : token) : bool := negb (N.land (tk_flags t) IS_ERROR =? 0).

(* adextopa_macros/src/lib.rs:127-129 *)
Definition get_attr (k : str) (t : token) : option str := assoc_get k (tk_attrs t).

(* src/token.rs:195-197 (false), src/matchers/pin.rs:278-280 (true) *)
Definition should_discard (t : token) : bool :=
  match tk_kind t with KStandard => false | KPin => true end.

(* adextopa_macros/src/lib.rs:107-109; src/matchers/pin.rs:207-217 *)
Definition get_cvalue (t : token) : str :=
  match tk_kind t with
  | KStandard => tk_cvalue t
  | KPin => match get_attr "__value" t with Some v => v | None => tk_cvalue t end
  end.

(* adextopa_macros/src/lib.rs:115-117; src/matchers/pin.rs:223-233 *)
Definition get_mvalue (t : token) : str :=
  match tk_kind t with
  | KStandard => tk_mvalue t
  | KPin => match get_attr "__matched_value" t with Some v => v | None => tk_mvalue t end
  end.

(* adextopa_macros/src/lib.rs:84-97; src/matchers/pin.rs:184-197 *)
Definition get_value (t : token) : str :=
  match get_attr "__value" t with
  | Some v => v
  | None => match tk_value t with Some v => v | None => get_cvalue t end
  end.

(* src/token.rs:156-170, find_child: first child with that name *)
Definition find_child (st : state) (t : token) (name : str) : option addr :=
  find (fun a => str_eqb (tk_name (tok st a)) name) (tk_kids t).

(* ---- scope contexts ---- *)

(* the stack of a scope context *)
Definition stack_of (st : state) (s : sid) : list scope := nth s (st_scopes st) [].
Definition set_stack (st : state) (s : sid) (l : list scope) : state :=
  mkSt (st_heap st) (upd s l (st_scopes st)).

(* src/scope_context.rs:25-42, get: innermost scope first *)
Fixpoint stack_get (l : list scope) (name : str) : option variable :=
  match l with
  | [] => None
  | sc :: l' => match assoc_get name sc with
                | Some v => Some v
                | None => stack_get l' name
                end
  end.
(* src/scope_context.rs:44-52, set: innermost scope, creating one if needed *)
Definition stack_set (l : list scope) (name : str) (v : variable) : list scope :=
  match l with
  | [] => [assoc_set name v []]
  | sc :: l' => assoc_set name v sc :: l'
  end.
Definition sc_get (st : state) (s : sid) (name : str) : option variable :=
  stack_get (stack_of st s) name.
Definition sc_set (st : state) (s : sid) (name : str) (v : variable) : state :=
  set_stack st s (stack_set (stack_of st s) name v).
(* src/scope_context.rs:17-19, push of Scope::new() (src/scope.rs:20-24) *)
Definition sc_push (st : state) (s : sid) : state :=
  set_stack st s ([] :: stack_of st s).
(* src/scope_context.rs:21-23 *)
Definition sc_pop (st : state) (s : sid) : state :=
  set_stack st s (tl (stack_of st s)).
(* src/scope_context.rs:13-15, ScopeContext::new *)
Definition sc_new (st : state) : state := mkSt (st_heap st) (st_scopes st ++ [[]]).
Definition next_sid (st : state) : sid := List.length (st_scopes st).

(* ---- contexts ---- *)

(* src/parser_context.rs:51-55, clone_with_name *)
Definition clone_with_name (c : ctx) (n : str) : ctx :=
  mkCtx (c_debug c) (c_scope c) (c_stack c) (c_off c) n.
(* src/parser_context.rs:73-75, set_start *)
Definition with_start (c : ctx) (s : N) : ctx :=
  mkCtx (c_debug c) (c_scope c) (c_stack c) (mkR s (re (c_off c))) (c_name c).
(* src/parser_context.rs:77-79, set_end *)
Definition with_end (c : ctx) (e : N) : ctx :=
  mkCtx (c_debug c) (c_scope c) (c_stack c) (mkR (rs (c_off c)) e) (c_name c).
(* src/parser_context.rs:65-67, set_debug_mode *)
Definition with_debug (c : ctx) (d : N) : ctx :=
  mkCtx d (c_scope c) (c_stack c) (c_off c) (c_name c).
(* src/parser_context.rs:154-156, push_token_to_stack *)
Definition push_tok (c : ctx) (a : addr) : ctx :=
  mkCtx (c_debug c) (c_scope c) (a :: c_stack c) (c_off c) (c_name c).

(* ---- matcher trait methods ---- *)

(* get_name of each matcher: program.rs:889, equals.rs:148, matches.rs:125,
   sequence.rs:254, not.rs:66, optional.rs:50, discard.rs:169, null.rs:43,
   panic.rs:59, error.rs:83, break.rs:46, catch.rs:75, map.rs:118, pin.rs:394,
   store.rs:106, fetch.rs:144, register.rs:57, ref.rs:113, set_scope.rs:74,
   proxy_children.rs:81, expand_range.rs:80 (sic: "Catch"), debug.rs:104 *)
Definition m_name (m : matcher) : str :=
  match m with
  | MProgram _ i => pi_name i
  | MEquals _ n _ | MMatches _ n _ | MSequence _ _ _ n _ | MPin _ _ n _
  | MStore _ n _ | MFetch n | MRef _ n _ | MProxy _ n _ | MUser _ n _ _ => n
  | MNot _ => "Not" | MOptional _ => "Optional" | MDiscard _ => "Discard"
  | MNull => "Null" | MPanic _ => "Error" | MErrorP _ => "Error"
  | MBreak _ => "Break" | MCatch _ _ => "Catch" | MMap _ _ => "Map"
  | MRegister _ => "Register" | MSetScope _ _ => "SetScope"
  | MExpand _ => "Catch" | MDebug _ _ => "Debug"
  end.

(* has_custom_name: default false (matcher.rs:65-67); program.rs:885,
   equals.rs:144, matches.rs:121, sequence.rs:250, pin.rs:390, store.rs:102,
   fetch.rs:140, ref.rs:109, proxy_children.rs:77 *)
Definition m_custom (m : matcher) : bool :=
  match m with
  | MProgram _ i => pi_custom i
  | MEquals _ _ b | MMatches _ _ b | MSequence _ _ _ _ b | MPin _ _ _ b
  | MStore _ _ b | MRef _ _ b | MProxy _ _ b | MUser _ _ b _ => b
  | _ => false
  end.

(* is_consuming: default true (matcher.rs:69-71); false for null.rs:39,
   pin.rs:386, fetch.rs:136, register.rs:53; store.rs:95-100 *)
Definition m_consuming (m : matcher) : bool :=
  match m with
  | MNull | MPin _ _ _ _ | MFetch _ | MRegister _ => false
  | MStore (SPString _) _ _ => false
  | MUser _ _ _ b => b
  | _ => true
  end.

(* set_name of each matcher (same places as get_name).  The argument is
   mutated in place in Rust; here the renamed matcher is returned. *)
Fixpoint m_set_name (n : str) (m : matcher) : matcher :=
  match m with
  | MProgram ps i => MProgram ps (mkPI n (pi_iter i) (pi_stop i) true)
  | MEquals p _ _ => MEquals p n (negb (str_eqb n "Equals"))
  | MMatches r _ _ => MMatches r n (negb (str_eqb n "Matches"))
  | MSequence s e x _ _ => MSequence s e x n (negb (str_eqb n "Sequence"))
  | MNot m => MNot (m_set_name n m)
  | MOptional m => MOptional (m_set_name n m)
  | MDiscard m => MDiscard (m_set_name n m)
  | MCatch m k => MCatch (m_set_name n m) k
  | MMap m f => MMap (m_set_name n m) f
  | MPin m o _ _ => MPin m o n (negb (str_eqb n "Pin"))
  | MStore p _ _ => MStore p n true
  | MFetch _ => MFetch n
  | MRef t _ _ => MRef t n true
  | MSetScope s m => MSetScope s (m_set_name n m)
  | MProxy m _ _ => MProxy m n true
  | MExpand m => MExpand (m_set_name n m)
  | MDebug (Some m) d => MDebug (Some (m_set_name n m)) d
  | MUser k _ _ b => MUser k n true b
  | MDebug None _ | MNull | MPanic _ | MErrorP _ | MBreak _ | MRegister _ => m
  end.
