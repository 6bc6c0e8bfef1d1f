(* The methods of matchers that change or show their parts, and constructors
   that can panic. *)
From Verif Require Export Context.
Open Scope string_scope.
Open Scope list_scope.
Open Scope N_scope.

Definition out_of_bounds : panic := PMessage "Attempt to set child at an index that is out of bounds".

(* get_children: program.rs:906, not.rs:83, optional.rs:67, discard.rs:186,
   catch.rs:92, map.rs:135, pin.rs:403, store.rs:115, register.rs:65,
   set_scope.rs:91, proxy_children.rs:98, expand_range.rs:97, debug.rs:124; None
   for the others (break.rs:54, equals.rs:157, error.rs:91, fetch.rs:152,
   matches.rs:134, null.rs:51, panic.rs:67, ref.rs:122, sequence.rs:263).  User
   matchers are given no children here. *)
Definition get_children (m : matcher) : option (list matcher) :=
  match m with
  | MProgram ps _ => Some ps
  | MNot m | MOptional m | MDiscard m | MCatch m _ | MMap m _ | MSetScope _ m | MProxy m _ _ | MExpand m => Some [m]
  | MPin o _ _ _ | MDebug o _ => option_map (fun m => [m]) o
  | MStore (SPMatcher m) _ _ => Some [m]
  | MRegister ms => Some ms
  | _ => None
  end.

(* set_child: program.rs:898-904; index 0 only: not.rs:75, optional.rs:59,
   discard.rs:178, catch.rs:84, map.rs:127, set_scope.rs:83, proxy_children.rs:90,
   expand_range.rs:89, debug.rs:116; matcher.rs:58-63 for the others.  The
   matcher is changed in place in Rust; here the changed matcher is returned. *)
Definition set_child (n : nat) (x : matcher) (m : matcher) : may matcher :=
  let only (m' : matcher) : may matcher := match n with O => Val m' | S _ => Die out_of_bounds end in
  match m with
  | MProgram ps i => if (List.length ps <=? n)%nat then Die out_of_bounds else Val (MProgram (upd n x ps) i)
  | MNot _ => only (MNot x)
  | MOptional _ => only (MOptional x)
  | MDiscard _ => only (MDiscard x)
  | MCatch _ k => only (MCatch x k)
  | MMap _ f => only (MMap x f)
  | MSetScope s _ => only (MSetScope s x)
  | MProxy _ name b => only (MProxy x name b)
  | MExpand _ => only (MExpand x)
  | MDebug _ d => only (MDebug (Some x) d)
  | _ => Die (PMessage (lit "Can not call `set_child` on a `" ++ m_name m ++ lit "` matcher: Operation not supported"))
  end.

(* add_pattern: program.rs:910, register.rs:69; panics for the others (what each
   of them says: break.rs:58, catch.rs:96, debug.rs:131, discard.rs:190,
   equals.rs:161, error.rs:95, expand_range.rs:101, fetch.rs:156, map.rs:139,
   matches.rs:138, not.rs:87, null.rs:55, optional.rs:71, panic.rs:71, pin.rs:410,
   proxy_children.rs:102, ref.rs:126, sequence.rs:267, set_scope.rs:95,
   store.rs:122).  User matchers are taken to panic as well. *)
Definition add_pattern (x : matcher) (m : matcher) : may matcher :=
  let no (name : str) : may matcher := Die (PMessage (lit "Can not add a pattern to a `" ++ name ++ lit "` matcher")) in
  match m with
  | MProgram ps i => Val (MProgram (ps ++ [x]) i)
  | MRegister ms => Val (MRegister (ms ++ [x]))
  | MNot _ => Die (PMessage "Can not add a pattern to a Not pattern")
  | MBreak _ => no "Break" | MCatch _ _ => no "Catch" | MDebug _ _ => no "Debug" | MDiscard _ => no "Discard"
  | MEquals _ _ _ => no "Equals" | MErrorP _ => no "Error" | MExpand _ => no "Catch" | MFetch _ => no "Fetch"
  | MMap _ _ => no "Map" | MMatches _ _ _ => no "Matches" | MNull => no "Null" | MOptional _ => no "Optional"
  | MPanic _ => no "Panic" | MPin _ _ _ _ => no "Equals" | MProxy _ _ _ => no "Flatten" | MRef _ _ _ => no "Ref"
  | MSequence _ _ _ _ _ => no "Sequence" | MSetScope _ _ => no "SetScope" | MStore _ _ _ => no "Store"
  | MUser _ name _ _ => no name
  end.

(* src/matchers/store.rs:23-48, new_as_string_type and new_as_matcher_type *)
Definition new_store (name : str) (p : storepat) : may matcher :=
  if existsb (Ascii.eqb ".") name then Die (PMessage "`Store`: Variable names can not contain `.` characters")
  else Val (MStore p name true).
