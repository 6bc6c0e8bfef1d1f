(* The constructor macros of src/matchers/*.rs. *)
From Verif Require Export Tokenize.
Open Scope string_scope.
Open Scope list_scope.
Open Scope N_scope.

(* src/matchers/program.rs:12-27, get_range.  The bounds of a Rust range
   expression (std::ops::Bound). *)
Inductive bound := Included (n : N) | Excluded (n : N) | Unbounded.
Definition get_range (lo hi : bound) : N * N :=
  (match lo with Included n => n | _ => 0 end,
   match hi with Excluded n => n | _ => usize_max end).

(* src/matchers/program.rs:938-952, 954-958 (new_blank_program, 66-79) *)
Definition Program_ (ms : list matcher) : matcher :=
  MProgram ms (mkPI "Program" None false false).
(* src/matchers/program.rs:921-936: set_name makes the name custom *)
Definition ProgramN (n : str) (ms : list matcher) : matcher := m_set_name n (Program_ ms).
(* src/matchers/program.rs:980-994, 996-1000 *)
Definition Switch_ (ms : list matcher) : matcher :=
  MProgram ms (mkPI "Switch" None true false).
(* src/matchers/program.rs:963-978 *)
Definition SwitchN (n : str) (ms : list matcher) : matcher := m_set_name n (Switch_ ms).
(* src/matchers/program.rs:1039-1053 (new_blank_loop, 81-92) *)
Definition LoopR (lo hi : bound) (ms : list matcher) : matcher :=
  MProgram ms (mkPI "Loop" (Some (get_range lo hi)) false false).
(* src/matchers/program.rs:1005-1020 *)
Definition LoopRN (lo hi : bound) (n : str) (ms : list matcher) : matcher :=
  m_set_name n (LoopR lo hi ms).
(* src/matchers/program.rs:1055-1069, 1071-1075: the range `0..` *)
Definition Loop_ (ms : list matcher) : matcher := LoopR (Included 0) Unbounded ms.
(* src/matchers/program.rs:1022-1037 *)
Definition LoopN (n : str) (ms : list matcher) : matcher := m_set_name n (Loop_ ms).

(* src/matchers/equals.rs:176-178 (new, 43-49) and 172-174 (new_with_name, 51-57) *)
Definition Equals_ (p : str) : matcher := MEquals (FStr p) "Equals" false.
Definition EqualsN (n p : str) : matcher := MEquals (FStr p) n true.
(* src/matchers/equals.rs:176-178 with a Fetch!(..) argument *)
Definition EqualsF (n : str) : matcher := MEquals (FFetch n) "Equals" false.
(* src/matchers/matches.rs:156-158 and 149-154 *)
Definition Matches_ (r : finder) : matcher := MMatches r "Matches" false.
Definition MatchesN (n : str) (r : finder) : matcher := MMatches r n true.
(* src/matchers/sequence.rs:282-284 and 278-280 *)
Definition Sequence_ (s e x : str) : matcher :=
  MSequence (FStr s) (FStr e) (FStr x) "Sequence" false.
Definition SequenceN (n s e x : str) : matcher :=
  MSequence (FStr s) (FStr e) (FStr x) n true.
(* src/matchers/pin.rs:441-443, 437-439 *)
Definition Pin_ : matcher := MPin None (FStr "") "Pin" false.
Definition PinM (m : matcher) : matcher := MPin (Some m) (FStr "") "Pin" false.
(* src/matchers/pin.rs:433-435, 425-427 *)
Definition PinN (n : str) : matcher := MPin None (FStr "") n true.
Definition PinNM (n : str) (m : matcher) : matcher := MPin (Some m) (FStr "") n true.
(* src/matchers/pin.rs:429-431, 421-423 *)
Definition PinNO (n : str) (off : fetchable) : matcher := MPin None off n true.
Definition PinNOM (n : str) (off : fetchable) (m : matcher) : matcher := MPin (Some m) off n true.
(* src/matchers/store.rs:137-139 (35-45) and 133-135 (23-33).  The panic for a
   name that contains "." happens while building and is not represented. *)
Definition StoreM (n : str) (m : matcher) : matcher := MStore (SPMatcher m) n true.
Definition StoreS (n v : str) : matcher := MStore (SPString v) n true.
(* src/matchers/ref.rs:141-143 (42-48) and 137-139 (50-56) *)
Definition Ref_ (t : str) : matcher := MRef (FStr t) "Ref" false.
Definition RefN (n t : str) : matcher := MRef (FStr t) n true.
(* src/matchers/proxy_children.rs:117-119 (new, 15-21: the name is "Flatten") *)
Definition Proxy_ (m : matcher) : matcher := MProxy m "Flatten" false.
(* src/matchers/debug.rs:150-152 (new, 14-22: debug mode 1) *)
Definition Debug_ (m : matcher) : matcher := MDebug (Some m) 1.
(* src/matchers/fatal_if.rs:1-31, fatal_if_not.rs:1-33, assert_if.rs:15-42,
   assert_if_not.rs:15-48 *)
Definition FatalIf (m : matcher) (msg : str) : matcher := MMap m (MapFatalIf msg).
Definition FatalIfNot (m : matcher) (msg : str) : matcher := MMap m (MapFatalIfNot msg).
Definition AssertIf (m : matcher) (msg : str) : matcher := MMap m (MapAssertIf msg).
Definition AssertIfNot (m : matcher) (msg : str) : matcher := MMap m (MapAssertIfNot msg).
