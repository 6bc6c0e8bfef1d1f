(* Grammars that refer to matchers by name, but only after having moved forward. *)
From Verif Require Import Macros ScriptBuild Spec SpecMore SpecScript.
Open Scope string_scope.
Open Scope list_scope.
Open Scope N_scope.

(* ---------- moving forward ---------- *)

(* a pattern that never succeeds: it breaks out of a loop, fails or panics *)
Inductive leaves : matcher -> Prop :=
| lv_break n : leaves (MBreak n)
| lv_panic s : leaves (MPanic s)
| lv_program ps i x : pi_stop i = false -> pi_iter i = None -> In x ps -> leaves x -> leaves (MProgram ps i)
| lv_discard x : leaves x -> leaves (MDiscard x)
| lv_proxy x n b : leaves x -> leaves (MProxy x n b).

(* a pattern that moves forward when it succeeds *)
Inductive moves : matcher -> Prop :=
| mo_equals f n b : moves (MEquals f n b)
| mo_matches f n b : (forall w z, f w = Some (0, z) -> 0 < z) -> moves (MMatches f n b)
| mo_sequence f g h n b : moves (MSequence f g h n b)
| mo_leaves x : leaves x -> moves x
| mo_program ps i x : pi_stop i = false -> pi_iter i = None ->
    In x ps -> m_consuming x = true -> moves x -> moves (MProgram ps i)
| mo_switch ps i : pi_stop i = true -> pi_iter i = None -> (forall x, In x ps -> moves x) -> moves (MProgram ps i)
| mo_discard x : moves x -> moves (MDiscard x)
| mo_store x n b : moves x -> moves (MStore (SPMatcher x) n b)
| mo_attrs x l : moves x -> moves (MMap x (MapAttrs l))
| mo_rename x n : moves x -> moves (MMap x (MapRename n))
| mo_regex x : moves x -> moves (MMap x MapRegex)
| mo_pattern x : moves x -> moves (MMap x MapPatternDef).

Section Guard.
  (* [body n]: the matcher that is known under the name [n] *)
  Variable body : str -> option matcher.
  (* [rank]: how many names can be gone through at one and the same place;
     all ranks are below [top] *)
  Variables (rank : str -> nat) (top : nat).

  (* ---------- staying in place ---------- *)

  (* a look at any place: no names, no break *)
  Inductive look : matcher -> Prop :=
  | lo_equals f n b : look (MEquals f n b)
  | lo_matches f n b : sane_find f -> look (MMatches f n b)
  | lo_sequence f g h n b : look (MSequence f g h n b)
  | lo_fatal x msg : look x -> look (MMap x (MapFatalIf msg))
  | lo_assert x msg : look x -> look (MMap x (MapAssertIf msg)).
  Definition aside (m : matcher) : Prop :=
    exists x off n b, m = MPin (Some x) off n b /\ look x.

  Inductive simple : matcher -> Prop :=
  | si_equals f n b : simple (MEquals f n b)
  | si_matches f n b : sane_find f -> simple (MMatches f n b)
  | si_sequence f g h n b : simple (MSequence f g h n b)
  | si_null : simple MNull
  | si_panic s : simple (MPanic s)
  | si_error s : simple (MErrorP s)
  | si_break n : simple (MBreak n)
  | si_store v n b : simple (MStore (SPString v) n b)
  | si_fetch n : simple (MFetch n)
  | si_pin n b : simple (MPin None (FStr "") n b)
  | si_debug d : simple (MDebug None d).

  (* The grammar ends where it starts or behind, and so do the children of what
     it captures when [tight] holds.  With [back] it can also end before its
     start, but inside the source. *)
  Inductive onward : bool -> bool -> matcher -> Prop :=
  | on_simple back tight m : simple m -> onward back tight m
  | on_program back tight ps i : pi_stop i = false ->
      (forall x, In x ps -> onward back false x \/ (tight = false /\ aside x)) ->
      onward back tight (MProgram ps i)
  | on_switch back tight ps i : pi_stop i = true ->
      (forall x, In x ps -> onward back tight x) -> onward back tight (MProgram ps i)
  | on_not back tight x : onward back tight x -> onward back tight (MNot x)
  | on_optional back tight x : onward back tight x -> onward back tight (MOptional x)
  | on_discard x : onward false false x -> onward false false (MDiscard x)
  | on_map back tight x f : (forall k, f <> MapUser k) -> f <> MapAdextopaScope ->
      onward back tight x -> onward back tight (MMap x f)
  | on_scope back tight x : onward back tight x -> onward true tight (MMap x MapAdextopaScope)
  | on_here back tight x n b : onward back tight x -> onward back tight (MPin (Some x) (FStr "") n b)
  | on_store back tight x n b : onward back tight x -> onward back tight (MStore (SPMatcher x) n b)
  | on_ref n name b : body n <> None -> onward false false (MRef (FStr n) name b)
  | on_given back tight x name b : onward back tight x -> onward back tight (MRef (FMatcher x) name b)
  | on_proxy back tight x n b : onward back true x -> onward back tight (MProxy x n b)
  | on_expand back tight x : onward back tight x -> onward back tight (MExpand x)
  | on_debug back tight x d : onward back tight x -> onward back tight (MDebug (Some x) d)
  | on_back tight x : onward false tight x -> onward true tight x
  | on_loose back x : onward back true x -> onward back false x.

  (* ---------- names ---------- *)

  (* matchers that register themselves keep the names to what they are *)
  Inductive keeps_names : matcher -> Prop :=
  | kn_all m : (m_custom m = true -> forall b, body (m_name m) = Some b -> b = m) ->
      (forall x, In x (parts m) -> keeps_names x) -> keeps_names m.
  Definition known (s : sid) (st : state) : Prop :=
    forall n m b, sc_get st s n = Some (VMatcher m) -> body n = Some b -> m = b.

  (* At the place where it starts the grammar only goes to names of a rank below
     [r]; to others after it has moved forward.  Every loop moves forward. *)
  Inductive guarded : bool -> nat -> matcher -> Prop :=
  | gu_program back r ps i :
      (forall it, pi_iter i = Some it ->
         back = false /\ pi_stop i = false /\ exists y, In y ps /\ m_consuming y = true /\ moves y) ->
      (forall pre x post, ps = pre ++ x :: post ->
         guarded back r x \/
         (back = false /\ pi_stop i = false /\ (exists y, In y pre /\ m_consuming y = true /\ moves y) /\
          guarded back top x)) ->
      guarded back r (MProgram ps i)
  | gu_ref r n name b : (rank n < r)%nat -> guarded false r (MRef (FStr n) name b)
  | gu_aside back r m : aside m -> guarded back r m
  | gu_parts back r m : (forall ps i, m <> MProgram ps i) -> (forall n name b, m <> MRef (FStr n) name b) ->
      (forall x, In x (parts m) -> guarded back r x) -> guarded back r m
  | gu_back r m : onward false false m -> guarded false r m -> guarded true r m.

  (* what holds of the matchers behind the names; [d]: they are nested that deep *)
  Definition guarded_names (d : nat) : Prop :=
    forall n b, body n = Some b ->
      (rank n < top)%nat /\ nested d b /\ onward false false b /\ keeps_names b /\ guarded false (rank n) b.
End Guard.

(* ---------- files that import files ---------- *)

(* wherever it is parsed, the script [src] contains an import statement that
   names the file [file], as seen from the file [full] *)
Definition asks_for (E : env) (F : fs) (P : parser) (full file : str) : Prop :=
  exists name st root st1 l imp p,
    Tokenizes E P (script_ctx P name st) (Script_ E) (script_start E P name st) (TOk root) st1 /\
    preorder st1 [root] l /\ In imp l /\ tk_name (tok st1 imp) = "ImportStatement" /\
    first_kid st1 imp ["Path"] p /\ fs_join F full (get_value (tok st1 p)) = Some file.
(* the file [full] imports the file [next] *)
Definition imports (E : env) (F : fs) (full next : str) : Prop :=
  exists src file, fs_read F full = Some src /\ asks_for E F (parser_named src full) full file /\
    fs_canon F file = Some next.
