(* What it means to replace a part of a matcher, stated without the methods that
   do it (C74, C75). *)
From Verif Require Export Spec.
Open Scope string_scope.
Open Scope list_scope.
Open Scope N_scope.

(* matchers that hold exactly one matcher *)
Inductive holds_one : matcher -> Prop :=
| ho_not m : holds_one (MNot m)
| ho_optional m : holds_one (MOptional m)
| ho_discard m : holds_one (MDiscard m)
| ho_catch m k : holds_one (MCatch m k)
| ho_map m f : holds_one (MMap m f)
| ho_scope s m : holds_one (MSetScope s m)
| ho_proxy m n b : holds_one (MProxy m n b)
| ho_expand m : holds_one (MExpand m)
| ho_debug m d : holds_one (MDebug (Some m) d)
| ho_pin m o n b : holds_one (MPin (Some m) o n b)
| ho_store m n b : holds_one (MStore (SPMatcher m) n b).

(* matchers whose parts can be replaced *)
Definition takes_parts (m : matcher) : Prop :=
  match m with
  | MProgram _ _ | MNot _ | MOptional _ | MDiscard _ | MCatch _ _ | MMap _ _ | MSetScope _ _ | MProxy _ _ _
  | MExpand _ | MDebug _ _ => True
  | _ => False
  end.

(* [replaces n x m m']: [m'] is [m] with [x] in the place of part [n] *)
Inductive replaces : nat -> matcher -> matcher -> matcher -> Prop :=
| rp_program before y after x i :
    replaces (List.length before) x (MProgram (before ++ y :: after) i) (MProgram (before ++ x :: after) i)
| rp_not y x : replaces 0 x (MNot y) (MNot x)
| rp_optional y x : replaces 0 x (MOptional y) (MOptional x)
| rp_discard y x : replaces 0 x (MDiscard y) (MDiscard x)
| rp_catch y x k : replaces 0 x (MCatch y k) (MCatch x k)
| rp_map y x f : replaces 0 x (MMap y f) (MMap x f)
| rp_scope s y x : replaces 0 x (MSetScope s y) (MSetScope s x)
| rp_proxy y x n b : replaces 0 x (MProxy y n b) (MProxy x n b)
| rp_expand y x : replaces 0 x (MExpand y) (MExpand x)
(* a Debug matcher without a pattern receives one *)
| rp_debug o x d : replaces 0 x (MDebug o d) (MDebug (Some x) d).

(* ---------- names ---------- *)

(* matchers that have a name field, with the name that counts as no name of
   their own, if there is one *)
Definition keeps_name (m : matcher) : option (option str) :=
  match m with
  | MProgram _ _ | MStore _ _ _ | MRef _ _ _ | MProxy _ _ _ | MUser _ _ _ _ => Some None
  | MEquals _ _ _ => Some (Some (lit "Equals"))
  | MMatches _ _ _ => Some (Some (lit "Matches"))
  | MSequence _ _ _ _ _ => Some (Some (lit "Sequence"))
  | MPin _ _ _ _ => Some (Some (lit "Pin"))
  | _ => None
  end.
(* matchers that hand a name on to what they hold: [hands_on m x r] where [r]
   is [m] around something else *)
Inductive hands_on : matcher -> matcher -> (matcher -> matcher) -> Prop :=
| hn_not m : hands_on (MNot m) m MNot
| hn_optional m : hands_on (MOptional m) m MOptional
| hn_discard m : hands_on (MDiscard m) m MDiscard
| hn_catch m k : hands_on (MCatch m k) m (fun x => MCatch x k)
| hn_map m f : hands_on (MMap m f) m (fun x => MMap x f)
| hn_scope s m : hands_on (MSetScope s m) m (MSetScope s)
| hn_expand m : hands_on (MExpand m) m MExpand
| hn_debug m d : hands_on (MDebug (Some m) d) m (fun x => MDebug (Some x) d).

(* ---------- equal parts ---------- *)

(* two matchers that do the same everywhere, with the same standing among the
   patterns of a Program *)
Definition interchangeable E P (x y : matcher) : Prop :=
  m_consuming x = m_consuming y /\ forall c s st, same_outcomes E P x c s st y c s st.

(* [patched E P a b]: [b] arises from [a] when any number of interchangeable
   matchers are put for each other, however deep.  Matchers with a name of their
   own store themselves in the scope, so what is around the place of exchange
   must not have one. *)
Inductive patched E P : matcher -> matcher -> Prop :=
| pa_same x y : interchangeable E P x y -> patched E P x y
| pa_trans x y z : patched E P x y -> patched E P y z -> patched E P x z
| pa_part n x y m a b : m_custom m = false ->
    replaces n x m a -> replaces n y m b -> patched E P x y -> patched E P a b
| pa_pin x y off name : patched E P x y ->
    patched E P (MPin (Some x) off name false) (MPin (Some y) off name false)
| pa_ref x y name : patched E P x y ->
    patched E P (MRef (FMatcher x) name false) (MRef (FMatcher y) name false).
