(* Further vocabulary for the properties of executions. *)
From Verif Require Import Macros Spec.
Open Scope string_scope.
Open Scope list_scope.
Open Scope N_scope.

(* the matchers a matcher executes or registers directly *)
Definition parts (m : matcher) : list matcher :=
  match m with
  | MProgram ps _ => ps
  | MNot m | MOptional m | MDiscard m | MCatch m _ | MMap m _ | MPin (Some m) _ _ _
  | MStore (SPMatcher m) _ _ | MRef (FMatcher m) _ _ | MSetScope _ m | MProxy m _ _
  | MExpand m | MDebug (Some m) _ => [m]
  | MRegister ms => ms
  | _ => []
  end.

(* ---------- assignments ---------- *)

Section Writes.
  (* [W n v]: the value [v] may be given to the variable [n] *)
  Variable W : str -> variable -> Prop.

  (* what Store and Register assign themselves *)
  Definition assigns (m : matcher) : Prop :=
    match m with
    | MStore (SPMatcher _) n _ => forall a, W n (VToken a)
    | MStore (SPString v) n _ => W n (VString v)
    | MRegister ms => forall x, In x ms -> W (m_name x) (VMatcher x)
    | _ => True
    end.
  (* all assignments of a grammar are allowed: a matcher with a name of its own
     assigns itself to that name *)
  Inductive writes : matcher -> Prop :=
  | wr_all m : (m_custom m = true -> W (m_name m) (VMatcher m)) -> assigns m ->
      (forall x, In x (parts m) -> writes x) -> writes m.
  (* the same for all matchers that can be referred to *)
  Definition scopes_write (st : state) : Prop :=
    forall stack sc n m, In stack (st_scopes st) -> In sc stack -> In (n, VMatcher m) sc -> writes m.

  (* every variable has its old value or one that may be given to it *)
  Definition assigned (st st' : state) : Prop :=
    forall s n, sc_get st' s n = sc_get st s n \/ exists v, sc_get st' s n = Some v /\ W n v.

  (* user code that respects this *)
  Definition user_writes (E : env) : Prop :=
    forall st, scopes_write st ->
    (forall k a c s r st', e_map_ok E k a c s st = Ret r st' -> scopes_write st' /\ assigned st st') /\
    (forall k e c s r st', e_map_err E k e c s st = Ret r st' -> scopes_write st' /\ assigned st st') /\
    (forall k e c r st', e_catch E k e c st = Ret r st' -> scopes_write st' /\ assigned st st') /\
    (forall k c s r st', e_user E k c s st = Ret r st' -> scopes_write st' /\ assigned st st').
End Writes.

(* [m] is [core] with layers around it as a script puts them: attributes, "?",
   "!", repetition, and Discard for what is not captured *)
Inductive wraps (core : matcher) : matcher -> Prop :=
| wp_core : wraps core core
| wp_attrs m l : wraps core m -> wraps core (MMap m (MapAttrs l))
| wp_optional m : wraps core m -> wraps core (MOptional m)
| wp_not m : wraps core m -> wraps core (MNot m)
| wp_discard m : wraps core m -> wraps core (MDiscard m)
| wp_repeat m lo hi : lo < hi -> wraps core m ->
    wraps core (MProgram [m] (mkPI "Loop" (Some (lo, hi)) false false)).

(* ---------- the same grammar in a store with other contents ---------- *)

(* user code that a matcher calls *)
Inductive call := CallMap (k : N) | CallCatch (k : N) | CallUser (k : N).
Definition own_calls (m : matcher) : list call :=
  match m with
  | MMap _ (MapUser k) => [CallMap k]
  | MCatch _ k => [CallCatch k]
  | MUser k _ _ _ => [CallUser k]
  | _ => []
  end.
(* a grammar that calls no user code but [U] *)
Inductive calls_only (U : call -> Prop) : matcher -> Prop :=
| co_all m : (forall x, In x (own_calls m) -> U x) -> (forall x, In x (parts m) -> calls_only U x) ->
    calls_only U m.
Definition scopes_call_only (U : call -> Prop) (st : state) : Prop :=
  forall stack sc n m, In stack (st_scopes st) -> In sc stack -> In (n, VMatcher m) sc -> calls_only U m.

Section Moved.
  (* tokens and scope contexts that exist already *)
  Variables (H0 : list token) (S0 : list (list scope)).

  Definition moved_addr (a : addr) : addr := (List.length H0 + a)%nat.
  Definition moved_sid (s : sid) : sid := (List.length S0 + s)%nat.

  Definition moved_token (t : token) : token :=
    mkTok (tk_kind t) (tk_cr t) (tk_mr t) (tk_name t) (tk_value t) (tk_cvalue t) (tk_mvalue t)
          (option_map moved_addr (tk_parent t)) (map moved_addr (tk_kids t)) (tk_attrs t) (tk_flags t).

  (* a matcher refers to a scope context only in SetScope *)
  Fixpoint moved_matcher (m : matcher) : matcher :=
    match m with
    | MProgram ps i => MProgram (map moved_matcher ps) i
    | MEquals p n b => MEquals (moved_fetchable p) n b
    | MMatches r n b => MMatches r n b
    | MSequence x y z n b => MSequence (moved_fetchable x) (moved_fetchable y) (moved_fetchable z) n b
    | MNot m => MNot (moved_matcher m)
    | MOptional m => MOptional (moved_matcher m)
    | MDiscard m => MDiscard (moved_matcher m)
    | MNull => MNull
    | MPanic s => MPanic s
    | MErrorP s => MErrorP s
    | MBreak n => MBreak n
    | MCatch m k => MCatch (moved_matcher m) k
    | MMap m f => MMap (moved_matcher m) f
    | MPin m o n b => MPin (option_map moved_matcher m) (moved_fetchable o) n b
    | MStore p n b => MStore (moved_storepat p) n b
    | MFetch n => MFetch n
    | MRegister ms => MRegister (map moved_matcher ms)
    | MRef t n b => MRef (moved_fetchable t) n b
    | MSetScope s m => MSetScope (option_map moved_sid s) (moved_matcher m)
    | MProxy m n b => MProxy (moved_matcher m) n b
    | MExpand m => MExpand (moved_matcher m)
    | MDebug m k => MDebug (option_map moved_matcher m) k
    | MUser k n b c => MUser k n b c
    end
  with moved_fetchable (f : fetchable) : fetchable :=
    match f with
    | FStr s => FStr s
    | FFetch n => FFetch n
    | FMatcher m => FMatcher (moved_matcher m)
    end
  with moved_storepat (p : storepat) : storepat :=
    match p with
    | SPMatcher m => SPMatcher (moved_matcher m)
    | SPString s => SPString s
    end.

  Definition moved_variable (v : variable) : variable :=
    match v with
    | VToken a => VToken (moved_addr a)
    | VString s => VString s
    | VMatcher m => VMatcher (moved_matcher m)
    end.
  Definition moved_scope (sc : scope) : scope := map (fun p => (fst p, moved_variable (snd p))) sc.

  (* the store [st], behind the older contents *)
  Definition moved_state (st : state) : state :=
    mkSt (H0 ++ map moved_token (st_heap st)) (S0 ++ map (map moved_scope) (st_scopes st)).

  (* the name of a context does not matter *)
  Definition moved_ctx (c c' : ctx) : Prop :=
    c_debug c' = c_debug c /\ c_scope c' = moved_sid (c_scope c) /\
    c_stack c' = map moved_addr (c_stack c) /\ c_off c' = c_off c.

  Fixpoint moved_success (x : success) : success :=
    match x with
    | SToken a => SToken (moved_addr a)
    | SProxy a => SProxy (moved_addr a)
    | SSkip z => SSkip z
    | SBreak n p => SBreak n (moved_success p)
    | SContinue n p => SContinue n (moved_success p)
    | SNone => SNone
    | SStop => SStop
    end.
  Definition moved_result (r : mres) : mres :=
    match r with Ok x => Ok (moved_success x) | Err e => Err e end.
  Definition moved_res {A} (f : A -> A) (r : res A) : res A :=
    match r with Ret x st => Ret (f x) (moved_state st) | Pan p => Pan p | OOF => OOF end.
  Definition moved_outcome (o : outcome) : outcome :=
    match o with
    | Done r st => Done (moved_result r) (moved_state st)
    | Panicked p => Panicked p
    | Never => Never
    end.

  (* user code that does the same in the other store *)
  Definition movable (U : call -> Prop) (E E' : env) : Prop :=
    let keeps (r : res mres) := match r with Ret _ st' => scopes_call_only U st' | _ => True end in
    forall st, scopes_call_only U st -> forall c c', moved_ctx c c' ->
    (forall k a s, U (CallMap k) ->
       e_map_ok E' k (moved_addr a) c' (moved_sid s) (moved_state st) = moved_res moved_result (e_map_ok E k a c s st) /\
       keeps (e_map_ok E k a c s st)) /\
    (forall k e s, U (CallMap k) ->
       e_map_err E' k e c' (moved_sid s) (moved_state st) = moved_res moved_result (e_map_err E k e c s st) /\
       keeps (e_map_err E k e c s st)) /\
    (forall k e, U (CallCatch k) ->
       e_catch E' k e c' (moved_state st) = moved_res moved_result (e_catch E k e c st) /\
       keeps (e_catch E k e c st)) /\
    (forall k s, U (CallUser k) ->
       e_user E' k c' (moved_sid s) (moved_state st) = moved_res moved_result (e_user E k c s st) /\
       keeps (e_user E k c s st)).
End Moved.

(* ---------- debug output ---------- *)

(* a grammar without the Debug matchers that wrap another one *)
Fixpoint plain (m : matcher) : matcher :=
  match m with
  | MDebug (Some m) _ => plain m
  | MProgram ps i => MProgram (map plain ps) i
  | MEquals p n b => MEquals (plain_fetchable p) n b
  | MSequence x y z n b => MSequence (plain_fetchable x) (plain_fetchable y) (plain_fetchable z) n b
  | MNot m => MNot (plain m)
  | MOptional m => MOptional (plain m)
  | MDiscard m => MDiscard (plain m)
  | MCatch m k => MCatch (plain m) k
  | MMap m f => MMap (plain m) f
  | MPin m o n b => MPin (option_map plain m) (plain_fetchable o) n b
  | MStore p n b => MStore (plain_storepat p) n b
  | MRegister ms => MRegister (map plain ms)
  | MRef t n b => MRef (plain_fetchable t) n b
  | MSetScope s m => MSetScope s (plain m)
  | MProxy m n b => MProxy (plain m) n b
  | MExpand m => MExpand (plain m)
  | m => m
  end
with plain_fetchable (f : fetchable) : fetchable :=
  match f with FMatcher m => FMatcher (plain m) | f => f end
with plain_storepat (p : storepat) : storepat :=
  match p with SPMatcher m => SPMatcher (plain m) | p => p end.

Definition plain_variable (v : variable) : variable :=
  match v with VMatcher m => VMatcher (plain m) | v => v end.
Definition plain_scope (sc : scope) : scope := map (fun p => (fst p, plain_variable (snd p))) sc.
Definition plain_state (st : state) : state :=
  mkSt (st_heap st) (map (map plain_scope) (st_scopes st)).
Definition plain_res {A} (r : res A) : res A :=
  match r with Ret x st => Ret x (plain_state st) | Pan p => Pan p | OOF => OOF end.
Definition plain_outcome (o : outcome) : outcome :=
  match o with Done r st => Done r (plain_state st) | o => o end.
(* the same context, with debug output switched off *)
Definition silent (c c' : ctx) : Prop :=
  c_debug c' = 0 /\ c_scope c' = c_scope c /\ c_stack c' = c_stack c /\ c_off c' = c_off c.

(* Debug wraps only consuming matchers and is not what a Register lists: a
   Debug is always consuming and called "Debug" *)
Inductive debug_placed : matcher -> Prop :=
| dp_all m :
    (forall x d, m = MDebug (Some x) d -> m_consuming x = true) ->
    (forall ms x d, m = MRegister ms -> ~ In (MDebug (Some x) d) ms) ->
    (forall x, In x (parts m) -> debug_placed x) -> debug_placed m.
Definition scopes_debug_placed (st : state) : Prop :=
  forall stack sc n m, In stack (st_scopes st) -> In sc stack -> In (n, VMatcher m) sc -> debug_placed m.

(* user code that does not look at the debug level and at stored matchers, and
   assigns nothing *)
Definition debug_blind (E : env) : Prop :=
  forall c c' st, silent c c' ->
  let same (r' r : res mres) := r' = plain_res r /\
    (forall x st', r = Ret x st' -> st_scopes st' = st_scopes st) in
  (forall k a s, same (e_map_ok E k a c' s (plain_state st)) (e_map_ok E k a c s st)) /\
  (forall k e s, same (e_map_err E k e c' s (plain_state st)) (e_map_err E k e c s st)) /\
  (forall k e, same (e_catch E k e c' (plain_state st)) (e_catch E k e c st)) /\
  (forall k s, same (e_user E k c' s (plain_state st)) (e_user E k c s st)).

(* ---------- termination ---------- *)

(* user code that always comes back, with a result or a panic *)
Definition returning (E : env) : Prop :=
  (forall k a c s st, e_map_ok E k a c s st <> OOF) /\
  (forall k e c s st, e_map_err E k e c s st <> OOF) /\
  (forall k e c st, e_catch E k e c st <> OOF) /\
  (forall k c s st, e_user E k c s st <> OOF).

(* a grammar that looks up no matcher by name: a Ref is given its matcher *)
Inductive no_references : matcher -> Prop :=
| nr_all m : (forall t n b, m = MRef t n b -> exists x, t = FMatcher x) ->
    (forall x, In x (parts m) -> no_references x) -> no_references m.

(* at most [d] matchers inside each other *)
Inductive nested : nat -> matcher -> Prop :=
| ns_all d m : (forall x, In x (parts m) -> nested d x) -> nested (S d) m.

(* no loop of the grammar is allowed more than [k] iterations *)
Inductive iterates (k : N) : matcher -> Prop :=
| it_all m : (forall ps i a b, m = MProgram ps i -> pi_iter i = Some (a, b) -> b - a <= k) ->
    (forall x, In x (parts m) -> iterates k x) -> iterates k m.

(* a loop is allowed an iteration *)
Definition at_least_once (i : pinfo) : Prop :=
  forall a b, pi_iter i = Some (a, b) -> a < b.

(* user code that does not ask the whole program to stop *)
Definition never_stops (E : env) : Prop :=
  (forall k a c s st st', e_map_ok E k a c s st <> Ret (Ok SStop) st') /\
  (forall k e c s st st', e_map_err E k e c s st <> Ret (Ok SStop) st') /\
  (forall k e c st st', e_catch E k e c st <> Ret (Ok SStop) st') /\
  (forall k c s st st', e_user E k c s st <> Ret (Ok SStop) st').

(* a pattern that moves forward, fails, breaks or panics *)
Inductive eats : matcher -> Prop :=
| ea_equals x n b : eats (MEquals x n b)
| ea_matches f n b : (forall w z, f w = Some (0, z) -> 0 < z) -> eats (MMatches f n b)
| ea_sequence x y z n b : eats (MSequence x y z n b)
| ea_panic s : eats (MPanic s)
| ea_break n : eats (MBreak n)
| ea_program m ps i : pi_stop i = false -> at_least_once i -> eats m -> eats (MProgram (m :: ps) i)
| ea_switch ps i : pi_stop i = true -> at_least_once i -> (forall m, In m ps -> eats m) -> eats (MProgram ps i)
| ea_discard m : eats m -> eats (MDiscard m)
| ea_store m n b : eats m -> eats (MStore (SPMatcher m) n b)
| ea_proxy m n b : eats m -> eats (MProxy m n b)
| ea_expand m : eats m -> eats (MExpand m)
| ea_debug m d : eats m -> eats (MDebug (Some m) d)
| ea_ref m n b : eats m -> eats (MRef (FMatcher m) n b)
| ea_set_scope s m : eats m -> eats (MSetScope s m)
| ea_attrs m l : eats m -> eats (MMap m (MapAttrs l))
| ea_rename m n : eats m -> eats (MMap m (MapRename n)).

(* the body of every loop begins with such a pattern *)
Inductive loops_eat : matcher -> Prop :=
| le_all m :
    (forall ps i r, m = MProgram ps i -> pi_iter i = Some r ->
       pi_stop i = false /\ exists x l, ps = x :: l /\ eats x) ->
    (forall x, In x (parts m) -> loops_eat x) -> loops_eat m.

(* ---------- scopes entered and left ---------- *)

(* [st0] is [st] with a new empty innermost scope in the scope context [s] *)
Definition entered (st : state) (s : sid) (st0 : state) : Prop :=
  st_heap st0 = st_heap st /\ List.length (st_scopes st0) = List.length (st_scopes st) /\
  stack_of st0 s = [] :: stack_of st s /\ (forall s', s' <> s -> stack_of st0 s' = stack_of st s').
(* [st'] is [st1] without the innermost scope of the scope context [s] *)
Definition exited (st1 : state) (s : sid) (st' : state) : Prop :=
  st_heap st' = st_heap st1 /\ List.length (st_scopes st') = List.length (st_scopes st1) /\
  stack_of st' s = tl (stack_of st1 s) /\ (forall s', s' <> s -> stack_of st' s' = stack_of st1 s').

(* [m] is the last matcher called [n] in the list *)
Definition last_named (n : str) (ms : list matcher) (m : matcher) : Prop :=
  exists l1 l2, ms = l1 ++ m :: l2 /\ m_name m = n /\ forall x, In x l2 -> m_name x <> n.

(* tokens that agree in everything but the inner range and its text *)
Definition same_but_captured (t u : token) : Prop :=
  tk_kind t = tk_kind u /\ tk_mr t = tk_mr u /\ tk_name t = tk_name u /\ tk_value t = tk_value u /\
  tk_mvalue t = tk_mvalue u /\ tk_parent t = tk_parent u /\ tk_kids t = tk_kids u /\
  tk_attrs t = tk_attrs u /\ tk_flags t = tk_flags u.
