(* Where the names and the error marks of tokens come from (C78, C79). *)
From Verif Require Export Macros Spec SpecMore.
Open Scope string_scope.
Open Scope list_scope.
Open Scope N_scope.

Section Names.
  (* [Nm n]: tokens may be called [n]; [err]: tokens may be marked as errors;
     [Sc s]: the grammar looks up names in the scope context [s] *)
  Variables (Nm : str -> Prop) (err : Prop) (Sc : sid -> Prop).

  (* a closure that makes error tokens *)
  Definition complains_itself (f : mapfn) : Prop :=
    match f with
    | MapAssertIf _ | MapAssertIfNot _ | MapAdextopaScope | MapPatternScope | MapScript => True
    | _ => False
    end.
  (* the tokens that a matcher makes itself *)
  Definition makes_only (m : matcher) : Prop :=
    match m with
    | MProgram _ i => Nm (pi_name i)
    | MEquals _ n _ | MMatches _ n _ | MSequence _ _ _ n _ | MPin None _ n _ => Nm n
    | MExpand _ => Nm "ExpandRange"
    | MErrorP _ => Nm "Error" /\ err
    | MDiscard _ => err -> Nm "Error"
    | MMap _ (MapRename n) => Nm n
    | MMap _ f => complains_itself f -> Nm "Error" /\ err
    | MSetScope (Some s) _ => Sc s
    | _ => True
    end.
  Inductive speaks : matcher -> Prop :=
  | sp_all m : makes_only m -> (forall x, In x (parts m) -> speaks x) -> speaks m.

  (* the same for all matchers that can be referred to *)
  Definition scopes_speak (st : state) : Prop :=
    forall s sc n m, Sc s -> In sc (stack_of st s) -> In (n, VMatcher m) sc -> speaks m.

  Definition named (st : state) (a : addr) : Prop := Nm (tk_name (tok st a)).
  Definition marked_rightly (t : token) : Prop := is_error t = true -> err.

  (* from [h] on all children have such names and all marks are allowed *)
  Definition well_named (h : nat) (st : state) : Prop :=
    forall a, (h <= a < heap_size st)%nat ->
      marked_rightly (tok st a) /\ forall k, In k (tk_kids (tok st a)) -> named st k.

  (* what one step of the execution leaves behind *)
  Definition speaks_well (h : nat) (st : state) (r : mres) (st' : state) : Prop :=
    well_named h st' /\ scopes_speak st' /\
    (forall a, (h <= a < heap_size st)%nat -> named st a -> named st' a) /\
    forall a, In a (result_tokens r) -> named st' a.

  (* user code that does likewise *)
  Definition polite (E : env) : Prop :=
    forall h st, (h <= heap_size st)%nat -> forest h st -> well_named h st -> scopes_speak st ->
    (forall k a c s r st', (h <= a < heap_size st)%nat -> named st a ->
       e_map_ok E k a c s st = Ret r st' -> speaks_well h st r st') /\
    (forall k e c s r st', e_map_err E k e c s st = Ret r st' -> speaks_well h st r st') /\
    (forall k e c r st', e_catch E k e c st = Ret r st' -> speaks_well h st r st') /\
    (forall k c s r st', e_user E k c s st = Ret r st' -> speaks_well h st r st').
End Names.

(* ---------- one scope ---------- *)

(* a grammar that stays in the scope context it is executed in *)
Inductive home : matcher -> Prop :=
| hm_all m : (match m with MSetScope _ _ | MUser _ _ _ _ | MCatch _ _ | MMap _ (MapUser _) => False | _ => True end) ->
    (forall x, In x (parts m) -> home x) -> home m.
Definition home_scope (s : sid) (st : state) : Prop :=
  forall sc n m, In sc (stack_of st s) -> In (n, VMatcher m) sc -> home m.
(* all other scope contexts are what they were *)
Definition elsewhere (s : sid) (st st' : state) : Prop :=
  List.length (st_scopes st') = List.length (st_scopes st) /\
  forall s', s' <> s -> stack_of st' s' = stack_of st s'.

(* ---------- compiled scripts ---------- *)

(* a grammar that makes no errors, whatever the names *)
Definition blameless (Sc : sid -> Prop) (m : matcher) : Prop := speaks (fun _ => True) False Sc m.
Definition blameless_scopes (Sc : sid -> Prop) (st : state) : Prop := scopes_speak (fun _ => True) False Sc st.
(* scope contexts are only added *)
Definition added (st st' : state) : Prop :=
  (next_sid st <= next_sid st')%nat /\ forall s, (s < next_sid st)%nat -> stack_of st' s = stack_of st s.
(* a compiled script with its own scope context and those of the scripts it imports *)
Definition self_contained (st : state) (m : matcher) (sc : sid) (st' : state) : Prop :=
  exists Sc : sid -> Prop, Sc sc /\ (forall s, Sc s -> (next_sid st <= s < next_sid st')%nat) /\
    blameless_scopes Sc st' /\ blameless Sc m.
