(* Vocabulary for matching inside a window of a larger source. *)
From Verif Require Import Exec Spec SpecMore.
Open Scope string_scope.
Open Scope list_scope.
Open Scope N_scope.

(* the same range, token and context [d] bytes further on *)
Definition shifted_range (d : N) (r : range) : range := mkR (rs r + d) (re r + d).
Definition shifted_token (d : N) (t : token) : token :=
  mkTok (tk_kind t) (shifted_range d (tk_cr t)) (shifted_range d (tk_mr t)) (tk_name t) (tk_value t)
        (tk_cvalue t) (tk_mvalue t) (tk_parent t) (tk_kids t) (tk_attrs t) (tk_flags t).
Definition shifted_ctx (d : N) (c : ctx) : ctx :=
  mkCtx (c_debug c) (c_scope c) (c_stack c) (shifted_range d (c_off c)) (c_name c).

(* the values of a token that tell where it is *)
Definition places : list str :=
  [lit "start"; lit "end"; lit "captured_start"; lit "captured_end"; lit "range"; lit "captured_range"].

(* a string argument that does not ask for a position *)
Definition placeless (f : fetchable) : Prop :=
  match f with
  | FFetch n => forall x sub, n = x ++ lit "." ++ sub -> ~ In sub places
  | _ => True
  end.

(* matchers that neither run user code, nor make errors (whose text holds line
   and column numbers), nor use positions as values *)
Definition own_local (m : matcher) : Prop :=
  match m with
  | MEquals p _ _ => placeless p
  | MMatches f _ _ => sane_find f
  | MSequence x y z _ _ => placeless x /\ placeless y /\ placeless z
  | MRef t _ _ => placeless t
  | MMap _ (MapAttrs _) | MMap _ (MapRename _) => True
  | MMap _ _ | MPanic _ | MErrorP _ | MCatch _ _ | MPin _ _ _ _ | MUser _ _ _ _ => False
  | _ => True
  end.
Inductive local : matcher -> Prop :=
| lo_all m : own_local m -> (forall x, In x (parts m) -> local x) -> local m.
Definition scopes_local (st : state) : Prop :=
  forall stack sc n m, In stack (st_scopes st) -> In sc stack -> In (n, VMatcher m) sc -> local m.

(* the token of a result *)
Fixpoint bears (x : success) (a : addr) : Prop :=
  match x with
  | SToken b | SProxy b => a = b
  | SBreak _ p | SContinue _ p => bears p a
  | _ => False
  end.

(* the trees of the result are the same, [d] bytes further on, and the variables
   have the same values *)
Definition same_but_shifted (d : N) (r : mres) (st st' : state) : Prop :=
  st_scopes st' = st_scopes st /\
  forall x a l, r = Ok x -> bears x a -> preorder st [a] l ->
    preorder st' [a] l /\ forall b, In b l -> tok st' b = shifted_token d (tok st b).
