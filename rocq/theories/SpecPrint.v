(* What comparing tokens, their methods and their printed text should be
   (C70-C72). *)
From Verif Require Export Spec TokenOps.
Open Scope string_scope.
Open Scope list_scope.
Open Scope N_scope.

(* ---------- comparing ---------- *)

(* what two tokens that compare equal have in common *)
Definition same_place (t u : token) : Prop :=
  tk_name t = tk_name u /\ tk_cr t = tk_cr u /\ tk_mr t = tk_mr u.

(* results of the same form, with tokens that have the same name and place *)
Inductive same_success (st1 st2 : state) : success -> success -> Prop :=
| ss_token a b : same_place (tok st1 a) (tok st2 b) -> same_success st1 st2 (SToken a) (SToken b)
| ss_proxy a b : same_place (tok st1 a) (tok st2 b) -> same_success st1 st2 (SProxy a) (SProxy b)
| ss_skip z : same_success st1 st2 (SSkip z) (SSkip z)
| ss_break n x y : same_success st1 st2 x y -> same_success st1 st2 (SBreak n x) (SBreak n y)
| ss_continue n x y : same_success st1 st2 x y -> same_success st1 st2 (SContinue n x) (SContinue n y)
| ss_none : same_success st1 st2 SNone SNone
| ss_stop : same_success st1 st2 SStop SStop.
Inductive same_result (st1 st2 : state) : mres -> mres -> Prop :=
| sr_ok x y : same_success st1 st2 x y -> same_result st1 st2 (Ok x) (Ok y)
| sr_err e : same_result st1 st2 (Err e) (Err e).

(* ---------- parents ---------- *)

(* a token's parent is older than it (but not older than [h]) *)
Definition lineage (h : nat) (st : state) : Prop :=
  forall a p, (h <= a < heap_size st)%nat -> tk_parent (tok st a) = Some p -> (h <= p < a)%nat.
(* user code that keeps it so *)
Definition filial (E : env) : Prop :=
  forall h st, (h <= heap_size st)%nat -> forest h st -> lineage h st ->
  (forall k a c s r st', (h <= a < heap_size st)%nat ->
     e_map_ok E k a c s st = Ret r st' -> lineage h st') /\
  (forall k e c s r st', e_map_err E k e c s st = Ret r st' -> lineage h st') /\
  (forall k e c r st', e_catch E k e c st = Ret r st' -> lineage h st') /\
  (forall k c s r st', e_user E k c s st = Ret r st' -> lineage h st').

(* [a] has [n] ancestors *)
Inductive ancestors (st : state) : addr -> nat -> Prop :=
| an_none a : tk_parent (tok st a) = None -> ancestors st a 0
| an_some a p n : tk_parent (tok st a) = Some p -> ancestors st p n -> ancestors st a (S n).

(* ---------- a token and its source ---------- *)

(* the texts a token carries are those of its ranges (pin tokens, which no
   program takes up, may be out of date) *)
Definition truthful (P : parser) (t : token) : Prop :=
  tk_kind t = KStandard -> tk_cvalue t = range_text P (tk_cr t) /\ tk_mvalue t = range_text P (tk_mr t).
Definition truth (P : parser) (h : nat) (st : state) : Prop :=
  forall a, (h <= a < heap_size st)%nat -> truthful P (tok st a).
(* user code that keeps it so *)
Definition honest (E : env) (P : parser) : Prop :=
  forall h st, (h <= heap_size st)%nat -> forest h st -> truth P h st ->
  (forall k a c s r st', (h <= a < heap_size st)%nat ->
     e_map_ok E k a c s st = Ret r st' -> truth P h st') /\
  (forall k e c s r st', e_map_err E k e c s st = Ret r st' -> truth P h st') /\
  (forall k e c r st', e_catch E k e c st = Ret r st' -> truth P h st') /\
  (forall k c s r st', e_user E k c s st = Ret r st' -> truth P h st').

(* ---------- text ---------- *)

(* no line break in it *)
Definition one_line (s : str) : Prop := ~ In LF s.

Definition Prints (attrs : list (str * str) -> str) (st : state) (a : addr) (text : str) : Prop :=
  exists fuel, show_token fuel attrs st a = Some text.

(* lines and the text they make *)
Fixpoint lines (s : str) : list str :=
  match s with
  | [] => [[]]
  | c :: s' =>
      if Ascii.eqb c LF then [] :: lines s'
      else match lines s' with l :: ls => (c :: l) :: ls | [] => [[c]] end
  end.
Fixpoint unlines (l : list str) : str :=
  match l with
  | [] => []
  | [x] => x
  | x :: l' => x ++ LF :: unlines l'
  end.

Definition spaces (n : nat) : str := repeat " "%char n.
(* a piece of text that starts in column [first]; its further lines, if any,
   are moved to the right by [more] *)
Definition placed (first more : nat) (text : str) : list str :=
  match lines text with
  | l :: ls => (spaces first ++ l) :: map (app (spaces more)) ls
  | [] => []
  end.
Definition pair_text (r : range) : str := lit "(" ++ dec (rs r) ++ lit ", " ++ dec (re r) ++ lit "),".

Section Printed.
  Variables (attrs : list (str * str) -> str) (st : state).

  (* [n] ancestors, inside of [d] other tokens: everything but the children *)
  Definition entry (n d : nat) (t : token) : list str :=
    let field := placed (2 * n + 2 * d + 2) (2 * d) in
    placed (2 * n + 2 * d) (2 * d) (tk_name t ++ lit "(") ++
    field (lit "ValueRange" ++ pair_text (tk_cr t)) ++
    field (lit "RawRange" ++ pair_text (tk_mr t)) ++
    field (lit "Value(" ++ get_value t ++ lit "),") ++
    field (lit "RawValue(" ++ get_mvalue t ++ lit "),") ++
    field (lit "Parent(" ++ match tk_parent t with Some p => tk_name (tok st p) | None => lit "None" end ++ lit "),") ++
    field (lit "Attributes " ++ attrs (tk_attrs t)).

  (* the lines of the token [a], printed inside of [d] other tokens *)
  Inductive printed : nat -> addr -> list str -> Prop :=
  | pr_leaf d a n :
      ancestors st a n -> tk_kids (tok st a) = [] ->
      printed d a (entry n d (tok st a) ++ [spaces (2 * n + 2 * d + 2) ++ lit "Children [],"])
  | pr_node d a n ls :
      ancestors st a n -> printed_kids (2 * n + 2 * d) (S d) (tk_kids (tok st a)) ls ->
      printed d a (entry n d (tok st a) ++ [spaces (2 * n + 2 * d + 2) ++ lit "Children ["] ++ ls)
  (* the lines of children inside of [d] tokens, the last of which is in
     column [col] *)
  with printed_kids : nat -> nat -> list addr -> list str -> Prop :=
  | pk_last col d k ls :
      printed d k ls ->
      printed_kids col d [k] (ls ++ [spaces (col + 4) ++ lit "),"; spaces (col + 2) ++ lit "],"])
  | pk_more col d k kids ls more :
      printed d k ls -> kids <> [] -> printed_kids col d kids more ->
      printed_kids col d (k :: kids) (ls ++ [spaces (col + 4) ++ lit "),"; spaces (col + 2)] ++ more).
End Printed.

(* [a] is [d] generations below [root] *)
Inductive at_depth (st : state) (root : addr) : nat -> addr -> Prop :=
| ad_root : at_depth st root 0 root
| ad_kid d a k : at_depth st root d a -> In k (tk_kids (tok st a)) -> at_depth st root (S d) k.
(* every child knows its parent *)
Definition kin_known (st : state) (root : addr) : Prop :=
  forall d a k, at_depth st root d a -> In k (tk_kids (tok st a)) -> tk_parent (tok st k) = Some a.
