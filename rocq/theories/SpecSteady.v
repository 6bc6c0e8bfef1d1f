(* When scripts make something of every text: references do not lead in
   circles without anything being taken on the way. *)
From Verif Require Import ScriptBuild Spec SpecScript SpecSyntax SpecMatch.
Open Scope string_scope.
Open Scope list_scope.
Open Scope N_scope.

(* how far references may go: to names below a number, or to all *)
Definition below (level : option nat) (n : nat) : Prop := match level with Some m => (n < m)%nat | None => True end.
(* a regular expression does not match more than there is *)
Definition moderate (f : finder) : Prop := forall w n, f w = Some (0, n) -> n <= slen w.

Section Steady.
  (* a number for each name, and which names never pass without taking anything *)
  Variables (rank : str -> nat) (firm : str -> bool).

  Definition firm_core (k : core pat) : Prop :=
    match k with
    | KName id => firm id = true
    | KRegex _ _ (Some f) => forall w, f w <> Some (0, 0)
    | KRegex _ _ None => False
    | _ => True
    end.
  Definition firm_layers (o i : sign) (k : core pat) (r : repetition) : Prop :=
    o = Unsigned /\
    match bounds r with
    | None => i = Unsigned /\ firm_core k
    | Some (lo, hi) => 0 < lo \/ lo < hi
    end.
  Definition firm_pat (p : pat) : Prop := let (_, o, i, k, _, r) := p in firm_layers o i k r.

  (* [steady level p]: all references of [p] are below [level], but for those
     that come after something has been taken *)
  Inductive steady : option nat -> pat -> Prop :=
  | sy_pat level c o i k l r : steady_core level k ->
      (forall n, c = CapturedAs n -> notable "Name" k) -> steady level (Pat c o i k l r)
  with steady_core : option nat -> core pat -> Prop :=
  | sy_text level v : v <> [] -> steady_core level (KText v)
  | sy_sequence level a b x : a <> [] -> b <> [] -> steady_core level (KSequence a b x)
  | sy_regex level body flags f : moderate f -> steady_core level (KRegex body flags (Some f))
  | sy_name level id : below level (rank id) -> steady_core level (KName id)
  | sy_switch level ps : steady_each level ps -> steady_core level (KSwitch ps)
  | sy_program level ps : steady_all level ps -> steady_core level (KProgram ps)
  (* alternatives, all at one place *)
  with steady_each : option nat -> list pat -> Prop :=
  | se_nil level : steady_each level []
  | se_cons level p ps : steady level p -> steady_each level ps -> steady_each level (p :: ps)
  (* one after the other *)
  with steady_all : option nat -> list pat -> Prop :=
  | sa_nil level : steady_all level []
  | sa_cons level p ps : steady level p -> steady_all level ps -> steady_all level (p :: ps)
  | sa_firm level p ps : steady level p -> firm_pat p -> steady_all None ps -> steady_all level (p :: ps)
  (* what makes itself known under a name *)
  with notable : str -> core pat -> Prop :=
  | nb_core x k : steady_core (Some (rank x)) k -> (firm x = true -> firm_core k) -> notable x k.

  (* a definition and the patterns of a script *)
  Definition steady_statement (d : statement) : Prop :=
    match d with
    | Alias x whole => (rank whole < rank x)%nat /\ (firm x = true -> firm whole = true)
    | Define x o i k l r => notable x k /\ (firm x = true -> firm_layers o i k r)
    | Import _ _ => True
    end.
End Steady.
Scheme steady_ind2 := Minimality for steady Sort Prop
  with steady_core_ind2 := Minimality for steady_core Sort Prop
  with steady_each_ind2 := Minimality for steady_each Sort Prop
  with steady_all_ind2 := Minimality for steady_all Sort Prop
  with notable_ind2 := Minimality for notable Sort Prop.
Combined Scheme steady_mutind from steady_ind2, steady_core_ind2, steady_each_ind2, steady_all_ind2, notable_ind2.

(* a script without imports *)
Definition steady_script (d : script) : Prop :=
  exists rank firm, Forall (steady_statement rank firm) (s_statements d) /\ steady_all rank firm None (s_patterns d).

(* ---------- patterns that stand for something ---------- *)

Definition sane_core (sub : pat -> Prop) (k : core pat) : Prop :=
  match k with
  | KText v => v <> []
  | KSequence a b _ => a <> [] /\ b <> []
  | KRegex _ _ (Some f) => moderate f
  | KRegex _ _ None => False
  | KName _ => True
  | KSwitch ps | KProgram ps => fold_right (fun p Q => sub p /\ Q) True ps
  end.
Fixpoint sane (p : pat) : Prop := match p with Pat _ _ _ k _ _ => sane_core sane k end.
Fixpoint sane_entry (e : entry) : Prop :=
  match e with
  | Own _ _ _ k _ _ => sane_core sane k
  | Renamed _ e _ => sane_entry e
  | Whole _ _ ps => fold_right (fun p Q => sane p /\ Q) True ps
  end.
Definition sane_book (V : sid -> Prop) (D : book) : Prop := forall s x e, V s -> D s x = Some e -> sane_entry e.
(* so are all regular expressions of scripts *)
Definition measured (E : env) : Prop := forall source f, e_regex E source = Some f -> moderate f.

(* ---------- references in circles ---------- *)

(* What leads to one of the names [R] before anything else is done: a reference
   to it, alternatives or a sequence of which the first leads there. *)
Section Circles.
  Variable R : str -> Prop.
  Definition some_round (r : repetition) : Prop := match bounds r with Some (lo, hi) => lo < hi | None => True end.
  Inductive circles : pat -> Prop :=
  | ci_pat c o i k l r : circles_core k -> some_round r -> circles (Pat c o i k l r)
  with circles_core : core pat -> Prop :=
  | cc_name x : R x -> circles_core (KName x)
  | cc_switch p ps : circles p -> circles_core (KSwitch (p :: ps))
  | cc_program p ps : circles p -> circles_core (KProgram (p :: ps)).
  Definition circles_entry (e : entry) : Prop :=
    match e with Own _ _ _ k _ r => circles_core k /\ some_round r | _ => False end.
End Circles.
(* the first pattern leads to definitions that lead to each other *)
Definition circular_script (d : script) : Prop :=
  exists R : str -> Prop,
    (forall x, R x -> exists e, last_entry x (s_statements d) = Some e /\ circles_entry R e) /\
    match s_patterns d with p :: _ => circles R p | [] => False end.
