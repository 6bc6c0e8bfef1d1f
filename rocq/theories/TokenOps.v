(* Token methods that the engine itself does not call, comparing tokens and
   results, and the text of a token for people to read. *)
From Verif Require Export ScriptBuild Tokenize.
Open Scope string_scope.
Open Scope list_scope.
Open Scope N_scope.

(* ---------- comparing ---------- *)

(* src/source_range.rs:5, derived PartialEq *)
Definition range_eqb (r q : range) : bool := (rs r =? rs q) && (re r =? re q).

(* src/token.rs:108-114, PartialEq of tokens *)
Definition token_eqb (t u : token) : bool :=
  str_eqb (tk_name t) (tk_name u) && range_eqb (tk_cr t) (tk_cr u) && range_eqb (tk_mr t) (tk_mr u).

(* src/parse_error.rs:3, derived PartialEq *)
Definition parse_error_eqb (e f : parse_error) : bool :=
  str_eqb (pe_msg e) (pe_msg f) &&
  match pe_range e, pe_range f with
  | Some r, Some q => range_eqb r q
  | None, None => true
  | _, _ => false
  end.

(* src/matcher.rs:10, derived PartialEq of MatcherSuccess.  A TokenRef is
   compared through Rc and RefCell by what it refers to; the two results may
   come from different stores. *)
Fixpoint success_eqb (st1 st2 : state) (x y : success) : bool :=
  match x, y with
  | SToken a, SToken b | SProxy a, SProxy b => token_eqb (tok st1 a) (tok st2 b)
  | SSkip z, SSkip w => (z =? w)%Z
  | SBreak n x, SBreak k y | SContinue n x, SContinue k y => str_eqb n k && success_eqb st1 st2 x y
  | SNone, SNone | SStop, SStop => true
  | _, _ => false
  end.

(* src/matcher.rs:21, derived PartialEq of MatcherFailure *)
Definition failure_eqb (e f : failure) : bool :=
  match e, f with
  | FFail, FFail => true
  | FError e, FError f => parse_error_eqb e f
  | _, _ => false
  end.

(* PartialEq of Result<MatcherSuccess, MatcherFailure> *)
Definition mres_eqb (st1 st2 : state) (r q : mres) : bool :=
  match r, q with
  | Ok x, Ok y => success_eqb st1 st2 x y
  | Err e, Err f => failure_eqb e f
  | _, _ => false
  end.

(* ---------- attributes, values, flags, children ---------- *)

(* src/token.rs:149-154 *)
Definition has_attribute (k : str) (t : token) : bool :=
  match get_attr k t with Some _ => true | None => false end.

(* adextopa_macros/src/lib.rs:131-136 *)
Definition attribute_equals (k v : str) (t : token) : bool :=
  match get_attr k t with Some w => str_eqb w v | None => false end.

(* adextopa_macros/src/lib.rs:138-140: HashMap::insert returns the old value *)
Definition set_attribute (k v : str) (t : token) : option str * token := (get_attr k t, set_attr k v t).

(* adextopa_macros/src/lib.rs:111-113, 119-121 *)
Definition set_cvalue (v : str) (t : token) : token :=
  mkTok (tk_kind t) (tk_cr t) (tk_mr t) (tk_name t) (tk_value t) v
        (tk_mvalue t) (tk_parent t) (tk_kids t) (tk_attrs t) (tk_flags t).
Definition set_mvalue (v : str) (t : token) : token :=
  mkTok (tk_kind t) (tk_cr t) (tk_mr t) (tk_name t) (tk_value t) (tk_cvalue t)
        v (tk_parent t) (tk_kids t) (tk_attrs t) (tk_flags t).

(* adextopa_macros/src/lib.rs:146-148 *)
Definition set_flags (f : N) (t : token) : token :=
  mkTok (tk_kind t) (tk_cr t) (tk_mr t) (tk_name t) (tk_value t) (tk_cvalue t)
        (tk_mvalue t) (tk_parent t) (tk_kids t) (tk_attrs t) f.

(* adextopa_macros/src/lib.rs:154-156: `flags & !f` on u8 *)
Definition disable_flags (f : N) (t : token) : token :=
  set_flags (N.land (tk_flags t) (N.lxor f 255)) t.

(* adextopa_macros/src/lib.rs:158-160 *)
Definition flags_enabled (f : N) (t : token) : bool := negb (N.land (tk_flags t) f =? 0).

(* adextopa_macros/src/lib.rs:80-82 *)
Definition add_child (a : addr) (t : token) : token := set_kids (tk_kids t ++ [a]) t.

(* src/token.rs:171-186; Regex::is_match is whether there is a match *)
Definition find_child_fuzzy (st : state) (t : token) (r : finder) : option addr :=
  find (fun a => match r (tk_name (tok st a)) with Some _ => true | None => false end) (tk_kids t).

(* ---------- text ---------- *)

(* src/source_range.rs:36-40 *)
Definition show_range (r : range) : str := lit "[" ++ dec (rs r) ++ lit "-" ++ dec (re r) ++ lit "]".

(* src/token.rs:18-28 *)
Definition parent_name (st : state) (t : token) : str :=
  match tk_parent t with Some p => tk_name (tok st p) | None => lit "None" end.

Definition tab : str := lit "  ".
(* src/token.rs:30-51: one tab, and one for every ancestor.  [None]: the chain
   of parents has more than [fuel] members (the Rust loop is still running). *)
Fixpoint parent_tabs (fuel : nat) (st : state) (p : option addr) : option str :=
  match p with
  | None => Some []
  | Some a =>
      match fuel with
      | O => None
      | S f => option_map (app tab) (parent_tabs f st (tk_parent (tok st a)))
      end
  end.
Definition tab_depth (fuel : nat) (st : state) (t : token) : option str :=
  option_map (app tab) (parent_tabs fuel st (tk_parent t)).

(* `.replace("\n", "\n  ")` at src/token.rs:89 *)
Fixpoint indent_lines (s : str) : str :=
  match s with
  | [] => []
  | c :: s' => if Ascii.eqb c LF then LF :: tab ++ indent_lines s' else c :: indent_lines s'
  end.

(* the start of the text, src/token.rs:58-79.  The text of the attributes, a
   HashMap in unspecified order, is given by [attrs]. *)
Definition token_head (attrs : list (str * str) -> str) (st : state) (tabs : str) (t : token) : str :=
  skipn 2 tabs ++ tk_name t ++ lit "(" ++ [LF] ++
  tabs ++ lit "ValueRange(" ++ dec (rs (tk_cr t)) ++ lit ", " ++ dec (re (tk_cr t)) ++ lit ")," ++ [LF] ++
  tabs ++ lit "RawRange(" ++ dec (rs (tk_mr t)) ++ lit ", " ++ dec (re (tk_mr t)) ++ lit ")," ++ [LF] ++
  tabs ++ lit "Value(" ++ get_value t ++ lit ")," ++ [LF] ++
  tabs ++ lit "RawValue(" ++ get_mvalue t ++ lit ")," ++ [LF] ++
  tabs ++ lit "Parent(" ++ parent_name st t ++ lit ")," ++ [LF] ++
  tabs ++ lit "Attributes " ++ attrs (tk_attrs t) ++ [LF] ++
  tabs ++ lit "Children [".

(* src/token.rs:53-100, Debug (and Display, 102-106) of a token.  [fuel] bounds
   the depth of the tree and the length of the chains of parents. *)
Fixpoint show_token (fuel : nat) (attrs : list (str * str) -> str) (st : state) (a : addr) : option str :=
  match fuel with
  | O => None
  | S f =>
      let t := tok st a in
      match tab_depth f st t with
      | None => None
      | Some tabs =>
          option_map (fun s => s ++ lit "],")
            (fold_left (fun o k => match o, show_token f attrs st k with
                                   | Some s, Some child =>
                                       Some (s ++ indent_lines (LF :: child) ++
                                             [LF] ++ (tabs ++ tab) ++ lit ")," ++ [LF] ++ tabs)
                                   | _, _ => None
                                   end)
                       (tk_kids t) (Some (token_head attrs st tabs t)))
      end
  end.
