(* C70-C73: comparing tokens and results, printing tokens, the methods of
   tokens, and the texts tokens carry.  [same_place], [same_result], [printed],
   [truthful] etc. are in SpecPrint.v; [moved_state] etc. in SpecMore.v. *)
From Verif Require Import TokenProofs LineageProofs TruthProofs Samples MoveProofs.
From Verif Require Import SpecMore.
Open Scope string_scope.
Open Scope list_scope.
Open Scope N_scope.

(* ---------------------------------------------------------------- C70 *)

(* Two results compare equal if and only if they are of the same form, with the
   same numbers, names and errors, and with tokens of the same name and ranges. *)
Theorem C70_compare : forall st1 st2 r q, mres_eqb st1 st2 r q = true <-> same_result st1 st2 r q.
Proof. exact mres_eqb_eq. Qed.
Print Assumptions C70_compare.

Theorem C70_compare_tokens : forall t u, token_eqb t u = true <-> same_place t u.
Proof. exact token_eqb_eq. Qed.
Print Assumptions C70_compare_tokens.

Theorem C70_equivalence :
  (forall st r, mres_eqb st st r r = true) /\
  (forall st1 st2 r q, mres_eqb st1 st2 r q = true -> mres_eqb st2 st1 q r = true) /\
  (forall st1 st2 st3 r q p, mres_eqb st1 st2 r q = true -> mres_eqb st2 st3 q p = true -> mres_eqb st1 st3 r p = true).
Proof. exact mres_equal_equivalence. Qed.
Print Assumptions C70_equivalence.

(* The same grammar run twice, the second time in a store with other contents,
   gives results that compare equal. *)
Theorem C70_same_elsewhere : forall H0 S0 U E E' P m c c' s st r st1,
  movable H0 S0 U E E' -> e_checks E' = e_checks E ->
  calls_only U m -> moved_ctx H0 S0 c c' -> scopes_call_only U st ->
  Runs E P m c s st r st1 ->
  exists r' st1', Runs E' P (moved_matcher S0 m) c' (moved_sid S0 s) (moved_state H0 S0 st) r' st1' /\
    mres_eqb st1 st1' r r' = true.
Proof. exact elsewhere_equal. Qed.
Print Assumptions C70_same_elsewhere.

(* Tokens that compare equal carry the same texts if both come from the same
   source (every token does: C73). *)
Theorem C70_same_texts : forall P t u,
  truthful P t -> truthful P u -> tk_kind t = KStandard -> tk_kind u = KStandard ->
  token_eqb t u = true -> tk_cvalue t = tk_cvalue u /\ tk_mvalue t = tk_mvalue u.
Proof. exact equal_texts. Qed.
Print Assumptions C70_same_texts.

(* But children, values, attributes and flags are not compared: two grammars
   whose results compare equal although one has three tokens and the other two. *)
Theorem C70_children_count_refuted :
  exists m1 m2 st1 st2,
    Runs at_env (at_src "ab") m1 (at_ctx 0 2) 0%nat at_state (Ok (SToken 0%nat)) st1 /\
    Runs at_env (at_src "ab") m2 (at_ctx 0 2) 0%nat at_state (Ok (SToken 0%nat)) st2 /\
    mres_eqb st1 st2 (Ok (SToken 0%nat)) (Ok (SToken 0%nat)) = true /\
    tk_kids (tok st1 0%nat) = [1%nat; 2%nat] /\ tk_kids (tok st2 0%nat) = [1%nat].
Proof.
  exists (Program_ [Equals_ "a"; Equals_ "b"]), (Program_ [Equals_ "ab"]). eexists. eexists.
  split; [exists 3%nat; vm_compute; reflexivity|]. split; [exists 3%nat; vm_compute; reflexivity|].
  vm_compute. repeat split.
Qed.
Print Assumptions C70_children_count_refuted.

Example C70_example :
  match at_run 4 (Program_ [Equals_ "a"; Equals_ "b"]) "abc", at_run 4 (Program_ [Equals_ "a"; Equals_ "b"]) "abd",
        at_run 4 (Program_ [Equals_ "a"]) "abc" with
  | Ret r st, Ret r' st', Ret r'' st'' => mres_eqb st st' r r' = true /\ mres_eqb st st'' r r'' = false
  | _, _, _ => False
  end.
Proof. vm_compute. split; reflexivity. Qed.

(* ---------------------------------------------------------------- C71 *)

(* What is printed for a token: header, ranges, value, raw value, parent,
   attributes and children, each on lines of its own, in the columns given by
   the number of ancestors and the number of tokens around it.  A text is what
   is printed if and only if its lines are these. *)
Theorem C71_text : forall attrs st a text, Prints attrs st a text <-> printed attrs st 0 a (lines text).
Proof. exact prints_lines. Qed.
Print Assumptions C71_text.

Theorem C71_lines : forall s, unlines (lines s) = s.
Proof. exact unlines_lines. Qed.
Print Assumptions C71_lines.

(* Every token of the result of an execution can be printed, whatever is tried
   and given up on the way. *)
Theorem C71_results_print : forall E P m c s st r st' attrs, tame E -> tidy E -> filial E ->
  Runs E P m c s st r st' -> forall a, In a (result_tokens r) -> exists text, Prints attrs st' a text.
Proof. exact runs_print. Qed.
Print Assumptions C71_results_print.

Theorem C71_tokenized_prints : forall E P c m st a st' attrs, tame E -> tidy E -> filial E ->
  Tokenizes E P c m st (TOk a) st' -> exists text, Prints attrs st' a text.
Proof. exact tokenized_print. Qed.
Print Assumptions C71_tokenized_prints.

(* because parents are older than their children, so that nobody is their own
   ancestor *)
Theorem C71_parents_are_older : forall E P m c s st r st', tame E -> filial E ->
  Runs E P m c s st r st' -> lineage (heap_size st) st'.
Proof. exact runs_lineage. Qed.
Print Assumptions C71_parents_are_older.

(* In a tree in which children know their parents, a token [d] generations below
   the root starts in column 4 d. *)
Theorem C71_columns : forall attrs st root d a text,
  Prints attrs st root text -> tk_parent (tok st root) = None ->
  kin_known st root -> at_depth st root d a -> one_line (tk_name (tok st a)) ->
  exists before block after,
    lines text = before ++ ((spaces (4 * d) ++ tk_name (tok st a) ++ lit "(") :: block) ++ after.
Proof. exact header_line. Qed.
Print Assumptions C71_columns.

(* A token that is its own ancestor is never printed. *)
Theorem C71_circle_never_prints : forall attrs st a text, tk_parent (tok st a) = Some a -> ~ Prints attrs st a text.
Proof. exact circle_never_prints. Qed.
Print Assumptions C71_circle_never_prints.

(* [tame at_env] and [tidy at_env] are C19_example_tame and C36_example_tidy *)
Example C71_example_filial : filial at_env.
Proof.
  intros h st Hh Hf Ho. split; [|split; [|split]]; cbn; intros;
    match goal with H : Ret _ _ = Ret _ _ |- _ => injection H as <- <- end; exact Ho.
Qed.
Definition no_attrs (l : list (str * str)) : str := lit "{}".
Example C71_example :
  match at_run 4 (Program_ [Equals_ "a"; Equals_ "b"]) "abc" with
  | Ret _ st => option_map lines (show_token 4 no_attrs st 0%nat) = Some (map lit
      ["Program(";
       "  ValueRange(0, 2),";
       "  RawRange(0, 2),";
       "  Value(ab),";
       "  RawValue(ab),";
       "  Parent(None),";
       "  Attributes {}";
       "  Children [";
       "    Equals(";
       "      ValueRange(0, 1),";
       "      RawRange(0, 1),";
       "      Value(a),";
       "      RawValue(a),";
       "      Parent(Program),";
       "      Attributes {}";
       "      Children [],";
       "    ),";
       "  ";
       "    Equals(";
       "      ValueRange(1, 2),";
       "      RawRange(1, 2),";
       "      Value(b),";
       "      RawValue(b),";
       "      Parent(Program),";
       "      Attributes {}";
       "      Children [],";
       "    ),";
       "  ],"])
  | _ => False
  end.
Proof. vm_compute. reflexivity. Qed.
(* a line break in the text of a child is printed with blanks after it that are
   not in the text *)
Example C71_example_altered :
  match at_run 4 (Program_ [MEquals (FStr ["a"%char; LF; "b"%char]) "Equals" false]) (string_of_list_ascii ["a"%char; LF; "b"%char]) with
  | Ret _ st => option_map (fun s => firstn 3 (skipn 13 (lines s))) (show_token 4 no_attrs st 0%nat)
                = Some (map lit ["      Value(a"; "  b),"; "      RawValue(a"])
  | _ => False
  end.
Proof. vm_compute. reflexivity. Qed.

(* ---------------------------------------------------------------- C72 *)

(* set_attribute returns the old value and changes nothing but that attribute *)
Theorem C72_set_attribute : forall k v t, let (old, t') := set_attribute k v t in
  old = get_attr k t /\ get_attr k t' = Some v /\ (forall k', k' <> k -> get_attr k' t' = get_attr k' t) /\
  tk_kind t' = tk_kind t /\ tk_cr t' = tk_cr t /\ tk_mr t' = tk_mr t /\ tk_name t' = tk_name t /\
  tk_value t' = tk_value t /\ tk_cvalue t' = tk_cvalue t /\ tk_mvalue t' = tk_mvalue t /\
  tk_parent t' = tk_parent t /\ tk_kids t' = tk_kids t /\ tk_flags t' = tk_flags t.
Proof. exact set_attribute_spec. Qed.
Print Assumptions C72_set_attribute.
Theorem C72_has_attribute : forall k t, has_attribute k t = true <-> exists v, get_attr k t = Some v.
Proof. exact has_attribute_iff. Qed.
Print Assumptions C72_has_attribute.
Theorem C72_attribute_equals : forall k v t, attribute_equals k v t = true <-> get_attr k t = Some v.
Proof. exact attribute_equals_iff. Qed.
Print Assumptions C72_attribute_equals.

(* the value is the attribute `__value`, or else what was set, or else what was
   captured; setting the empty text takes back what was set *)
Theorem C72_value : forall t v, get_value t = v <->
  match get_attr "__value" t, tk_value t with
  | Some w, _ => v = w
  | None, Some w => v = w
  | None, None => v = tk_cvalue t
  end.
Proof. exact get_value_spec. Qed.
Print Assumptions C72_value.
Theorem C72_set_value : forall v t, get_attr "__value" t = None ->
  get_value (set_value v t) = match v with [] => tk_cvalue t | _ => v end.
Proof. exact set_value_spec. Qed.
Print Assumptions C72_set_value.
Theorem C72_set_value_hidden : forall v w t, get_attr "__value" t = Some w -> get_value (set_value v t) = w.
Proof. exact set_value_hidden. Qed.
Print Assumptions C72_set_value_hidden.
(* so there is a token to which a value is given that it does not return *)
Theorem C72_set_value_refuted : exists v t, get_value (set_value v t) <> v /\ get_attr "__value" t = None.
Proof. exists [], (std_token (at_src "a") "T" (mkR 0 1)). split; [vm_compute; discriminate|reflexivity]. Qed.
Print Assumptions C72_set_value_refuted.

(* flags are sets of bits; asking for several asks whether one of them is set *)
Theorem C72_enable : forall f t i,
  N.testbit (tk_flags (enable_flags f t)) i = N.testbit (tk_flags t) i || N.testbit f i.
Proof. exact enable_bits. Qed.
Print Assumptions C72_enable.
Theorem C72_disable : forall f t i, tk_flags t < 256 -> f < 256 ->
  N.testbit (tk_flags (disable_flags f t)) i = N.testbit (tk_flags t) i && negb (N.testbit f i).
Proof. exact disable_bits. Qed.
Print Assumptions C72_disable.
Theorem C72_enabled : forall f t,
  flags_enabled f t = true <-> exists i, N.testbit (tk_flags t) i = true /\ N.testbit f i = true.
Proof. exact flags_enabled_iff. Qed.
Print Assumptions C72_enabled.
Theorem C72_flags_fit : forall f g t, tk_flags t < 256 -> f < 256 -> g < 256 ->
  tk_flags (enable_flags f t) < 256 /\ tk_flags (disable_flags f t) < 256 /\ tk_flags (set_flags g t) < 256.
Proof. exact flags_small. Qed.
Print Assumptions C72_flags_fit.

(* children are found by name, the first one first *)
Theorem C72_find_child : forall st t name a, find_child st t name = Some a <->
  exists x y, tk_kids t = x ++ a :: y /\ tk_name (tok st a) = name /\ forall b, In b x -> tk_name (tok st b) <> name.
Proof. exact find_child_iff. Qed.
Print Assumptions C72_find_child.
Theorem C72_has_child : forall st t name,
  has_child st t name = true <-> exists a, In a (tk_kids t) /\ tk_name (tok st a) = name.
Proof. exact has_child_iff. Qed.
Print Assumptions C72_has_child.
Theorem C72_find_fuzzy : forall st t r a, find_child_fuzzy st t r = Some a <->
  exists x y, tk_kids t = x ++ a :: y /\ (exists p, r (tk_name (tok st a)) = Some p) /\
    forall b, In b x -> r (tk_name (tok st b)) = None.
Proof. exact find_fuzzy_iff. Qed.
Print Assumptions C72_find_fuzzy.
(* The compiler of scripts looks for children with regular expressions of the
   form `^(a|b|...)$`; its model looks for one of these names. *)
Theorem C72_find_among : forall st t names r,
  (forall s, (exists p, r s = Some p) <-> exists n, In n names /\ s = lit n) ->
  find_child_among st t names = find_child_fuzzy st t r.
Proof. exact find_among_fuzzy. Qed.
Print Assumptions C72_find_among.
Theorem C72_add_child : forall st a t name, tk_kids (add_child a t) = tk_kids t ++ [a] /\
  find_child st (add_child a t) name =
    match find_child st t name with
    | Some b => Some b
    | None => if str_eqb (tk_name (tok st a)) name then Some a else None
    end.
Proof. exact add_child_spec. Qed.
Print Assumptions C72_add_child.

(* Setting one of the texts changes nothing else, not even the ranges. *)
Theorem C72_set_texts : forall v t,
  tk_cvalue (set_cvalue v t) = v /\ tk_mvalue (set_cvalue v t) = tk_mvalue t /\
  tk_mvalue (set_mvalue v t) = v /\ tk_cvalue (set_mvalue v t) = tk_cvalue t /\
  forall u, u = set_cvalue v t \/ u = set_mvalue v t ->
  tk_kind u = tk_kind t /\ tk_cr u = tk_cr t /\ tk_mr u = tk_mr t /\ tk_name u = tk_name t /\
  tk_value u = tk_value t /\ tk_parent u = tk_parent t /\ tk_kids u = tk_kids t /\
  tk_attrs u = tk_attrs t /\ tk_flags u = tk_flags t.
Proof. exact set_texts_spec. Qed.
Print Assumptions C72_set_texts.

(* A range is shown as its ends in decimal. *)
Theorem C72_show_range : forall r, exists x y,
  decimal (rs r) x /\ decimal (re r) y /\ show_range r = lit "[" ++ x ++ lit "-" ++ y ++ lit "]".
Proof. exact show_range_spec. Qed.
Print Assumptions C72_show_range.
Example C72_example_range : show_range (mkR 0 10) = lit "[0-10]".
Proof. reflexivity. Qed.

Example C72_example :
  match at_run 4 (Program_ [Equals_ "a"; Equals_ "b"; Equals_ "c"]) "abc" with
  | Ret _ st =>
      let t := snd (set_attribute "k" "v" (set_value "x" (tok st 0%nat))) in
      get_attr "k" t = Some (lit "v") /\ get_value t = lit "x" /\ get_value (set_value [] t) = lit "abc" /\
      flags_enabled 6 (enable_flags IS_ERROR t) = true /\ flags_enabled IS_ERROR (disable_flags 6 (enable_flags IS_ERROR t)) = false /\
      find_child st t "Equals" = Some 1%nat /\ has_child st t "Program" = false /\
      find_child_fuzzy st t (fun s => if str_eqb s "Equals" then Some (0, 6) else None) = Some 1%nat
  | _ => False
  end.
Proof. vm_compute. repeat split. Qed.

(* ---------------------------------------------------------------- C73 *)

(* In any execution, every token returned and every token below it carries the
   texts that belong to its ranges. *)
Theorem C73_texts_follow_ranges : forall E P m c s st r st', tame E -> honest E P -> Runs E P m c s st r st' ->
  forall a l x, In a (result_tokens r) -> preorder st' [a] l -> In x l -> truthful P (tok st' x).
Proof. exact runs_truthful. Qed.
Print Assumptions C73_texts_follow_ranges.

(* On an ASCII source these are exactly what is in the source between the ends of
   the ranges (for matchers and windows as in C45). *)
Theorem C73_texts_are_source : forall E P m c st, tame E -> honest E P ->
  fitting (p_src P) (fun _ => True) (fun _ => True) sane_find E -> slen (p_src P) < isize_bound ->
  bounded (fun _ => True) sane_find m -> scopes_bounded (fun _ => True) sane_find st ->
  rs (c_off c) <= re (c_off c) <= slen (p_src P) -> ascii_only (p_src P) ->
  forall s r st', Runs E P m c s st r st' ->
  forall a l x, In a (result_tokens r) -> preorder st' [a] l -> In x l -> tk_kind (tok st' x) = KStandard ->
  window (p_src P) (rs (tk_cr (tok st' x))) (re (tk_cr (tok st' x))) (tk_cvalue (tok st' x)) /\
  window (p_src P) (rs (tk_mr (tok st' x))) (re (tk_mr (tok st' x))) (tk_mvalue (tok st' x)).
Proof. exact runs_texts. Qed.
Print Assumptions C73_texts_are_source.

Theorem C73_tokenized : forall E P m c st, tame E -> honest E P ->
  fitting (p_src P) (fun _ => True) (fun _ => True) sane_find E -> slen (p_src P) < isize_bound ->
  bounded (fun _ => True) sane_find m -> scopes_bounded (fun _ => True) sane_find st ->
  rs (c_off c) <= re (c_off c) <= slen (p_src P) -> ascii_only (p_src P) ->
  forall a st', tidy E -> Tokenizes E P c m st (TOk a) st' ->
  forall l x, preorder st' [a] l -> In x l -> tk_kind (tok st' x) = KStandard ->
  window (p_src P) (rs (tk_cr (tok st' x))) (re (tk_cr (tok st' x))) (tk_cvalue (tok st' x)) /\
  window (p_src P) (rs (tk_mr (tok st' x))) (re (tk_mr (tok st' x))) (tk_mvalue (tok st' x)).
Proof. exact tokenized_texts. Qed.
Print Assumptions C73_tokenized.

(* [fitting] holds of at_env (C45_example_env), [bounded] of its sample
   (C45_example_bounded) *)
Example C73_example_honest : forall P, honest at_env P.
Proof.
  intros P h st Hh Hf Ho. split; [|split; [|split]]; cbn; intros;
    match goal with H : Ret _ _ = Ret _ _ |- _ => injection H as <- <- end; exact Ho.
Qed.
Example C73_example :
  match at_run 6 (Program_ [Equals_ "let"; Loop_ [Equals_ "a"; Equals_ "b"]; Sequence_ "<" ">" "\"]) "letabab<x\>>!" with
  | Ret r st => map (fun a => (tk_name (tok st a), tk_cvalue (tok st a), tk_mvalue (tok st a))) (0 :: tk_kids (tok st 0))%nat =
      [(lit "Program", lit "letabab<x\>", lit "letabab<x\>>"); (lit "Equals", lit "let", lit "let");
       (lit "Loop", lit "abab", lit "abab"); (lit "Sequence", lit "x\>", lit "<x\>>")]
  | _ => False
  end.
Proof. vm_compute. reflexivity. Qed.
