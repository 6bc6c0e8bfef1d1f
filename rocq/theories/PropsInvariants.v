(* Invariants of whole runs: ranges and order (C45, C46). *)
From Verif Require Import Utf8Proofs Samples.
Open Scope string_scope.
Open Scope list_scope.
Open Scope N_scope.

(* ---------------------------------------------------------------- C45 *)

(* any text, any regular expressions that answer within the text *)
Theorem C45_ranges : forall E P m c s st r st', tame E ->
  fitting (p_src P) (fun _ => True) (fun _ => True) sane_find E -> slen (p_src P) < isize_bound ->
  bounded (fun _ => True) sane_find m -> scopes_bounded (fun _ => True) sane_find st ->
  rs (c_off c) <= re (c_off c) <= slen (p_src P) ->
  Runs E P m c s st r st' ->
  forall a, In a (result_tokens r) -> exists l, preorder st' [a] l /\ forall x, In x l ->
    rs (c_off c) <= rs (tk_mr (tok st' x)) /\ rs (tk_mr (tok st' x)) <= rs (tk_cr (tok st' x)) /\
    rs (tk_cr (tok st' x)) <= re (tk_cr (tok st' x)) /\ re (tk_cr (tok st' x)) <= re (tk_mr (tok st' x)) /\
    re (tk_mr (tok st' x)) <= re (c_off c).
Proof. exact ranges_any. Qed.
Print Assumptions C45_ranges.

(* UTF-8 text and literals *)
Theorem C45_boundaries : forall E P m c s st r st', tame E -> utf8 (p_src P) ->
  fitting (p_src P) (char_boundary (p_src P)) utf8 utf8_find E -> slen (p_src P) < isize_bound ->
  bounded utf8 utf8_find m -> scopes_bounded utf8 utf8_find st ->
  sliceable (p_src P) (c_off c) ->
  Runs E P m c s st r st' ->
  result_fits (char_boundary (p_src P)) (rs (c_off c)) (re (c_off c)) st' r /\
  forall a, In a (result_tokens r) -> exists l, preorder st' [a] l /\ forall x, In x l ->
    sliceable (p_src P) (tk_mr (tok st' x)) /\ sliceable (p_src P) (tk_cr (tok st' x)).
Proof. exact ranges_utf8. Qed.
Print Assumptions C45_boundaries.

(* the regular expressions of the script grammar and of the unit tests are of
   the kind assumed above *)
Theorem C45_regexes : forall r, sane_find (re_find r) /\ utf8_find (re_find r).
Proof. exact re_find_both. Qed.
Print Assumptions C45_regexes.

Example C45_example_env : forall P pos okstr okfind, fitting (p_src P) pos okstr okfind at_env.
Proof.
  intros P pos okstr okfind c st Hc Hs. cbn zeta. split; [|split; [|split]].
  - intros k a s r st' Ha H. injection H as <- <-. now split.
  - intros k e s r st' H. injection H as <- <-. now split.
  - intros k e r st' H. injection H as <- <-. now split.
  - intros k s r st' H. injection H as <- <-. now split.
Qed.

(* a Program of a literal, a regular expression, a loop and a sequence *)
Definition C45_sample : matcher :=
  Program_ [Equals_ "let"; MDiscard (MMatches (re_find [plus (ch " ")]) "Matches" false);
            Loop_ [Equals_ "a"; Equals_ "b"]; Sequence_ "<" ">" "\"].
Example C45_example_bounded : bounded utf8 utf8_find C45_sample /\ scopes_bounded utf8 utf8_find at_state.
Proof.
  assert (Hu : forall s, forallb (fun x => N_of_ascii x <? 128) s = true -> utf8 s).
  { induction s as [|x s IH]; intros H; [constructor|]. cbn [forallb] in H. apply andb_true_iff in H as [H1 H2].
    apply (utf8_char x [] s); [left; split; [now apply N.ltb_lt|reflexivity]|intros y []|auto]. }
  split.
  - constructor. intros m [<-|[<-|[<-|[<-|[]]]]].
    + constructor. now apply Hu.
    + constructor. constructor. apply re_find_utf8.
    + constructor. intros m [<-|[<-|[]]]; constructor; now apply Hu.
    + constructor; now apply Hu.
  - intros stack sc n m [<-|[]] [<-|[]] [].
Qed.
Example C45_example :
  exists st, at_run 6 C45_sample "let  abab<x>!" = Ret (Ok (SToken 0%nat)) st /\
  map (fun a => (rs (tk_cr (tok st a)), re (tk_cr (tok st a)), rs (tk_mr (tok st a)), re (tk_mr (tok st a)))) [0; 1; 4; 9]%nat
  = [(0, 11, 0, 12); (0, 3, 0, 3); (5, 9, 5, 9); (10, 11, 9, 12)].
Proof. eexists. split; vm_compute; reflexivity. Qed.

(* error tokens are outside these bounds *)
Example C45_example_error :
  exists st, at_run 6 (Program_ [MErrorP "x"; Equals_ "abc"]) "abc" = Ret (Ok (SToken 0%nat)) st /\
  rs (tk_mr (tok st 1%nat)) = usize_max.
Proof. eexists. split; vm_compute; reflexivity. Qed.

(* ---------------------------------------------------------------- C46 *)

Theorem C46_monotone : forall E P m c s st r st', tame E ->
  fitting (p_src P) (fun _ => True) (fun _ => True) sane_find E -> slen (p_src P) < isize_bound ->
  bounded (fun _ => True) sane_find m -> scopes_bounded (fun _ => True) sane_find st ->
  rs (c_off c) <= re (c_off c) <= slen (p_src P) ->
  Runs E P m c s st r st' ->
  (forall a, In a (result_tokens r) ->
     rs (c_off c) <= rs (tk_mr (tok st' a)) /\ rs (tk_mr (tok st' a)) <= re (tk_mr (tok st' a)) /\
     re (tk_mr (tok st' a)) <= re (c_off c)) /\
  (forall z, r = Ok (SSkip z) \/ (exists n, r = Ok (SBreak n (SSkip z)) \/ r = Ok (SContinue n (SSkip z))) ->
     (0 <= z)%Z /\ (Z.of_N (rs (c_off c)) + z <= Z.of_N (re (c_off c)))%Z).
Proof. exact monotone_any. Qed.
Print Assumptions C46_monotone.

(* children come one after the other and lie inside their parent *)
Theorem C46_order : forall E P m c s st r st', tame E ->
  fitting (p_src P) (fun _ => True) (fun _ => True) sane_find E -> slen (p_src P) < isize_bound ->
  bounded (fun _ => True) sane_find m -> scopes_bounded (fun _ => True) sane_find st ->
  rs (c_off c) <= re (c_off c) <= slen (p_src P) ->
  Runs E P m c s st r st' ->
  forall a l x, In a (result_tokens r) -> preorder st' [a] l -> In x l -> kids_fit st' x.
Proof. exact order_any. Qed.
Print Assumptions C46_order.

(* what is proxied goes back to the end of the last child, yet stays in order *)
Example C46_example :
  exists st, at_run 8 (Program_ [MProxy (Program_ [Equals_ "a"; MDiscard (Equals_ "b")]) "P" false; Equals_ "b"; Equals_ "c"]) "abc"
    = Ret (Ok (SToken 0%nat)) st /\
  map (fun a => (rs (tk_mr (tok st a)), re (tk_mr (tok st a)))) (tk_kids (tok st 0%nat)) = [(0, 1); (1, 2); (2, 3)].
Proof. eexists. split; vm_compute; reflexivity. Qed.

(* with a pin the order is lost *)
Example C46_example_pin :
  exists st, at_run 8 (Program_ [Equals_ "abc"; MPin (Some (Equals_ "a")) (FStr "0") "Pin" false]) "abc"
    = Ret (Ok (SToken 0%nat)) st /\
  map (fun a => (rs (tk_mr (tok st a)), re (tk_mr (tok st a)))) (tk_kids (tok st 0%nat)) = [(0, 3); (0, 1)].
Proof. eexists. split; vm_compute; reflexivity. Qed.
