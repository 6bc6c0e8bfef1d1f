(* A script for the examples of PropsLex.v. *)
From Verif Require Import ScriptBuild Spec SpecScript SpecSyntax SpecLex Samples SpecShape SampleShape.
Open Scope string_scope.
Open Scope list_scope.
Open Scope N_scope.

Definition lex_text : str := "#1
(?'it\'s'?</a[\]/]\/+/im k='v'>{2,30}) <!$x> ?<=''>*".
(* the tokens without children: name, value and range *)
Fixpoint leaves (fuel : nat) (st : state) (a : addr) : list (str * str * (N * N)) :=
  match fuel with
  | O => []
  | S f =>
      let t := tok st a in
      match tk_kids t with
      | [] => [(tk_name t, get_value t, (rs (tk_mr t), re (tk_mr t)))]
      | l => flat_map (leaves f st) l
      end
  end.
Definition leaf (n v : string) (a b : N) : str * str * (N * N) := (lit n, lit v, (a, b)).

Lemma lex_ascii : ascii_only lex_text.
Proof.
  intros x Hx. assert (H : forallb (fun y => N_of_ascii y <? 128) lex_text = true) by (vm_compute; reflexivity).
  rewrite forallb_forall in H. now apply N.ltb_lt, H.
Qed.

Ltac no_lexeme H :=
  inversion H; subst;
  repeat match goal with
  | H : named _ _ |- _ => cbn in H; repeat destruct H as [H|H]; try discriminate; try (destruct H; fail)
  | H : In _ fixed |- _ => cbn in H; repeat destruct H as [H|H]; try discriminate; try (destruct H; fail)
  end.
(* a part of an identifier is not one, a number has digits only, and a quote in
   a string must be escaped *)
Lemma lex_not :
  ~ lexeme "Identifier" "ab" "ab" "c" /\ lexeme "Identifier" "abc" "abc" " " /\
  ~ lexeme "Minimum" "1x" "1x" "}" /\
  lexeme "String" "it's" "'it\'s'" ">" /\ ~ lexeme "String" "it's" "'it's'" ">" /\ ~ lexeme "String" "its" "its" ">".
Proof.
  assert (Hid : forall x, (97 <=? N_of_ascii x) && (N_of_ascii x <=? 122) = true -> id_first x).
  { intros x Hx. apply andb_prop in Hx as [H1 H2]. left. left. split; now apply N.leb_le. }
  split; [|split; [|split; [|split; [|split]]]].
  - intros H. no_lexeme H. match goal with H : stops _ _ |- _ => apply H end. left. now apply Hid.
  - apply lx_identifier; [now left| |].
    + exists "a"%char, (lit "bc"). split; [reflexivity|]. split; [now apply Hid|]. apply Forall_forall. intros y [<-|[<-|[]]]; left; now apply Hid.
    + intros [[[H|H]|[H|H]]|H]; try discriminate; destruct H as [H _]; vm_compute in H; now apply H.
  - intros H. no_lexeme H. match goal with H : Forall _ _ |- _ => inversion H as [|? ? _ H']; subst; inversion H' as [|? ? [_ H''] _]; subst end.
    vm_compute in H''. now apply H''.
  - apply lx_string; [now left|]. exists (lit "it\'s"). split; [|reflexivity].
    repeat (first [apply lt_nil|apply lt_escape|apply lt_char; [discriminate|discriminate|]]).
  - intros H. no_lexeme H. match goal with H : string_text _ _ |- _ => destruct H as (raw & H1 & H2) end.
    assert (raw = lit "it's") as -> by (injection H2 as H2; change (lit "it's" ++ lit "'" = raw ++ lit "'") in H2; now apply app_inj_tail in H2 as [<- _]).
    inversion H1 as [|? ? ? _ _ H3|]; subst. inversion H3 as [|? ? ? _ _ H4|]; subst. inversion H4 as [|? ? ? H5 _ _|]; subst. now apply H5.
  - intros H. no_lexeme H. match goal with H : string_text _ _ |- _ => destruct H as (raw & _ & H2) end. discriminate.
Qed.
