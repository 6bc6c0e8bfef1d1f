(* Scripts for the examples of PropsShape.v. *)
From Verif Require Import ScriptBuild Spec SpecScript Samples SpecRefused SpecShape.
Open Scope string_scope.
Open Scope list_scope.
Open Scope N_scope.

Definition shape_text : str :=
  "<!--[adextopa version='1'] import { A as B } from 'x' N = <%'a','b',''> --> (?'Name'<?[<='x'> | (<N>)] k='v'>{2,}) ?!<A>".
Definition shape_parse (n : nat) (src : str) : res tres :=
  let P := parser_new src in tokenize n at_env P (script_ctx P "T" empty_state) (Script_ at_env) (script_start at_env P "T" empty_state).
(* the names of a token and of its children, then those of the tokens under it *)
Fixpoint outline (fuel : nat) (st : state) (a : addr) : list (str * list str) :=
  match fuel with
  | O => []
  | S f => (tk_name (tok st a), map (fun k => tk_name (tok st k)) (tk_kids (tok st a))) :: flat_map (outline f st) (tk_kids (tok st a))
  end.
Definition lits : list (string * list string) -> list (str * list str) := map (fun x => (lit (fst x), names (snd x))).

(* two files; the one asked for imports the other, which has an empty sequence *)
Definition odd_files : fs :=
  mkFs (fun _ _ => Some (lit "/p/odd")) (fun p => Some p)
       (fun p => if str_eqb p "/p/odd" then Some (lit "<%'a','',''>")
                 else if str_eqb p "/p/main" then Some (lit "<!--[adextopa version='1'] import { _ as Odd } from 'odd' --><Odd>")
                 else None).
Lemma odd_ascii full src : fs_read odd_files full = Some src -> ascii_only src /\ slen src < isize_bound.
Proof.
  cbn [fs_read odd_files]. assert (H : forall w, forallb (fun x => N_of_ascii x <? 128) w = true -> ascii_only w).
  { intros w Hw x Hx. rewrite forallb_forall in Hw. now apply N.ltb_lt, Hw. }
  destruct (str_eqb full "/p/odd"); [intros [= <-]; split; [now apply H|reflexivity]|].
  destruct (str_eqb full "/p/main"); [intros [= <-]; split; [now apply H|reflexivity]|discriminate].
Qed.

Lemma shape_ascii : ascii_only shape_text.
Proof.
  intros x Hx. assert (H : forallb (fun y => N_of_ascii y <? 128) shape_text = true) by (vm_compute; reflexivity).
  rewrite forallb_forall in H. now apply N.ltb_lt, H.
Qed.

Lemma shape_seq ks : script_shape "SequenceMatcher" ks -> ks = names ["StartPattern"; "EndPattern"; "EscapePattern"].
Proof.
  intros [(sl & Hin & Hf)|(Hin & ->)].
  - cbn [script_tree In] in Hin.
    repeat (destruct Hin as [Hin|Hin]; [first [discriminate Hin | injection Hin as <-]|]); [|contradiction].
    cbn [follows SpecShape.one names map In] in Hf.
    destruct Hf as (? & ? & [<-|[]] & -> & ? & ? & [<-|[]] & -> & ? & ? & [<-|[]] & -> & ->). reflexivity.
  - cbn [script_leaves names map In] in Hin.
    repeat (destruct Hin as [Hin|Hin]; [discriminate Hin|]). contradiction.
Qed.
Lemma shape_not :
  script_shape "SequenceMatcher" (names ["StartPattern"; "EndPattern"; "EscapePattern"]) /\
  ~ script_shape "SequenceMatcher" (names ["StartPattern"; "EscapePattern"; "EndPattern"]) /\
  ~ script_shape "SequenceMatcher" (names ["StartPattern"; "EndPattern"]) /\
  ~ script_shape "Comment" (names ["Comment"]).
Proof.
  split; [|split; [|split]].
  - left. exists [SpecShape.one ["StartPattern"]; SpecShape.one ["EndPattern"]; SpecShape.one ["EscapePattern"]].
    split; [unfold script_tree; do 10 right; left; reflexivity|]. cbn [follows SpecShape.one].
    exists (lit "StartPattern"), (names ["EndPattern"; "EscapePattern"]). split; [now left|split; [reflexivity|]].
    exists (lit "EndPattern"), (names ["EscapePattern"]). split; [now left|split; [reflexivity|]].
    exists (lit "EscapePattern"), []. split; [now left|split; reflexivity].
  - intros H. apply shape_seq in H. discriminate H.
  - intros H. apply shape_seq in H. discriminate H.
  - intros [(sl & Hin & _)|(_ & H)]; [|discriminate H]. cbn [script_tree In] in Hin.
    repeat (destruct Hin as [Hin|Hin]; [discriminate Hin|]). contradiction.
Qed.

Lemma broken_parse : exists r st, shape_parse 258 "<[<[<[ <{ (?'" = Ret r st.
Proof.
  assert (H : match shape_parse 258 "<[<[<[ <{ (?'" with Ret _ _ => true | _ => false end = true) by (vm_compute; reflexivity).
  destruct (shape_parse 258 "<[<[<[ <{ (?'") as [r st| | ]; try discriminate H. now exists r, st.
Qed.
Lemma broken_compile : exists r st, compile_str 258 at_env "<[<[<[ <{ (?'" "T" false empty_state = Ret r st.
Proof.
  assert (H : match compile_str 258 at_env "<[<[<[ <{ (?'" "T" false empty_state with Ret _ _ => true | _ => false end = true) by (vm_compute; reflexivity).
  destruct (compile_str 258 at_env "<[<[<[ <{ (?'" "T" false empty_state) as [r st| | ]; try discriminate H. now exists r, st.
Qed.

Lemma plain_signs :
  In "%"%char (lit "<%'a','',''>") /\ ~ In "/"%char (lit "<%'a','',''>") /\
  ~ In "%"%char (lit "</(/>") /\ In "/"%char (lit "</(/>") /\
  ~ In "%"%char (lit "<[<[<[ <{ (?'") /\ ~ In "/"%char (lit "<[<[<[ <{ (?'").
Proof.
  assert (Hno : forall y (s : str), existsb (Ascii.eqb y) s = false -> ~ In y s).
  { intros y s H Hin. assert (G : existsb (Ascii.eqb y) s = true) by (apply existsb_exists; exists y; split; [exact Hin|apply Ascii.eqb_refl]). congruence. }
  split; [right; left; reflexivity|]. split; [apply Hno; reflexivity|]. split; [apply Hno; reflexivity|].
  split; [right; left; reflexivity|]. split; apply Hno; reflexivity.
Qed.

Lemma odd_blame : forall m,
  panic_reason at_env odd_files "/p/odd" (PMessage m) /\ ~ panic_reason at_env odd_files "/p/main" (PMessage m).
Proof.
  intros m. split.
  - apply (pn_percent at_env odd_files (lit "/p/odd") (lit "/p/odd") (lit "<%'a',") (lit ",''>")); [reflexivity|reflexivity|right; left; reflexivity].
  - intros H. remember (PMessage m) as p eqn:Hp. destruct H as [H|full H1 H2|full src st a q H1 H2 H3 H4 H5 H6|full src H1 H2 H3|full pre post p H1 H2 H3]; try discriminate Hp.
    injection H1 as <-. injection H2 as H2. change (In "%"%char (pre ++ "'"%char :: "'"%char :: post)) in H3. rewrite <- H2 in H3.
    assert (G : existsb (Ascii.eqb "%"%char) (lit "<!--[adextopa version='1'] import { _ as Odd } from 'odd' --><Odd>") = true)
      by (apply existsb_exists; exists "%"%char; split; [exact H3|apply Ascii.eqb_refl]).
    discriminate G.
Qed.
