(* Termination of grammars without references (C47). *)
From Verif Require Import Macros Spec SpecMore Mono TerminationProofs Samples PropsPrograms PropsInvariants.
Open Scope string_scope.
Open Scope list_scope.
Open Scope N_scope.

(* ---------------------------------------------------------------- C47 *)

(* the execution returns or panics, on every input and in every state *)
Theorem C47_ends : forall E P m c s st, tame E -> returning E -> no_references m ->
  (exists r st', Runs E P m c s st r st') \/ (exists p, Panics E P m c s st p).
Proof. exact ends. Qed.
Print Assumptions C47_ends.

(* no more iterations of a loop and no deeper nesting than the grammar says *)
Theorem C47_ends_within : forall E P m c s st d k n, tame E -> returning E ->
  no_references m -> nested d m -> iterates k m -> (d + N.to_nat (N.max k 1) <= n)%nat ->
  exec n E P m c s st <> OOF.
Proof. exact counts_bound. Qed.
Print Assumptions C47_ends_within.

(* [d] and [k] exist for every grammar *)
Theorem C47_every_grammar : forall m, (exists d, nested d m) /\ (exists k, iterates k m).
Proof. exact (fun m => conj (nested_some m) (iterates_some m)). Qed.
Print Assumptions C47_every_grammar.

(* loops that move forward: the number of iterations a loop is allowed does not
   matter, the length of the source bounds them *)
Theorem C47_source_bound : forall E P m c s st d n, tame E -> returning E -> never_stops E ->
  fitting (p_src P) (fun _ => True) (fun _ => True) sane_find E -> slen (p_src P) < isize_bound ->
  bounded (fun _ => True) sane_find m -> scopes_bounded (fun _ => True) sane_find st ->
  rs (c_off c) <= re (c_off c) <= slen (p_src P) ->
  no_references m -> loops_eat m -> nested d m -> (d + List.length (p_src P) + 1 <= n)%nat ->
  exec n E P m c s st <> OOF.
Proof. exact moves_bound. Qed.
Print Assumptions C47_source_bound.

(* without a pattern that moves forward a loop uses up all its iterations:
   2^64 - 1 for `Loop!(Null!())`, whatever the source *)
Theorem C47_not_eating_refuted : exists m, no_references m /\ nested 2 m /\
  forall E P c s st n, N.of_nat n <= usize_max -> exec n E P m c s st = OOF.
Proof.
  exists (Loop_ [MNull]). split; [|split; [|exact null_loop]].
  - constructor; [discriminate|]. intros x [<-|[]]. constructor; [discriminate|intros x []].
  - constructor. intros x [<-|[]]. constructor. intros x [].
Qed.
Print Assumptions C47_not_eating_refuted.

(* with references there need not be an end *)
Theorem C47_reference_refuted : exists E P m c s st, tame E /\ returning E /\ Diverges E P m c s st.
Proof.
  exists at_env, (at_src "x"), (Ref_ "r"), (at_ctx 0 1), 0%nat, (mkSt [] [[[(lit "r", VMatcher (Ref_ "r"))]]]).
  split; [exact C19_example_tame|]. split; [repeat split; discriminate|].
  intros n. apply self_reference. lia.
Qed.
Print Assumptions C47_reference_refuted.

(* the hypotheses hold for a grammar with two loops inside each other, which are
   allowed 2^64 - 1 iterations each; [tame at_env] is C19_example_tame and
   [fitting .. at_env] is C45_example_env *)
Definition C47_sample : matcher :=
  Program_ [Equals_ "("; Loop_ [Switch_ [Equals_ "a"; Loop_ [Equals_ "b"]]; MOptional (Equals_ ",")]; Equals_ ")"].
Example C47_example_hypotheses :
  returning at_env /\ never_stops at_env /\ no_references C47_sample /\ nested 5 C47_sample /\
  loops_eat C47_sample /\ bounded (fun _ => True) sane_find C47_sample /\ ~ iterates 1000 C47_sample.
Proof.
  assert (Hno : forall m, parts m = [] -> (forall t n b, m <> MRef t n b) -> no_references m).
  { intros m Hp Hm. constructor; [intros t n b H; destruct (Hm _ _ _ H)|]. rewrite Hp. intros x []. }
  assert (Hle : forall m, parts m = [] -> (forall ps i, m <> MProgram ps i) -> loops_eat m).
  { intros m Hp Hm. constructor; [intros ps i r H; destruct (Hm _ _ H)|]. rewrite Hp. intros x []. }
  split; [repeat split; discriminate|]. split; [repeat split; discriminate|]. split; [|split; [|split; [|split]]].
  - repeat first [apply Hno; [reflexivity|discriminate]
                 |constructor; [discriminate|]; intros ? Hx; cbn in Hx; repeat (destruct Hx as [<-|Hx]); try contradiction].
  - repeat (constructor; intros ? Hx; cbn in Hx; repeat (destruct Hx as [<-|Hx]); try contradiction).
  - unfold C47_sample.
    constructor; [intros ps i r Hm; injection Hm as <- <-; discriminate|].
    intros x [<-|[<-|[<-|[]]]]; [apply Hle; [reflexivity|discriminate]| |apply Hle; [reflexivity|discriminate]].
    constructor.
    + intros ps i r Hm _. injection Hm as <- <-. split; [reflexivity|]. eexists _, _. split; [reflexivity|].
      apply ea_switch; [reflexivity|intros a b; discriminate|]. intros m [<-|[<-|[]]]; [constructor|].
      apply ea_program; [reflexivity| |constructor]. intros a b Hab. injection Hab as <- <-. reflexivity.
    + intros x [<-|[<-|[]]].
      * constructor; [intros ps i r Hm; injection Hm as <- <-; discriminate|].
        intros x [<-|[<-|[]]]; [apply Hle; [reflexivity|discriminate]|]. constructor.
        -- intros ps i r Hm _. injection Hm as <- <-. split; [reflexivity|]. eexists _, _. split; [reflexivity|constructor].
        -- intros x [<-|[]]. apply Hle; [reflexivity|discriminate].
      * constructor; [discriminate|]. intros x [<-|[]]. apply Hle; [reflexivity|discriminate].
  - repeat first [exact Logic.I
                 |constructor; intros ? Hx; cbn in Hx; repeat (destruct Hx as [<-|Hx]); try contradiction
                 |constructor].
  - intros H. inversion H as [m _ Hp]; subst.
    specialize (Hp (Loop_ [Switch_ [Equals_ "a"; Loop_ [Equals_ "b"]]; MOptional (Equals_ ",")])
                   (or_intror (or_introl eq_refl))).
    inversion Hp as [m Hi _]; subst. specialize (Hi _ _ _ _ eq_refl eq_refl). now compute in Hi.
Qed.
(* 5 matchers inside each other and 9 bytes: 15 is enough *)
Example C47_example_run :
  match at_run 15 C47_sample "(a,bb,a,)" with Ret (Ok (SToken _)) _ => True | _ => False end /\
  at_run 15 (Loop_ [MNull]) "(a,bb,a,)" = OOF.
Proof. now vm_compute. Qed.
