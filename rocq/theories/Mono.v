(* More fuel never changes the outcome of an execution that finished. *)
From Verif Require Export Facts ScriptBuild.
Open Scope list_scope.
Open Scope N_scope.

(* [x] is unfinished or equal to [y] *)
Definition upto {A} (x y : res A) : Prop := x = OOF \/ x = y.

Lemma upto_refl {A} (x : res A) : upto x x.
Proof. now right. Qed.
Lemma upto_oof {A} (y : res A) : upto OOF y.
Proof. now left. Qed.
Lemma upto_trans {A} (x y z : res A) : upto x y -> upto y z -> upto x z.
Proof. intros [->| ->] [->| ->]; unfold upto; auto. Qed.

Lemma upto_bind {A B} (x x' : res A) (k k' : A -> state -> res B) :
  upto x x' -> (forall a s, upto (k a s) (k' a s)) ->
  upto (do a, s <- x; k a s) (do a, s <- x'; k' a s).
Proof.
  intros [->| ->] Hk; [now left|].
  destruct x'; [apply Hk|now right|now right].
Qed.

Lemma upto_may {A B} (x : may A) (k k' : A -> res B) :
  (forall a, upto (k a) (k' a)) ->
  upto (let! a := x in k a) (let! a := x in k' a).
Proof. intros Hk. destruct x; [apply Hk|apply upto_refl]. Qed.

Definition rec_upto (r r' : recT) : Prop := forall m c s st, upto (r m c s st) (r' m c s st).

Lemma run_patterns_upto E P r r' i c s pt start count pats :
  rec_upto r r' -> forall ps st,
  upto (run_patterns E P r i c s pt start count pats ps st)
       (run_patterns E P r' i c s pt start count pats ps st).
Proof.
  intros Hr. induction pats as [|m pats IH]; intros ps st; cbn [run_patterns]; [apply upto_refl|].
  apply upto_bind; [apply Hr|]. intros x st'.
  destruct x as [x|e].
  - destruct x; try apply upto_refl.
    + destruct (should_discard _); [apply IH|].
      destruct (pi_stop i); [apply upto_refl|].
      apply upto_bind; [apply upto_refl|]. intros; apply IH.
    + destruct (should_discard _); [apply IH|].
      destruct (pi_stop i); [apply upto_refl|].
      apply upto_bind; [apply upto_refl|]. intros; apply IH.
    + destruct (_ && _); [apply upto_refl|].
      destruct (m_consuming m); [|apply IH].
      apply upto_bind; [apply upto_refl|]. intros; apply IH.
  - apply upto_may; intros _. destruct e; [|apply upto_refl].
    destruct (pi_stop i); [apply IH|apply upto_refl].
Qed.

Lemma iterate_upto E P r r' pats i c s pt start :
  rec_upto r r' -> forall f f', (f <= f')%nat -> forall left count ps st,
  upto (iterate f E P r pats i c s pt start left count ps st)
       (iterate f' E P r' pats i c s pt start left count ps st).
Proof.
  intros Hr. induction f as [|f IH]; intros f' Hf left count ps st.
  - destruct f'; cbn [iterate]; destruct (left =? 0); try apply upto_refl; apply upto_oof.
  - destruct f' as [|f']; [lia|]. cbn [iterate].
    destruct (left =? 0); [apply upto_refl|].
    apply upto_bind; [now apply run_patterns_upto|].
    intros [k ps'] st'. destruct k as [|x|x]; [apply IH; lia| |apply upto_refl].
    destruct x; try apply upto_refl.
    + destruct (pi_stop i); [apply upto_refl|].
      apply upto_bind; [apply upto_refl|]. intros.
      destruct (is_target i name); [apply IH; lia|apply upto_refl].
Qed.

Lemma step_upto f f' E P r r' :
  (f <= f')%nat -> rec_upto r r' -> rec_upto (step f E P r) (step f' E P r').
Proof.
  intros Hf Hr m c s st. unfold step.
  destruct m; try apply upto_refl;
    try (apply upto_bind; [apply Hr|]; intros; apply upto_refl).
  - apply iterate_upto; auto.
  - (* MPin *)
    apply upto_may; intros g. destruct g; [|apply upto_refl].
    apply upto_may; intros c1. destruct m; [apply Hr|apply upto_refl].
  - (* MStore *)
    destruct p; [|apply upto_refl]. apply upto_bind; [apply Hr|]. intros; apply upto_refl.
  - (* MRef *)
    apply upto_may; intros g. destruct g; [|apply Hr].
    destruct (sc_get _ s s0) as [[]|]; try apply upto_refl. apply Hr.
  - (* MSetScope *)
    destruct s0; [apply Hr|]. apply upto_bind; [apply Hr|]. intros; apply upto_refl.
  - (* MDebug *)
    destruct m; [|apply upto_refl]. apply upto_may; intros _. apply Hr.
Qed.

Lemma exec_upto E P : forall f f', (f <= f')%nat -> rec_upto (exec f E P) (exec f' E P).
Proof.
  induction f as [|f IH]; intros f' Hf m c s st; [apply upto_oof|].
  destruct f' as [|f']; [lia|]. cbn [exec].
  apply step_upto; [lia|]. apply IH; lia.
Qed.

Lemma exec_mono E P f f' m c s st :
  (f <= f')%nat -> exec f E P m c s st <> OOF -> exec f' E P m c s st = exec f E P m c s st.
Proof. intros Hf H. destruct (exec_upto E P f f' Hf m c s st); congruence. Qed.

Lemma exec_unique E P f f' m c s st :
  exec f E P m c s st <> OOF -> exec f' E P m c s st <> OOF ->
  exec f E P m c s st = exec f' E P m c s st.
Proof.
  intros H H'. destruct (Nat.le_gt_cases f f').
  - symmetry; now apply exec_mono.
  - apply exec_mono; [lia|auto].
Qed.

Lemma tokenize_upto E P f f' c m st :
  (f <= f')%nat -> upto (tokenize f E P c m st) (tokenize f' E P c m st).
Proof.
  intros Hf. unfold tokenize. apply upto_bind; [now apply exec_upto|]. intros; apply upto_refl.
Qed.
