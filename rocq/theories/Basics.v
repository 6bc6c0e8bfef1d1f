(* Reasoning about executions without fuel. *)
From Verif Require Export Mono TextProofs.
Open Scope string_scope.
Open Scope list_scope.
Open Scope N_scope.

Lemma runs_from E P m c s st r st' :
  Runs E P m c s st r st' -> exists n0, forall n, (n0 <= n)%nat -> exec n E P m c s st = Ret r st'.
Proof.
  intros [n0 H]. exists n0. intros n Hn. rewrite (exec_mono E P n0 n); auto. congruence.
Qed.
Lemma panics_from E P m c s st p :
  Panics E P m c s st p -> exists n0, forall n, (n0 <= n)%nat -> exec n E P m c s st = Pan p.
Proof.
  intros [n0 H]. exists n0. intros n Hn. rewrite (exec_mono E P n0 n); auto. congruence.
Qed.

Lemma runs_det E P m c s st r st1 r' st2 :
  Runs E P m c s st r st1 -> Runs E P m c s st r' st2 -> r = r' /\ st1 = st2.
Proof.
  intros [n H] [n' H']. assert (exec n E P m c s st = exec n' E P m c s st) as Eq
    by (apply exec_unique; congruence).
  rewrite H, H' in Eq. injection Eq; auto.
Qed.
Lemma runs_not_panics E P m c s st r st1 p :
  Runs E P m c s st r st1 -> Panics E P m c s st p -> False.
Proof.
  intros [n H] [n' H']. assert (exec n E P m c s st = exec n' E P m c s st) as Eq
    by (apply exec_unique; congruence). congruence.
Qed.
Lemma panics_det E P m c s st p p' :
  Panics E P m c s st p -> Panics E P m c s st p' -> p = p'.
Proof.
  intros [n H] [n' H']. assert (exec n E P m c s st = exec n' E P m c s st) as Eq
    by (apply exec_unique; congruence). congruence.
Qed.
Lemma runs_not_diverges E P m c s st r st1 :
  Runs E P m c s st r st1 -> Diverges E P m c s st -> False.
Proof. intros [n H] D. specialize (D n). congruence. Qed.
Lemma panics_not_diverges E P m c s st p :
  Panics E P m c s st p -> Diverges E P m c s st -> False.
Proof. intros [n H] D. specialize (D n). congruence. Qed.

(* the matcher does one execution of another matcher, then something simple *)
Section Bind.
  Variables (E : env) (P : parser) (M m : matcher) (c c' : ctx) (s s' : sid) (st st0 : state).
  Variable k : mres -> state -> res mres.
  Hypothesis H : forall n, exec (S n) E P M c s st = (do r, st1 <- exec n E P m c' s' st0; k r st1).

  Lemma runs_bind r st' :
    Runs E P M c s st r st' <->
    exists r0 st1, Runs E P m c' s' st0 r0 st1 /\ k r0 st1 = Ret r st'.
  Proof.
    split.
    - intros [n Hn]. destruct n as [|n]; [discriminate|]. rewrite H in Hn.
      destruct (exec n E P m c' s' st0) as [r0 st1|p|] eqn:En; try discriminate.
      exists r0, st1. split; [now exists n|exact Hn].
    - intros (r0 & st1 & [n Hn] & Hk). exists (S n). now rewrite H, Hn.
  Qed.
  Lemma panics_bind p :
    Panics E P M c s st p <->
    Panics E P m c' s' st0 p \/
    exists r0 st1, Runs E P m c' s' st0 r0 st1 /\ k r0 st1 = Pan p.
  Proof.
    split.
    - intros [n Hn]. destruct n as [|n]; [discriminate|]. rewrite H in Hn.
      destruct (exec n E P m c' s' st0) as [r0 st1|p'|] eqn:En; try discriminate.
      + right. exists r0, st1. split; [now exists n|exact Hn].
      + left. exists n. congruence.
    - intros [[n Hn]|(r0 & st1 & [n Hn] & Hk)]; exists (S n); now rewrite H, Hn.
  Qed.
  Lemma diverges_bind :
    (forall r0 st1, k r0 st1 <> OOF) ->
    Diverges E P M c s st <-> Diverges E P m c' s' st0.
  Proof.
    intros Hk. split.
    - intros D n. specialize (D (S n)). rewrite H in D.
      destruct (exec n E P m c' s' st0) as [r0 st1|p'|] eqn:En; [|discriminate|reflexivity].
      exfalso. eapply Hk; eauto.
    - intros D [|n]; [reflexivity|]. now rewrite H, D.
  Qed.
End Bind.

(* matchers without inner executions *)
Section Atom.
  Variables (E : env) (P : parser) (M : matcher) (c : ctx) (s : sid) (st : state) (o : res mres).
  Hypothesis H : forall n, exec (S n) E P M c s st = o.
  Lemma runs_atom r st' : Runs E P M c s st r st' <-> o = Ret r st'.
  Proof.
    split; [intros [[|n] Hn]; [discriminate|congruence]|intros Ho; exists 1%nat; now rewrite H].
  Qed.
  Lemma panics_atom p : Panics E P M c s st p <-> o = Pan p.
  Proof.
    split; [intros [[|n] Hn]; [discriminate|congruence]|intros Ho; exists 1%nat; now rewrite H].
  Qed.
End Atom.

(* matchers that hand over to another one *)
Lemma runs_tail E P M m c c' s s' st st0 :
  (forall n, exec (S n) E P M c s st = exec n E P m c' s' st0) ->
  forall r st', Runs E P M c s st r st' <-> Runs E P m c' s' st0 r st'.
Proof.
  intros H r st'. split.
  - intros [[|n] Hn]; [discriminate|]. exists n. now rewrite <- H.
  - intros [n Hn]. exists (S n). now rewrite H.
Qed.
Lemma panics_tail E P M m c c' s s' st st0 :
  (forall n, exec (S n) E P M c s st = exec n E P m c' s' st0) ->
  forall p, Panics E P M c s st p <-> Panics E P m c' s' st0 p.
Proof.
  intros H p. split.
  - intros [[|n] Hn]; [discriminate|]. exists n. now rewrite <- H.
  - intros [n Hn]. exists (S n). now rewrite H.
Qed.
Lemma diverges_tail E P M m c c' s s' st st0 :
  (forall n, exec (S n) E P M c s st = exec n E P m c' s' st0) ->
  Diverges E P M c s st <-> Diverges E P m c' s' st0.
Proof.
  intros H. split.
  - intros D n. rewrite <- H. apply D.
  - intros D [|n]; [reflexivity|]. rewrite H. apply D.
Qed.
