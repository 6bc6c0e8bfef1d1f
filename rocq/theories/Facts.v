(* Facts about strings, lists, association lists and machine integers. *)
From Verif Require Export Str.
From Coq Require Export ZifyBool ZifyNat ZifyN.
Open Scope list_scope.
Open Scope N_scope.

Lemma str_eqb_refl a : str_eqb a a = true.
Proof. induction a; cbn; [|rewrite Ascii.eqb_refl, IHa]; reflexivity. Qed.

Lemma str_eqb_eq a b : str_eqb a b = true <-> a = b.
Proof.
  revert b; induction a as [|x a IH]; intros [|y b]; cbn; try easy.
  rewrite andb_true_iff, Ascii.eqb_eq, IH. split; intros H.
  - destruct H; congruence.
  - injection H; auto.
Qed.

Lemma str_eqb_neq a b : str_eqb a b = false <-> a <> b.
Proof. rewrite <- str_eqb_eq. destruct (str_eqb a b); split; congruence. Qed.

Lemma str_eqb_sym a b : str_eqb a b = str_eqb b a.
Proof.
  destruct (str_eqb b a) eqn:H.
  - apply str_eqb_eq in H; subst; apply str_eqb_refl.
  - apply str_eqb_neq in H; apply str_eqb_neq; congruence.
Qed.

Lemma starts_with_iff p s : starts_with p s = true <-> exists t, s = p ++ t.
Proof.
  revert s; induction p as [|x p IH]; intros s; cbn.
  - split; eauto.
  - destruct s as [|y s]; [split; [easy|intros [t H]; easy]|].
    rewrite andb_true_iff, Ascii.eqb_eq, IH. split.
    + intros [-> [t ->]]. now exists t.
    + intros [t H]. injection H as -> ->. eauto.
Qed.

Lemma starts_with_app p t : starts_with p (p ++ t) = true.
Proof. apply starts_with_iff; eauto. Qed.

Lemma slen_nil : slen [] = 0.
Proof. reflexivity. Qed.
Lemma slen_cons c s : slen (c :: s) = 1 + slen s.
Proof. unfold slen; cbn [List.length]; lia. Qed.
Lemma slen_app a b : slen (a ++ b) = slen a + slen b.
Proof. unfold slen; rewrite app_length; lia. Qed.
Lemma slen_0 s : slen s = 0 <-> s = [].
Proof. destruct s; [easy|]. rewrite slen_cons; split; [lia|easy]. Qed.
Lemma slen_pos s : s <> [] -> 0 < slen s.
Proof. intros H. assert (slen s <> 0) by (rewrite slen_0; exact H). lia. Qed.

Global Opaque slen.
Lemma slen_length s : slen s = N.of_nat (List.length s).
Proof. reflexivity. Qed.

(* splitting a list at an index *)
Lemma split_at {A} (n : nat) (l : list A) :
  (n <= List.length l)%nat -> exists a b, l = a ++ b /\ List.length a = n.
Proof.
  intros H. exists (firstn n l), (skipn n l).
  split; [symmetry; apply firstn_skipn|]. rewrite firstn_length; lia.
Qed.

Lemma split_at_N (n : N) (s : str) :
  n <= slen s -> exists a b, s = a ++ b /\ slen a = n.
Proof.
  intros H. rewrite slen_length in H.
  destruct (split_at (N.to_nat n) s) as (a & b & E & L); [lia|].
  exists a, b; split; [exact E|]. rewrite slen_length; lia.
Qed.

Lemma app_inj_len (a b a' b' : str) :
  a ++ b = a' ++ b' -> slen a = slen a' -> a = a' /\ b = b'.
Proof.
  rewrite !slen_length. intros H L. assert (List.length a = List.length a') as L' by lia.
  clear L. revert a' L' H; induction a as [|x a IH]; intros [|y a'] L H; cbn in *; try lia; auto.
  injection H as -> H. destruct (IH a') as [-> ->]; auto.
Qed.

Lemma sub_app pre w post :
  sub (pre ++ w ++ post) (slen pre) (slen pre + slen w) = w.
Proof.
  unfold sub. rewrite !slen_length.
  replace (N.to_nat (N.of_nat (List.length pre))) with (List.length pre) by lia.
  rewrite skipn_app, skipn_all, Nat.sub_diag. cbn [app skipn].
  replace (N.to_nat _) with (List.length w) by lia.
  rewrite firstn_app, firstn_all, Nat.sub_diag. cbn [firstn]. apply app_nil_r.
Qed.

Lemma is_boundary_app pre post :
  is_boundary (pre ++ post) (slen pre)
  = match pre, post with
    | [], _ | _, [] => true
    | _, c :: _ => negb (is_cont c)
    end.
Proof.
  unfold is_boundary. destruct pre as [|x pre]; [reflexivity|].
  destruct (N.eqb_spec (slen (x :: pre)) 0) as [H|_]; [rewrite slen_cons in H; lia|].
  destruct post as [|c post].
  - rewrite app_nil_r, N.compare_refl. reflexivity.
  - assert (slen (x :: pre) < slen ((x :: pre) ++ c :: post)) as L
      by (rewrite slen_app, (slen_cons c); lia).
    apply N.compare_lt_iff in L. rewrite L.
    rewrite slen_length. replace (N.to_nat _) with (List.length (x :: pre)) by lia.
    rewrite nth_error_app2 by lia. rewrite Nat.sub_diag. reflexivity.
Qed.

Lemma slice_some s a b w :
  slice s a b = Some w ->
  exists pre post, s = pre ++ w ++ post /\ slen pre = a /\ slen pre + slen w = b
                   /\ is_boundary s a = true /\ is_boundary s b = true.
Proof.
  unfold slice. destruct (_ && _) eqn:H; [|easy]. intros E; injection E as <-.
  apply andb_true_iff in H as [H Hb]. apply andb_true_iff in H as [H Ha].
  apply andb_true_iff in H as [H1 H2].
  destruct (split_at_N a s) as (pre & r & E & L); [lia|]. subst s.
  rewrite slen_app in H2.
  destruct (split_at_N (b - a) r) as (w & post & E & L2); [lia|]. subst r a.
  assert (b = slen pre + slen w) as -> by lia.
  exists pre, post. rewrite sub_app. auto.
Qed.

Lemma slice_intro pre w post :
  is_boundary (pre ++ w ++ post) (slen pre) = true ->
  is_boundary (pre ++ w ++ post) (slen pre + slen w) = true ->
  slice (pre ++ w ++ post) (slen pre) (slen pre + slen w) = Some w.
Proof.
  intros Ha Hb. unfold slice. rewrite Ha, Hb, !slen_app, sub_app.
  replace (_ && _) with true; [reflexivity|].
  symmetry; rewrite !andb_true_iff; repeat split; lia.
Qed.

(* ---- association lists ---- *)
Lemma assoc_get_set_same {A} k (v : A) l : assoc_get k (assoc_set k v l) = Some v.
Proof. cbn. now rewrite str_eqb_refl. Qed.

Lemma assoc_get_filter {A} k k' (l : list (str * A)) :
  k <> k' ->
  assoc_get k' (filter (fun p => negb (str_eqb k (fst p))) l) = assoc_get k' l.
Proof.
  intros H. induction l as [|[x v] l IH]; cbn; [reflexivity|].
  destruct (str_eqb k x) eqn:E; cbn.
  - apply str_eqb_eq in E; subst x.
    replace (str_eqb k' k) with false by (symmetry; apply str_eqb_neq; congruence). exact IH.
  - now rewrite IH.
Qed.

Lemma assoc_get_set_other {A} k k' (v : A) l :
  k <> k' -> assoc_get k' (assoc_set k v l) = assoc_get k' l.
Proof.
  intros H. unfold assoc_set; cbn.
  replace (str_eqb k' k) with false by (symmetry; apply str_eqb_neq; congruence).
  now apply assoc_get_filter.
Qed.

(* ---- upd ---- *)
Lemma upd_length {A} n (x : A) l : List.length (upd n x l) = List.length l.
Proof. revert n; induction l; intros [|n]; cbn; auto. Qed.

Lemma nth_upd_same {A} n (x d : A) l : (n < List.length l)%nat -> nth n (upd n x l) d = x.
Proof. revert n; induction l; intros [|n]; cbn; intros; try lia; auto. apply IHl; lia. Qed.

Lemma nth_upd_other {A} n m (x d : A) l : n <> m -> nth m (upd n x l) d = nth m l d.
Proof.
  revert n m; induction l as [|y l IH]; intros [|n] [|m]; cbn; intros H; auto; try congruence.
Qed.

Lemma nth_upd {A} n m (x d : A) l :
  nth m (upd n x l) d = if Nat.eqb n m && Nat.ltb n (List.length l) then x else nth m l d.
Proof.
  destruct (Nat.eqb_spec n m) as [->|H]; cbn [andb].
  - destruct (Nat.ltb_spec m (List.length l)).
    + now apply nth_upd_same.
    + rewrite !nth_overflow; rewrite ?upd_length; auto.
  - now apply nth_upd_other.
Qed.

Lemma upd_overflow {A} n (x : A) l : (List.length l <= n)%nat -> upd n x l = l.
Proof.
  revert n; induction l as [|y l IH]; intros [|n]; cbn; intros H; auto; try lia.
  rewrite IH; auto; lia.
Qed.

Lemma upd_same {A} n (l : list A) d : (n < List.length l)%nat -> upd n (nth n l d) l = l.
Proof.
  revert n; induction l as [|y l IH]; intros [|n]; cbn; intros H; auto; try lia.
  rewrite IH; auto; lia.
Qed.

Lemma upd_app_left {A} n (x : A) l r : (n < List.length l)%nat -> upd n x (l ++ r) = upd n x l ++ r.
Proof. revert n; induction l as [|y l IH]; intros [|n]; cbn; intros; try lia; auto. rewrite IH; auto; lia. Qed.

Lemma upd_app_right {A} n (x : A) l r :
  (List.length l <= n)%nat -> upd n x (l ++ r) = l ++ upd (n - List.length l) x r.
Proof.
  revert n; induction l as [|y l IH]; intros n; cbn [app List.length].
  - now rewrite Nat.sub_0_r.
  - destruct n; intros; [lia|]. cbn. rewrite IH by lia. reflexivity.
Qed.

Lemma upd_upd {A} n (x y : A) l : upd n y (upd n x l) = upd n y l.
Proof. revert n; induction l; intros [|n]; cbn; auto. now rewrite IHl. Qed.

Lemma upd_twice {A} n m (x y : A) l : n <> m -> upd n x (upd m y l) = upd m y (upd n x l).
Proof.
  revert n m; induction l as [|z l IH]; intros [|n] [|m] H; cbn; auto; try congruence.
  rewrite IH; auto.
Qed.
