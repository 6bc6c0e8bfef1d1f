(* What the methods of matchers do to their parts (C74), and that equal parts
   make equal matchers (C75). *)
From Verif Require Import Samples.
From Verif Require Import SpecMore Basics.
From Verif Require Export MatcherOps SpecOps.
From Coq Require Import Lia.
Open Scope string_scope.
Open Scope list_scope.
Open Scope N_scope.

Lemma children_parts m l : get_children m = Some l -> l = parts m.
Proof.
  destruct m; cbn [get_children parts]; try discriminate; try (intros [= <-]; reflexivity).
  - destruct m; [intros [= <-]; reflexivity|discriminate].
  - destruct p; [intros [= <-]; reflexivity|discriminate].
  - destruct m; [intros [= <-]; reflexivity|discriminate].
Qed.
Lemma no_children m : get_children m = None ->
  parts m = [] \/ exists x name b, m = MRef (FMatcher x) name b.
Proof.
  destruct m; cbn [get_children parts]; auto; try discriminate.
  - destruct m; [discriminate|auto].
  - destruct p; [discriminate|auto].
  - destruct t; eauto.
  - destruct m; [discriminate|auto].
Qed.
Lemma children_iff m l :
  get_children m = Some l <->
  l = parts m /\ (holds_one m \/ exists ps, (exists i, m = MProgram ps i) \/ m = MRegister ps).
Proof.
  split.
  - intros H. split; [now apply children_parts|].
    destruct m; cbn in H; try discriminate; try (left; constructor; fail); eauto.
    + destruct m; [left; constructor|discriminate].
    + destruct p; [left; constructor|discriminate].
    + destruct m; [left; constructor|discriminate].
  - intros [-> [[]|(ps & [[i ->]| ->])]]; reflexivity.
Qed.

Lemma upd_split {A} (x : A) l : forall n, (n < List.length l)%nat ->
  exists before y after, l = before ++ y :: after /\ List.length before = n /\ upd n x l = before ++ x :: after.
Proof.
  induction l as [|a l IH]; intros n H; cbn in H; [lia|]. destruct n as [|n].
  - exists [], a, l. auto.
  - destruct (IH n) as (b & y & c & -> & Hb & Hu); [lia|]. exists (a :: b), y, c.
    split; [reflexivity|]. split; [cbn; now rewrite Hb|]. cbn. now rewrite Hu.
Qed.
Lemma upd_app {A} (before : list A) y x after :
  upd (List.length before) x (before ++ y :: after) = before ++ x :: after.
Proof. induction before as [|a b IH]; cbn; [reflexivity|now rewrite IH]. Qed.

Lemma app_split {A} (a b a' b' : list A) :
  a ++ b = a' ++ b' -> List.length a = List.length a' -> a = a' /\ b = b'.
Proof.
  revert a'. induction a as [|x a IH]; intros [|y a'] H L; cbn in *; try lia; auto.
  injection H as -> H. destruct (IH a') as [-> ->]; auto.
Qed.

(* ---------- replacing a part ---------- *)

Lemma set_child_iff n x m m' : set_child n x m = Val m' <-> replaces n x m m'.
Proof.
  split.
  - intros H. destruct m; cbn [set_child] in H; try discriminate;
      try (destruct n; [injection H as <-|discriminate]; constructor).
    destruct (_ <=? n)%nat eqn:Eq; [discriminate|]. injection H as <-.
    apply Nat.leb_gt in Eq. destruct (upd_split x pats n Eq) as (b & y & c & -> & <- & ->). constructor.
  - intros H. destruct H; try reflexivity.
    cbn [set_child]. rewrite app_length. cbn [List.length].
    destruct (Nat.leb_spec (List.length before + S (List.length after)) (List.length before)); [lia|].
    now rewrite upd_app.
Qed.
Lemma set_child_panics n x m p : set_child n x m = Die p ->
  (takes_parts m /\ (List.length (parts m) <= n)%nat /\
   p = PMessage "Attempt to set child at an index that is out of bounds") \/
  (~ takes_parts m /\
   p = PMessage (lit "Can not call `set_child` on a `" ++ m_name m ++ lit "` matcher: Operation not supported")).
Proof.
  intros H. destruct m; cbn [set_child] in H; try (right; split; [intros []|congruence]);
    try (left; split; [exact Logic.I|]; destruct n; [discriminate|]; split; [cbn [parts List.length]; lia|unfold out_of_bounds in H; congruence]).
  - left. split; [exact Logic.I|]. destruct (_ <=? n)%nat eqn:Eq; [|discriminate].
    apply Nat.leb_le in Eq. split; [exact Eq|]. unfold out_of_bounds in H; congruence.
  - left. split; [exact Logic.I|]. destruct n; [discriminate|].
    split; [destruct m; cbn [parts List.length]; lia|unfold out_of_bounds in H; congruence].
Qed.
Lemma set_child_works n x m : takes_parts m -> (n < List.length (parts m))%nat ->
  exists m', set_child n x m = Val m' /\ parts m' = upd n x (parts m) /\
             m_name m' = m_name m /\ m_custom m' = m_custom m /\ m_consuming m' = m_consuming m.
Proof.
  intros T H. destruct m; try destruct T; cbn [parts List.length] in *;
    try (destruct n; [|lia]; eexists; split; [reflexivity|]; repeat split; reflexivity).
  - cbn [set_child]. destruct (Nat.leb_spec (List.length pats) n); [lia|].
    eexists; split; [reflexivity|]. repeat split; reflexivity.
  - destruct m; cbn [List.length] in H; [|lia]. destruct n; [|lia].
    eexists; split; [reflexivity|]. repeat split; reflexivity.
Qed.
Lemma set_child_last n x y m a b : set_child n x m = Val a -> set_child n y a = Val b -> set_child n y m = Val b.
Proof.
  intros H K. apply set_child_iff in H, K. apply set_child_iff.
  destruct H; inversion K; subst; try constructor.
  match goal with [ H : _ ++ _ = _ ++ _, L : List.length _ = List.length _ |- _ ] =>
    apply app_split in H as [-> H]; auto; injection H as _ -> end. constructor.
Qed.

Lemma set_child_same n x m m' : replaces n x m m' -> nth_error (parts m) n = Some x -> m' = m.
Proof.
  intros H Hn. destruct H; cbn [parts nth_error] in Hn; try congruence.
  - rewrite nth_error_app2 in Hn by lia. rewrite Nat.sub_diag in Hn. cbn in Hn. congruence.
  - destruct o; cbn in Hn; congruence.
Qed.

(* ---------- adding a part ---------- *)

Lemma add_pattern_iff x m m' : add_pattern x m = Val m' <->
  (exists ps i, m = MProgram ps i /\ m' = MProgram (ps ++ [x]) i) \/
  (exists ms, m = MRegister ms /\ m' = MRegister (ms ++ [x])).
Proof.
  split.
  - destruct m; cbn; intros H; try discriminate; injection H as <-; eauto.
  - intros [(ps & i & -> & ->)|(ms & -> & ->)]; reflexivity.
Qed.
Lemma add_all_program xs : forall ps i,
  fold_left (fun m x => let? y := m in add_pattern x y) xs (Val (MProgram ps i)) = Val (MProgram (ps ++ xs) i).
Proof.
  induction xs as [|x xs IH]; intros ps i; cbn [fold_left add_pattern]; [now rewrite app_nil_r|].
  rewrite IH, <- app_assoc. reflexivity.
Qed.

(* ---------- Store ---------- *)

Lemma new_store_iff name p :
  (In "."%char name -> new_store name p = Die (PMessage "`Store`: Variable names can not contain `.` characters")) /\
  (~ In "."%char name -> new_store name p = Val (MStore p name true)).
Proof.
  unfold new_store. split; intros H.
  - destruct (existsb _ _) eqn:Eq; [reflexivity|]. exfalso.
    rewrite <- Bool.not_true_iff_false, existsb_exists in Eq. apply Eq. exists "."%char. split; [exact H|apply Ascii.eqb_refl].
  - destruct (existsb _ _) eqn:Eq; [|reflexivity]. exfalso.
    apply existsb_exists in Eq as (c & Hc & E). apply Ascii.eqb_eq in E as <-. auto.
Qed.

(* ---------- names ---------- *)

Fixpoint set_name_last n k m : m_set_name n (m_set_name k m) = m_set_name n m.
Proof.
  destruct m; try reflexivity; cbn [m_set_name]; try (f_equal; apply set_name_last).
  destruct m; [|reflexivity]. cbn [m_set_name]. do 2 f_equal. apply set_name_last.
Qed.
Lemma set_name_own n m d : keeps_name m = Some d ->
  m_name (m_set_name n m) = n /\ (m_custom (m_set_name n m) = true <-> d <> Some n) /\
  parts (m_set_name n m) = parts m.
Proof.
  destruct m; cbn [keeps_name]; intros [= <-]; cbn [m_set_name m_name m_custom pi_name pi_custom];
    (split; [reflexivity|]; split; [|reflexivity]);
    try (split; [discriminate|reflexivity]);
    rewrite Bool.negb_true_iff, <- Bool.not_true_iff_false, str_eqb_eq; split; intros H K; apply H; inversion K; reflexivity.
Qed.
Lemma set_name_hands n m x r : hands_on m x r -> m_set_name n m = r (m_set_name n x) /\ m = r x.
Proof. now destruct 1. Qed.
Lemma set_name_other n m : keeps_name m = None -> (forall x r, ~ hands_on m x r) ->
  m_set_name n m = m \/ exists k, m = MFetch k /\ m_set_name n m = MFetch n.
Proof.
  destruct m; cbn [keeps_name]; intros K H; try discriminate; try (left; reflexivity);
    try (exfalso; eapply H; constructor); eauto.
  destruct m; [exfalso; eapply H; constructor|left; reflexivity].
Qed.
Lemma set_name_consuming n m : m_consuming (m_set_name n m) = m_consuming m.
Proof. destruct m; try reflexivity. now destruct m. Qed.

(* ---------- equal parts ---------- *)

Section Same.
  Variables (E : env) (P : parser).

  (* whatever [x] comes to, [y] comes to *)
  Definition follows (x y : matcher) : Prop :=
    forall f c s st o, exec f E P x c s st = o -> o <> OOF -> exists k, exec k E P y c s st = o.

  Lemma same_follows x y :
    (forall c s st, same_outcomes E P x c s st y c s st) <-> follows x y /\ follows y x.
  Proof.
    split.
    - intros H. split; intros f c s st o Ho Hn.
      + destruct o as [r st'|p|]; [| |congruence].
        * destruct (proj1 (H c s st (Done r st')) (ex_intro _ f Ho)) as [k Hk]. eauto.
        * destruct (proj1 (H c s st (Panicked p)) (ex_intro _ f Ho)) as [k Hk]. eauto.
      + destruct o as [r st'|p|]; [| |congruence].
        * destruct (proj2 (H c s st (Done r st')) (ex_intro _ f Ho)) as [k Hk]. eauto.
        * destruct (proj2 (H c s st (Panicked p)) (ex_intro _ f Ho)) as [k Hk]. eauto.
    - intros [H1 H2] c s st.
      assert (D : forall a b, follows a b -> Diverges E P b c s st -> Diverges E P a c s st).
      { intros a b F D n. destruct (exec n E P a c s st) as [r st'|p|] eqn:Eq; [| |reflexivity].
        - destruct (F n c s st _ Eq) as [k Hk]; [discriminate|]. rewrite D in Hk. discriminate.
        - destruct (F n c s st _ Eq) as [k Hk]; [discriminate|]. rewrite D in Hk. discriminate. }
      intros [r st'|p|]; cbn [Does].
      + split; intros [f Hf]; [destruct (H1 f c s st _ Hf)|destruct (H2 f c s st _ Hf)]; try discriminate; now eexists; eauto.
      + split; intros [f Hf]; [destruct (H1 f c s st _ Hf)|destruct (H2 f c s st _ Hf)]; try discriminate; now eexists; eauto.
      + split; eauto.
  Qed.

  Lemma exec_more f k m c s st o : exec f E P m c s st = o -> o <> OOF -> (f <= k)%nat -> exec k E P m c s st = o.
  Proof. intros H Hn Hk. rewrite (exec_mono E P f k); auto. congruence. Qed.
  Lemma run_more f k i c s pt start count pats ps st o :
    run_patterns E P (exec f E P) i c s pt start count pats ps st = o -> o <> OOF -> (f <= k)%nat ->
    run_patterns E P (exec k E P) i c s pt start count pats ps st = o.
  Proof.
    intros H Hn Hk. destruct (run_patterns_upto E P _ _ i c s pt start count pats (exec_upto E P f k Hk) ps st); congruence.
  Qed.

  Lemma bind_follows {A B} (x : res A) (g : A -> state -> res B) (X : nat -> res A) (G : nat -> A -> state -> res B) :
    (do a, st <- x; g a st) <> OOF ->
    (x <> OOF -> exists k, forall k', (k <= k')%nat -> X k' = x) ->
    (forall a st, g a st <> OOF -> exists k, forall k', (k <= k')%nat -> G k' a st = g a st) ->
    exists k, forall k', (k <= k')%nat -> (do a, st <- X k'; G k' a st) = (do a, st <- x; g a st).
  Proof.
    intros Hn Hx Hg. destruct x as [a st|p|].
    - destruct Hx as [k1 H1]; [discriminate|]. destruct (Hg a st) as [k2 H2]; [congruence|].
      exists (max k1 k2). intros k' Hk. rewrite H1 by lia. now rewrite H2 by lia.
    - destruct Hx as [k1 H1]; [discriminate|]. exists k1. intros k' Hk. now rewrite H1 by lia.
    - congruence.
  Qed.

  Lemma follows_from x y : follows x y -> forall f c s st,
    exec f E P x c s st <> OOF -> exists k, forall k', (k <= k')%nat -> exec k' E P y c s st = exec f E P x c s st.
  Proof.
    intros H f c s st Hn. destruct (H f c s st _ eq_refl Hn) as [k Hk]. exists k.
    intros k' Hk'. eapply exec_more; eauto.
  Qed.

  Lemma patterns_follow f i c s pt start count pats pats' :
    Forall2 (fun x y => m_consuming x = m_consuming y /\ follows x y) pats pats' -> forall ps st,
    run_patterns E P (exec f E P) i c s pt start count pats ps st <> OOF ->
    exists k, forall k', (k <= k')%nat ->
      run_patterns E P (exec k' E P) i c s pt start count pats' ps st =
      run_patterns E P (exec f E P) i c s pt start count pats ps st.
  Proof.
    induction 1 as [|x y pats pats' [C F] Hp IH]; intros ps st Hn; [now exists O|].
    cbn [run_patterns] in *. rewrite <- C.
    refine (bind_follows _ _ _ _ Hn _ _); [exact (follows_from x y F _ _ _ _)|].
    cbn beta. intros r st1 Hn1. destruct r as [[]|[]]; try (now exists O).
    - destruct (should_discard _); [now apply IH|]. destruct (pi_stop i); [now exists O|].
      refine (bind_follows _ _ _ _ Hn1 _ _); [now exists O|]. intros; now apply IH.
    - destruct (should_discard _); [now apply IH|]. destruct (pi_stop i); [now exists O|].
      refine (bind_follows _ _ _ _ Hn1 _ _); [now exists O|]. intros; now apply IH.
    - destruct (_ && _); [now exists O|]. destruct (m_consuming x); [|now apply IH].
      refine (bind_follows _ _ _ _ Hn1 _ _); [now exists O|]. intros; now apply IH.
    - destruct (dbg _ _ _ _); [|now exists O]. destruct (pi_stop i); [now apply IH|now exists O].
  Qed.

  Lemma iterate_follows f pats pats' i c s pt start :
    Forall2 (fun x y => m_consuming x = m_consuming y /\ follows x y) pats pats' -> forall g left count ps st,
    iterate g E P (exec f E P) pats i c s pt start left count ps st <> OOF ->
    exists k, forall k', (k <= k')%nat ->
      iterate k' E P (exec k' E P) pats' i c s pt start left count ps st =
      iterate g E P (exec f E P) pats i c s pt start left count ps st.
  Proof.
    intros Hp. induction g as [|g IH]; intros left count ps st Hn.
    - cbn [iterate] in *. exists O. intros k' _. destruct k'; cbn [iterate]; destruct (left =? 0); congruence.
    - assert (S1 : forall left count ps st,
        iterate g E P (exec f E P) pats i c s pt start left count ps st <> OOF ->
        exists k, forall k', (k <= k')%nat ->
          iterate (pred k') E P (exec k' E P) pats' i c s pt start left count ps st =
          iterate g E P (exec f E P) pats i c s pt start left count ps st).
      { intros l' c' p' s' H'. destruct (IH l' c' p' s' H') as [k Hk]. exists (S k). intros k' Hk'.
        destruct k' as [|k']; [lia|]. cbn [pred]. specialize (Hk k' ltac:(lia)). rewrite <- Hk in H' |- *.
        destruct (iterate_upto E P (exec k' E P) (exec (S k') E P) pats' i c s pt start
                    (exec_upto E P k' (S k') ltac:(lia)) k' k' ltac:(lia) l' c' p' s'); congruence. }
      cbn [iterate] in Hn.
      assert (G : exists k, forall k', (k <= k')%nat ->
        iterate (S (pred k')) E P (exec k' E P) pats' i c s pt start left count ps st =
        iterate (S g) E P (exec f E P) pats i c s pt start left count ps st).
      { cbn [iterate]. destruct (left =? 0); [now exists O|].
        refine (bind_follows _ _ _ _ Hn _ _); [exact (patterns_follow f i c s pt start count pats pats' Hp ps st)|].
        cbn beta. intros [k ps1] st1 Hn1. destruct k as [|x|x]; [now apply S1| |now exists O].
        destruct x; try (now exists O).
        destruct (pi_stop i); [now exists O|].
        refine (bind_follows _ _ _ _ Hn1 _ _); [now exists O|]. cbn beta. intros ps2 st2 Hn2.
        destruct (is_target i name); [now apply S1|now exists O]. }
      destruct G as [k Hk]. exists (S k). intros k' Hk'. specialize (Hk k' ltac:(lia)).
      destruct k' as [|k']; [lia|]. exact Hk.
  Qed.

  Lemma lift_follows m m' :
    (forall f c s st, exec (S f) E P m c s st <> OOF -> exists k, forall k', (k <= k')%nat ->
       exec (S k') E P m' c s st = exec (S f) E P m c s st) -> follows m m'.
  Proof.
    intros H [|f] c s st o Ho Hn; [cbn in Ho; congruence|].
    destruct (H f c s st) as [k Hk]; [congruence|]. exists (S k). rewrite Hk by lia. exact Ho.
  Qed.

  Lemma follows_refl x : follows x x.
  Proof. intros f c s st o H _. eauto. Qed.

  Lemma part_follows n x y m a b : m_custom m = false -> m_consuming x = m_consuming y ->
    replaces n x m a -> replaces n y m b -> follows x y -> follows a b.
  Proof.
    intros Hc C Ha Hb F. destruct Ha; inversion Hb; subst; clear Hb; apply lift_follows;
      intros f' c s' st Hn; cbn [exec] in *; unfold step, before_exec in *; cbn [m_custom m_name] in *;
      try rewrite Hc in *;
      try (refine (bind_follows _ _ _ _ Hn _ _); [exact (follows_from x y F _ _ _ _)|]; intros; now exists O).
    - match goal with [ H : _ ++ _ = _ ++ _, L : List.length _ = List.length _ |- _ ] =>
        apply app_split in H as [-> H]; auto; injection H as _ -> end.
      unfold exec_program in *. apply iterate_follows; [|exact Hn].
      apply Forall2_app; [|constructor; [auto|]].
      + clear. induction before; constructor; auto using follows_refl.
      + clear. induction after; constructor; auto using follows_refl.
    - destruct s; [now apply (follows_from x y F)|].
      refine (bind_follows _ _ _ _ Hn _ _); [exact (follows_from x y F _ _ _ _)|]; intros; now exists O.
    - destruct (debug_range _ _ _ _); [|now exists O]. now apply (follows_from x y F).
  Qed.
  Lemma pin_follows x y off name : follows x y -> follows (MPin (Some x) off name false) (MPin (Some y) off name false).
  Proof.
    intros F. apply lift_follows. intros f c s st Hn. cbn [exec] in *. unfold step, before_exec in *.
    cbn [m_custom m_name] in *. destruct (fetch_value _ _ _) as [[v|g]|]; try (now exists O).
    destruct (pin_context _ _ _); [|now exists O]. now apply (follows_from x y F).
  Qed.
  Lemma ref_follows x y name : follows x y -> follows (MRef (FMatcher x) name false) (MRef (FMatcher y) name false).
  Proof.
    intros F. apply lift_follows. intros f c s st Hn. cbn [exec] in *. unfold step, before_exec in *.
    cbn [m_custom m_name fetch_value] in *. now apply (follows_from x y F).
  Qed.

  Lemma replaces_consuming n x m a : replaces n x m a -> m_consuming a = m_consuming m.
  Proof. now destruct 1. Qed.

  Lemma patched_follows a b : patched E P a b ->
    m_consuming a = m_consuming b /\ follows a b /\ follows b a.
  Proof.
    induction 1 as [x y [C H]|x y z _ (C1 & F1 & G1) _ (C2 & F2 & G2)|n x y m a b Hc Ha Hb _ (C & F & G)
                   |x y off name _ (C & F & G)|x y name _ (C & F & G)].
    - split; [exact C|]. now apply same_follows.
    - split; [congruence|]. split.
      + intros f c s st o Ho Hn. destruct (F1 f c s st o Ho Hn) as [k Hk]. eauto.
      + intros f c s st o Ho Hn. destruct (G2 f c s st o Ho Hn) as [k Hk]. eauto.
    - split; [now rewrite (replaces_consuming _ _ _ _ Ha), (replaces_consuming _ _ _ _ Hb)|].
      split; [exact (part_follows n x y m a b Hc C Ha Hb F)|exact (part_follows n y x m b a Hc (eq_sym C) Hb Ha G)].
    - split; [reflexivity|]. split; now apply pin_follows.
    - split; [reflexivity|]. split; now apply ref_follows.
  Qed.

  Lemma patched_same a b : patched E P a b -> interchangeable E P a b.
  Proof.
    intros H. apply patched_follows in H as (C & F & G). split; [exact C|]. apply same_follows. auto.
  Qed.
End Same.

(* one level more or less *)
Lemma level_same E P x y :
  m_consuming x = m_consuming y -> (forall f c s st, exec (S (S f)) E P x c s st = exec (S f) E P y c s st) ->
  interchangeable E P x y.
Proof.
  intros C H. split; [exact C|]. apply same_follows. split; intros f c s st o Ho Hn.
  - exists (S f). rewrite <- H. eapply exec_more; eauto.
  - exists (S (S f)). rewrite H. eapply exec_more; eauto.
Qed.
Lemma depth_same E P x y :
  m_consuming x = m_consuming y -> (forall f c s st, exec (S f) E P x c s st = exec (S f) E P y c s st) ->
  interchangeable E P x y.
Proof.
  intros C H. split; [exact C|]. apply same_follows. split; intros [|f] c s st o Ho Hn; try (cbn in Ho; congruence).
  - exists (S f). now rewrite <- H.
  - exists (S f). now rewrite H.
Qed.

Lemma optional_optional E P m : interchangeable E P (MOptional (MOptional m)) (MOptional m).
Proof.
  apply level_same; [reflexivity|]. intros f c s st. cbn [exec]. unfold step, before_exec. cbn [m_custom m_name].
  change (clone_with_name (clone_with_name c "Optional") "Optional") with (clone_with_name c "Optional").
  now destruct (exec f E P m (clone_with_name c "Optional") s st) as [[?|[]]| |].
Qed.
Lemma not_not E P m : interchangeable E P (MNot (MNot m)) (MOptional (MNot m)).
Proof.
  apply depth_same; [reflexivity|]. intros f c s st. destruct f as [|f]; [reflexivity|].
  cbn [exec]. unfold step, before_exec. cbn [m_custom m_name].
  change (clone_with_name (clone_with_name c "Not") "Not") with (clone_with_name c "Not").
  change (clone_with_name (clone_with_name c "Optional") "Not") with (clone_with_name c "Not").
  destruct (exec f E P m (clone_with_name c "Not") s st) as [[[]|[]]| |]; try reflexivity.
  destruct (z =? 0)%Z eqn:Z0; cbn; rewrite ?Z0; reflexivity.
Qed.
Lemma not_not_not E P m : interchangeable E P (MNot (MNot (MNot m))) (MNot (MNot m)).
Proof.
  apply level_same; [reflexivity|]. intros f c s st. destruct f as [|f]; [reflexivity|].
  cbn [exec]. unfold step, before_exec. cbn [m_custom m_name].
  change (clone_with_name (clone_with_name (clone_with_name c "Not") "Not") "Not") with (clone_with_name c "Not").
  change (clone_with_name (clone_with_name c "Not") "Not") with (clone_with_name c "Not").
  destruct (exec f E P m (clone_with_name c "Not") s st) as [[[]|[]]| |]; try reflexivity.
  destruct (z =? 0)%Z eqn:Z0; cbn; rewrite ?Z0; cbn; rewrite ?Z0; reflexivity.
Qed.
Lemma proxy_proxy E P m name :
  interchangeable E P (MProxy (MProxy m name false) name false) (MProxy m name false).
Proof.
  apply level_same; [reflexivity|]. intros f c s st. cbn [exec]. unfold step, before_exec. cbn [m_custom m_name].
  change (clone_with_name (clone_with_name c name) name) with (clone_with_name c name).
  destruct (exec f E P m (clone_with_name c name) s st) as [[x|]| |]; try reflexivity.
  destruct x as [| | |? x|? x| |]; try reflexivity; now destruct x.
Qed.
Lemma scope_scope E P s1 s2 m :
  interchangeable E P (MSetScope (Some s1) (MSetScope (Some s2) m)) (MSetScope (Some s2) m).
Proof. now apply level_same. Qed.

(* ---------- tokenizing ---------- *)

Lemma patched_tokenizes E P a b c st r st' : patched E P a b ->
  Tokenizes E P c a st r st' <-> Tokenizes E P c b st r st'.
Proof.
  intros H. apply patched_follows in H as (_ & F & G).
  assert (K : forall x y, follows E P x y -> Tokenizes E P c x st r st' -> Tokenizes E P c y st r st').
  { intros x y Fxy [n Hn]. unfold tokenize in Hn.
    destruct (exec n E P x c (c_scope c) st) as [q st1|p|] eqn:Eq; try discriminate.
    destruct (Fxy n c (c_scope c) st _ Eq) as [k Hk]; [discriminate|].
    exists k. unfold tokenize. now rewrite Hk. }
  split; apply K; auto.
Qed.

Lemma shown_not_set : exists m l x,
  get_children m = Some l /\ l <> [] /\ exists p, set_child 0 x m = Die p.
Proof.
  exists (MStore (SPMatcher MNull) "v" true), [MNull], MNull.
  split; [reflexivity|]. split; [discriminate|]. eexists. reflexivity.
Qed.

Lemma named_differ : exists E P x y m a b,
  interchangeable E P x y /\ replaces 0 x m a /\ replaces 0 y m b /\ ~ interchangeable E P a b.
Proof.
  exists at_env, (at_src ""), (MOptional (MOptional MNull)), (MOptional MNull),
    (MProxy MNull "n" true), (MProxy (MOptional (MOptional MNull)) "n" true), (MProxy (MOptional MNull) "n" true).
  split; [apply optional_optional|]. split; [constructor|]. split; [constructor|].
  intros [_ H]. specialize (H (at_ctx 0 0) 0%nat at_state
    (Done (Ok (SSkip 0)) (sc_set at_state 0%nat "n" (VMatcher (MProxy (MOptional (MOptional MNull)) "n" true))))).
  destruct (proj1 H) as [k Hk].
  - exists 4%nat. reflexivity.
  - destruct k as [|[|[|k]]]; discriminate Hk.
Qed.
