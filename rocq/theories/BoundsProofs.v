(* Ranges stay within the window (C45, C46). *)
From Verif Require Export TreeProofs.
Open Scope string_scope.
Open Scope list_scope.
Open Scope N_scope.

Section BoundsProofs.
  Variables (E : env) (P : parser) (pos : N -> Prop) (okstr : str -> Prop) (okfind : finder -> Prop).
  Hypothesis HE : tame E.
  Hypothesis Hfit : fitting (p_src P) pos okstr okfind E.
  Hypothesis Hlen : slen (p_src P) < isize_bound.
  Hypothesis Hslice : forall a b w, slice (p_src P) a b = Some w -> pos a /\ pos b.
  Hypothesis Hstr : forall v rest a b, okstr v -> slice (p_src P) a b = Some (v ++ rest) -> pos (a + slen v).
  Hypothesis Hfind : forall f w a b me, okfind f -> slice (p_src P) a b = Some w -> f w = Some (0, me) ->
    me <= slen w /\ pos (a + me).

  Notation bounded := (bounded okstr okfind).
  Notation scopes_bounded := (scopes_bounded okstr okfind).
  Notation tree_fits := (tree_fits pos).
  Notation token_fits := (token_fits pos).
  Notation success_fits := (success_fits pos).
  Notation result_fits := (result_fits pos).
  Notation window_ok := (window_ok (p_src P) pos).

  (* ---------- trees ---------- *)

  Lemma token_fits_wider lo lo' hi t : lo' <= lo -> token_fits lo hi t -> token_fits lo' hi t.
  Proof. unfold Spec.token_fits. intros H (H1 & H2 & H3 & H4). split; [lia|]. auto. Qed.
  Lemma tree_fits_wider lo lo' hi st a : lo' <= lo -> tree_fits lo hi st a -> tree_fits lo' hi st a.
  Proof.
    intros H (l & Hl & Hf). exists l. split; [exact Hl|]. intros x Hx. destruct (Hf x Hx). split; [|assumption].
    eapply token_fits_wider; eauto.
  Qed.

  Lemma token_fits_same lo hi t t' : tk_mr t' = tk_mr t -> tk_cr t' = tk_cr t -> tk_flags t' = tk_flags t ->
    tk_kind t' = tk_kind t -> token_fits lo hi t -> token_fits lo hi t'.
  Proof. unfold Spec.token_fits, is_error. intros -> -> -> ->. auto. Qed.

  Lemma sorted_ext {A} (R R' : A -> A -> Prop) l : (forall x y, In x l -> In y l -> R x y -> R' x y) ->
    StronglySorted R l -> StronglySorted R' l.
  Proof.
    intros H Hs. induction Hs as [|x l Hs IH Hx]; constructor.
    - apply IH. intros; apply H; auto; now right.
    - apply Forall_forall. intros y Hy. rewrite Forall_forall in Hx. apply H; [now left|now right|auto].
  Qed.
  Lemma sorted_snoc {A} (R : A -> A -> Prop) l a : StronglySorted R l -> (forall x, In x l -> R x a) ->
    StronglySorted R (l ++ [a]).
  Proof.
    intros Hs H. induction Hs as [|x l Hs IH Hx]; cbn [app].
    - constructor; [constructor|constructor].
    - constructor; [apply IH; intros; apply H; now right|]. apply Forall_app. split; [exact Hx|].
      constructor; [apply H; now left|constructor].
  Qed.

  (* ranges and children are all that matters *)
  Lemma kids_fit_ext st st' a : tk_kids (tok st' a) = tk_kids (tok st a) ->
    (forall x, x = a \/ In x (tk_kids (tok st a)) ->
       tk_mr (tok st' x) = tk_mr (tok st x) /\ tk_cr (tok st' x) = tk_cr (tok st x)) ->
    kids_fit st a -> kids_fit st' a.
  Proof.
    intros Hk Hx [H1 H2]. unfold kids_fit. rewrite Hk. split.
    - eapply sorted_ext; [|exact H1]. intros x y Hxi Hyi.
      destruct (Hx x (or_intror Hxi)) as [-> _]. destruct (Hx y (or_intror Hyi)) as [-> _]. auto.
    - intros k Hki. destruct (Hx k (or_intror Hki)) as [-> ->]. destruct (Hx a (or_introl eq_refl)) as [-> ->]. auto.
  Qed.

  Lemma tree_root lo hi st a : tree_fits lo hi st a -> token_fits lo hi (tok st a) /\ kids_fit st a.
  Proof. intros (l & Hl & Hf). apply Hf. inversion Hl; subst. now left. Qed.
  Lemma tree_kids lo hi st a : tree_fits lo hi st a -> forall k, In k (tk_kids (tok st a)) -> tree_fits lo hi st k.
  Proof.
    intros (l & Hl & Hf). inversion Hl as [|a' r' la lb Ha Hb]; subst. inversion Hb; subst.
    rewrite app_nil_r in *.
    assert (Hall : forall x, In x la -> token_fits lo hi (tok st x) /\ kids_fit st x) by (intros; apply Hf; now right).
    clear -Ha Hall. induction Ha as [|b roots l1 l2 H1 _ H2 IH2]; intros k Hk; [destruct Hk|].
    destruct Hk as [<-|Hk].
    - exists (b :: l1). split; [now apply preorder_one|]. intros x [<-|Hx]; apply Hall; [now left|].
      right. apply in_or_app. now left.
    - apply IH2; [|exact Hk]. intros x Hx. apply Hall. right. apply in_or_app. now right.
  Qed.
  Lemma trees_all lo hi st roots : (forall k, In k roots -> tree_fits lo hi st k) ->
    exists l, preorder st roots l /\ forall x, In x l -> token_fits lo hi (tok st x) /\ kids_fit st x.
  Proof.
    induction roots as [|a roots IH]; intros H; [exists []; split; [constructor|intros ? []]|].
    destruct (H a (or_introl eq_refl)) as (l1 & H1 & F1). destruct IH as (l2 & H2 & F2); [intros; apply H; now right|].
    exists (l1 ++ l2). split; [now apply (preorder_app st [a] roots)|].
    intros x Hx. apply in_app_or in Hx as [Hx|Hx]; auto.
  Qed.
  Lemma tree_join lo hi st a : token_fits lo hi (tok st a) -> kids_fit st a ->
    (forall k, In k (tk_kids (tok st a)) -> tree_fits lo hi st k) -> tree_fits lo hi st a.
  Proof.
    intros Ha Hka Hk. destruct (trees_all lo hi st _ Hk) as (l & Hl & Hf). exists (a :: l).
    split; [now apply preorder_one|]. intros x [<-|Hx]; auto.
  Qed.

  (* changes that leave the ranges and children alone *)
  Lemma tree_fits_ext lo hi st st' a :
    (forall x, tk_kids (tok st' x) = tk_kids (tok st x) /\ tk_mr (tok st' x) = tk_mr (tok st x) /\
       tk_cr (tok st' x) = tk_cr (tok st x) /\ tk_flags (tok st' x) = tk_flags (tok st x) /\
       tk_kind (tok st' x) = tk_kind (tok st x)) ->
    tree_fits lo hi st a -> tree_fits lo hi st' a.
  Proof.
    intros Hk (l & Hl & Hf). exists l. split; [eapply preorder_ext; [exact Hl|]; intros x _; apply Hk|].
    intros x Hx. destruct (Hf x Hx) as [F1 F2]. destruct (Hk x) as (K1 & K2 & K3 & K4 & K5). split.
    - eapply token_fits_same; eauto.
    - eapply kids_fit_ext; [exact K1| |exact F2]. intros y _. destruct (Hk y) as (_ & Y2 & Y3 & _). auto.
  Qed.
  Lemma tree_fits_heap lo hi st st' a : st_heap st' = st_heap st -> tree_fits lo hi st a -> tree_fits lo hi st' a.
  Proof.
    intros H. assert (Ht : forall x, tok st' x = tok st x) by (intros; unfold tok; now rewrite H).
    apply tree_fits_ext; intros x; now rewrite Ht.
  Qed.
  Lemma tree_fits_set lo hi st b t a : tk_kids t = tk_kids (tok st b) -> tk_mr t = tk_mr (tok st b) ->
    tk_cr t = tk_cr (tok st b) -> tk_flags t = tk_flags (tok st b) -> tk_kind t = tk_kind (tok st b) ->
    tree_fits lo hi st a -> tree_fits lo hi (set_tok st b t) a.
  Proof.
    intros H1 H2 H3 H4 H5. apply tree_fits_ext. intros x. destruct (Nat.eq_dec b x) as [<-|Hn].
    - destruct (Nat.lt_ge_cases b (List.length (st_heap st))).
      + rewrite tok_set_same by assumption. auto.
      + now rewrite tok_set_dead.
    - now rewrite tok_set_other.
  Qed.
  (* the tokens of the tree are all that matters *)
  Lemma tree_fits_tokens lo hi st st' a l : preorder st [a] l -> (forall x, In x l -> tok st' x = tok st x) ->
    tree_fits lo hi st a -> tree_fits lo hi st' a.
  Proof.
    intros Hp Hs (l' & Hl & Hf). rewrite (preorder_det _ _ _ Hp _ Hl) in *. clear Hp l. exists l'.
    split; [eapply preorder_ext; [exact Hl|]; intros x Hx; now rewrite Hs|].
    intros x Hx. destruct (Hf x Hx) as [F1 F2]. rewrite Hs by assumption. split; [exact F1|].
    assert (Hc : forall k, In k (tk_kids (tok st x)) -> In k l').
    { clear -Hl Hx. revert x Hx. generalize [a] Hl. clear Hl. intros roots Hl.
      induction Hl as [|b roots l1 l2 H1 IH1 H2 IH2]; intros x Hx k Hk; [destruct Hx|].
      destruct Hx as [<-|Hx].
      - right. apply in_or_app. left. eapply roots_in; eauto.
      - right. apply in_or_app. apply in_app_or in Hx as [Hx|Hx]; eauto. }
    eapply kids_fit_ext; [| |exact F2]; [now rewrite Hs|].
    intros y [->|Hy]; [now rewrite Hs|]. rewrite Hs by auto. auto.
  Qed.
  Lemma tree_fits_kept lo hi h st st' a : forest h st -> (h <= a < heap_size st)%nat ->
    preserved (heap_size st) st st' -> tree_fits lo hi st a -> tree_fits lo hi st' a.
  Proof.
    intros Hf Ha Hp Ht. pose proof Ht as (l & Hl & Hx).
    assert (Hr : forall b, In b [a] -> (h <= b < heap_size st)%nat) by (intros b [<-|[]]; exact Ha).
    eapply tree_fits_tokens; [exact Hl| |exact Ht]. intros x Hin. destruct Hp as [_ Hp]. apply Hp.
    eapply tree_within in Hin; [|exact Hf|exact Hr|exact Hl]. lia.
  Qed.
  Lemma leaf_fits lo hi st t : tk_kids t = [] -> token_fits lo hi t -> tree_fits lo hi (alloc st t) (next_addr st).
  Proof.
    intros Hk Ht. apply tree_join; unfold kids_fit; rewrite tok_alloc_new; [exact Ht| |]; rewrite Hk.
    - split; [constructor|intros k []].
    - intros k [].
  Qed.
  Lemma below_in st roots l : preorder st roots l -> forall k, In k roots ->
    forall lk, preorder st [k] lk -> forall x, In x lk -> In x l.
  Proof.
    induction 1 as [|a roots l1 l2 H1 IH1 H2 IH2]; intros k Hk lk Hlk x Hx; [destruct Hk|].
    change (a :: l1 ++ l2) with ((a :: l1) ++ l2). apply in_or_app. destruct Hk as [<-|Hk].
    - left. rewrite (preorder_det _ _ _ (preorder_one _ _ _ H1) _ Hlk). exact Hx.
    - right. eauto.
  Qed.
  (* no token is below itself *)
  Lemma preorder_sub st roots l : preorder st roots l -> forall b, In b l ->
    exists l', preorder st [b] l' /\ (List.length l' <= List.length l)%nat.
  Proof.
    induction 1 as [|a roots l1 l2 H1 IH1 H2 IH2]; intros b Hb; [destruct Hb|].
    cbn [List.length]. rewrite app_length. destruct Hb as [<-|Hb].
    - exists (a :: l1). split; [now apply preorder_one|]. cbn [List.length]. lia.
    - apply in_app_or in Hb as [Hb|Hb].
      + destruct (IH1 b Hb) as (l' & Hl & Hn). exists l'. split; [exact Hl|lia].
      + destruct (IH2 b Hb) as (l' & Hl & Hn). exists l'. split; [exact Hl|lia].
  Qed.
  Lemma not_below st a l : preorder st (tk_kids (tok st a)) l -> ~ In a l.
  Proof.
    intros Hl Hin. destruct (preorder_sub _ _ _ Hl _ Hin) as (l' & Hl' & Hn).
    rewrite (preorder_det _ _ _ Hl' _ (preorder_one _ _ _ Hl)) in Hn. cbn [List.length] in Hn. lia.
  Qed.

  Lemma success_fits_heap lo hi st st' x : st_heap st' = st_heap st -> success_fits lo hi st x -> success_fits lo hi st' x.
  Proof.
    intros H. induction x; cbn [Spec.success_fits]; auto; try (now apply tree_fits_heap);
      destruct x; auto.
  Qed.
  Lemma result_fits_heap lo hi st st' r : st_heap st' = st_heap st -> result_fits lo hi st r -> result_fits lo hi st' r.
  Proof. intros H. destruct r; cbn; [now apply success_fits_heap|auto]. Qed.

  (* ---------- scopes ---------- *)

  Lemma stack_get_in l n v : stack_get l n = Some v -> exists sc, In sc l /\ In (n, v) sc.
  Proof.
    induction l as [|sc l IH]; cbn [stack_get]; [discriminate|].
    destruct (assoc_get n sc) as [w|] eqn:Ew.
    - intros H. injection H as <-. exists sc. split; [now left|].
      clear -Ew. induction sc as [|[k x] sc IH]; cbn in Ew; [discriminate|].
      destruct (str_eqb n k) eqn:Ek; [apply str_eqb_eq in Ek as ->; injection Ew as ->; now left|right; auto].
    - intros H. destruct (IH H) as (sc' & H1 & H2). exists sc'. split; [now right|exact H2].
  Qed.
  Lemma scopes_get st s n m : scopes_bounded st -> sc_get st s n = Some (VMatcher m) -> bounded m.
  Proof.
    intros Hs H. unfold sc_get in H. apply stack_get_in in H as (sc & H1 & H2).
    destruct (Nat.lt_ge_cases s (List.length (st_scopes st))) as [Hl|Hl].
    - apply (Hs (stack_of st s) sc n m); auto. unfold stack_of. now apply nth_In.
    - unfold stack_of in H1. rewrite nth_overflow in H1 by exact Hl. destruct H1.
  Qed.
  Lemma assoc_set_in {V} n (v : V) l k x : In (k, x) (assoc_set n v l) -> x = v \/ In (k, x) l.
  Proof.
    unfold assoc_set. intros [H|H]; [injection H as _ <-; now left|]. right. now apply filter_In in H.
  Qed.
  Lemma upd_in {A} i (x : A) l y : In y (upd i x l) -> y = x \/ In y l.
  Proof.
    revert i. induction l as [|a l IH]; intros [|i]; cbn [upd]; intros H; try (now right).
    - destruct H as [<-|H]; [now left|right; now right].
    - destruct H as [<-|H]; [right; now left|]. destruct (IH i H); [now left|right; now right].
  Qed.
  Lemma scopes_stack st s l : scopes_bounded st ->
    (forall sc n m, In sc l -> In (n, VMatcher m) sc -> bounded m) -> scopes_bounded (set_stack st s l).
  Proof.
    intros Hs Hl stack sc n m H1 H2 H3. cbn [st_scopes set_stack] in H1.
    apply upd_in in H1 as [->|H1]; [eapply Hl; eauto|eapply Hs; eauto].
  Qed.
  Lemma scopes_of st s : scopes_bounded st -> forall sc n m, In sc (stack_of st s) -> In (n, VMatcher m) sc -> bounded m.
  Proof.
    intros Hs sc n m H1 H2.
    destruct (Nat.lt_ge_cases s (List.length (st_scopes st))) as [Hl|Hl].
    - apply (Hs (stack_of st s) sc n m); auto. unfold stack_of. now apply nth_In.
    - unfold stack_of in H1. rewrite nth_overflow in H1 by exact Hl. destruct H1.
  Qed.
  Lemma scopes_set st s n v : scopes_bounded st -> (forall m, v = VMatcher m -> bounded m) ->
    scopes_bounded (sc_set st s n v).
  Proof.
    intros Hs Hv. apply scopes_stack; [exact Hs|]. pose proof (scopes_of st s Hs) as Ho.
    intros sc k m H1 H2. destruct (stack_of st s) as [|sc0 l]; cbn [stack_set] in H1.
    - destruct H1 as [<-|[]]. apply assoc_set_in in H2 as [H2|[]]. symmetry in H2. now apply Hv.
    - destruct H1 as [<-|H1]; [|exact (Ho sc k m (or_intror H1) H2)].
      apply assoc_set_in in H2 as [H2|H2]; [symmetry in H2; now apply Hv|]. exact (Ho sc0 k m (or_introl eq_refl) H2).
  Qed.
  Lemma scopes_push st s : scopes_bounded st -> scopes_bounded (sc_push st s).
  Proof.
    intros Hs. apply scopes_stack; [exact Hs|]. intros sc n m [<-|H1] H2; [destruct H2|].
    eapply scopes_of; eauto.
  Qed.
  Lemma scopes_pop st s : scopes_bounded st -> scopes_bounded (sc_pop st s).
  Proof.
    intros Hs. apply scopes_stack; [exact Hs|]. intros sc n m H1 H2.
    eapply (scopes_of st s); eauto. destruct (stack_of st s); [exact H1|now right].
  Qed.
  Lemma scopes_heap st st' : st_scopes st' = st_scopes st -> scopes_bounded st -> scopes_bounded st'.
  Proof. unfold Spec.scopes_bounded. intros ->. auto. Qed.
  Lemma before_bounded m s st : bounded m -> scopes_bounded st -> scopes_bounded (before_exec m s st).
  Proof.
    intros Hm Hs. unfold before_exec. destruct (m_custom m); [|exact Hs]. apply scopes_set; [exact Hs|].
    intros m' H. now injection H as <-.
  Qed.

  (* ---------- positions ---------- *)

  Lemma src_slice_val a b w : src_slice P a b = Val w -> slice (p_src P) a b = Some w.
  Proof. unfold src_slice. destruct (slice _ _ _); cbn; [congruence|discriminate]. Qed.
  Lemma slice_len s a b w : slice s a b = Some w -> a + slen w = b /\ b <= slen s.
  Proof.
    intros H. apply slice_some in H as (pre & post & -> & H1 & H2 & _). rewrite !slen_app. lia.
  Qed.

  Lemma matches_fits c v r : okstr v -> matches_str P c v = Val (Some r) ->
    rs r = rs (c_off c) /\ re r = rs (c_off c) + slen v /\ re r <= re (c_off c) /\ pos (re r).
  Proof.
    intros Hv H. unfold matches_str in H. destruct (slen v =? 0); [discriminate|].
    destruct (src_slice P _ _) as [w|] eqn:Ew; [|discriminate]. apply src_slice_val in Ew.
    destruct (starts_with v w) eqn:Es; [|discriminate]. apply starts_with_iff in Es as [rest ->].
    injection H as <-. unfold clone_with_len. cbn [rs re].
    pose proof (Hstr _ _ _ _ Hv Ew). apply slice_len in Ew. rewrite slen_app in Ew. repeat split; auto; lia.
  Qed.

  Lemma matches_at_fits c v off r : matches_str_at P c v off = Val (Some r) ->
    rs r = off /\ re r = off + slen v /\ re r <= re (c_off c) /\ pos off /\ (okstr v -> pos (re r)).
  Proof.
    intros H. unfold matches_str_at in H. destruct (_ || _); [discriminate|].
    destruct (src_slice P _ _) as [w|] eqn:Ew; [|discriminate]. apply src_slice_val in Ew.
    destruct (starts_with v w) eqn:Es; [|discriminate]. apply starts_with_iff in Es as [rest ->].
    injection H as <-. cbn [rs re]. pose proof (Hslice _ _ _ Ew) as [Ho _].
    pose proof (fun Hv => Hstr _ _ _ _ Hv Ew). apply slice_len in Ew. rewrite slen_app in Ew. repeat split; auto; lia.
  Qed.

  Lemma regexp_fits c f r : okfind f -> matches_regexp P c f = Val (Some r) ->
    rs r = rs (c_off c) /\ rs r <= re r <= re (c_off c) /\ pos (re r).
  Proof.
    intros Hf H. unfold matches_regexp in H.
    destruct (src_slice P _ _) as [w|] eqn:Ew; [|discriminate]. apply src_slice_val in Ew.
    destruct (f w) as [[ms me]|] eqn:Efw; [|discriminate].
    destruct (N.eqb_spec (ms + rs (c_off c)) (rs (c_off c))) as [E0|E0]; [|discriminate].
    assert (ms = 0) by lia. subst ms. injection H as <-. cbn [rs re].
    destruct (Hfind _ _ _ _ _ Hf Ew Efw) as [H1 H2]. apply slice_len in Ew.
    rewrite (N.add_comm me). repeat split; auto; lia.
  Qed.

  Lemma seq_scan_fits c ep esc : forall f index prev parts i v,
    seq_scan f P c ep esc index prev parts = Val (Found i v) ->
    index <= i /\ pos i /\ i + slen ep <= re (c_off c) /\ (okstr ep -> pos (i + slen ep)).
  Proof.
    induction f as [|f IH]; intros index prev parts i v H; cbn [seq_scan] in H; [discriminate|].
    destruct (_ <=? _); [discriminate|].
    destruct (matches_str_at P c ep index) as [[r|]|] eqn:E1; try discriminate.
    - destruct (if prev <? index then _ else _); [|discriminate]. injection H as <- <-.
      apply matches_at_fits in E1 as (H1 & H2 & H3 & H4 & H5). rewrite H2 in *. repeat split; auto; lia.
    - destruct (matches_str_at P c esc index) as [[r|]|] eqn:E2; try discriminate.
      + destruct (if prev <? index then _ else _); [|discriminate]. apply IH in H as (H1 & H2).
        apply matches_at_fits in E2 as (H3 & H4 & _). split; [lia|auto].
      + apply IH in H as (H1 & H2). split; [lia|auto].
  Qed.

  Lemma fetched_literal st s f v : literal_ok okstr f -> fetch_value st s f = Val (GStr v) -> okstr v.
  Proof.
    destruct f; cbn [literal_ok fetch_value]; intros Ho H; try (apply Ho); [injection H as <-; exact Ho|discriminate].
  Qed.

  (* ---------- Discard ---------- *)

  Lemma tree_no_errors lo hi st a : tree_fits lo hi st a -> errors_below st a [].
  Proof.
    intros (l & Hl & Hf). exists l. split; [exact Hl|].
    assert (He : forall x, In x l -> is_error (tok st x) = false) by (intros x Hx; destruct (Hf x Hx) as [(_ & _ & _ & _ & _ & _ & _ & He & _) _]; exact He).
    clear -He. induction l as [|x l IH]; [reflexivity|]. cbn [filter]. rewrite He by now left.
    apply IH. intros y Hy. apply He. now right.
  Qed.
  Lemma skip_token_fits lo hi a st x st' : lo <= hi -> hi <= slen (p_src P) -> tree_fits lo hi st a ->
    skip_token E P lo a st = Ret x st' -> success_fits lo hi st' x /\ st_scopes st' = st_scopes st.
  Proof.
    intros Hle Hhi Ht H. unfold skip_token in H.
    rewrite (error_tokens_spec _ _ _ (tree_no_errors _ _ _ _ Ht)) in H.
    pose proof (tree_root _ _ _ _ Ht) as ((T1 & T2 & T3 & T4 & T5 & T6 & T7 & T8) & _).
    rewrite isize_sub_small in H by lia. cbn [or_die] in H. injection H as <- <-.
    split; [|reflexivity]. cbn [Spec.success_fits].
    replace (lo + Z.to_N _) with (re (tk_mr (tok st a))) by lia. split; [lia|]. split; [lia|exact T7].
  Qed.
  Lemma discard_payload_fits lo hi p st x st' : lo <= hi -> hi <= slen (p_src P) ->
    match p with SBreak _ _ | SContinue _ _ => False | _ => success_fits lo hi st p end ->
    discard_payload E P lo p st = Ret x st' ->
    match x with SBreak _ _ | SContinue _ _ => False | _ => success_fits lo hi st' x end /\ st_scopes st' = st_scopes st.
  Proof.
    intros Hle Hhi Hp H. destruct p; cbn [discard_payload] in H; try discriminate;
      try (injection H as <- <-; now split).
    - assert (Hx : success_fits lo hi st' x /\ st_scopes st' = st_scopes st) by (eapply skip_token_fits; eauto).
      unfold skip_token in H. destruct (error_tokens _ _ _) as [[|e l]|]; [| |discriminate].
      + destruct (or_die _ _); [|discriminate]. injection H as <- <-. exact Hx.
      + injection H as <- <-. exact Hx.
    - assert (Hx : success_fits lo hi st' x /\ st_scopes st' = st_scopes st) by (eapply skip_token_fits; eauto).
      unfold skip_token in H. destruct (error_tokens _ _ _) as [[|e l]|]; [| |discriminate].
      + destruct (or_die _ _); [|discriminate]. injection H as <- <-. exact Hx.
      + injection H as <- <-. exact Hx.
  Qed.
  Lemma discard_fits lo hi r st r' st' : lo <= hi -> hi <= slen (p_src P) ->
    result_fits lo hi st r -> discard_result E P lo r st = Ret r' st' ->
    result_fits lo hi st' r' /\ st_scopes st' = st_scopes st.
  Proof.
    intros Hle Hhi Hr H. destruct r as [x|e]; [|injection H as <- <-; now split].
    destruct x; cbn [discard_result] in H; try (injection H as <- <-; now split).
    - destruct (skip_token E P lo a st) as [y st1|p|] eqn:Ey; try discriminate. injection H as <- <-.
      eapply skip_token_fits; eauto.
    - destruct (skip_token E P lo a st) as [y st1|p|] eqn:Ey; try discriminate. injection H as <- <-.
      eapply skip_token_fits; eauto.
    - destruct (discard_payload E P lo x st) as [y st1|p|] eqn:Ey; try discriminate. injection H as <- <-.
      cbn [Spec.result_fits Spec.success_fits] in *. eapply discard_payload_fits; eauto.
    - destruct (discard_payload E P lo x st) as [y st1|p|] eqn:Ey; try discriminate. injection H as <- <-.
      cbn [Spec.result_fits Spec.success_fits] in *. eapply discard_payload_fits; eauto.
  Qed.

  (* ---------- Map ---------- *)

  Lemma map_ok_fits f a c s st r st' : quiet_map f -> window_ok c -> scopes_bounded st ->
    tree_fits (rs (c_off c)) (re (c_off c)) st a ->
    map_ok E P f a c s st = Ret r st' ->
    result_fits (rs (c_off c)) (re (c_off c)) st' r /\ scopes_bounded st'.
  Proof.
    intros Hq Hc Hs Ha H.
    assert (Hset : forall t, tk_kids t = tk_kids (tok st a) -> tk_mr t = tk_mr (tok st a) -> tk_cr t = tk_cr (tok st a) ->
      tk_flags t = tk_flags (tok st a) -> tk_kind t = tk_kind (tok st a) ->
      result_fits (rs (c_off c)) (re (c_off c)) (set_tok st a t) (Ok (SToken a)) /\ scopes_bounded (set_tok st a t)).
    { intros t H1 H2 H3 H4 H5. split; [|exact Hs]. cbn. now apply tree_fits_set. }
    assert (Hskip : result_fits (rs (c_off c)) (re (c_off c)) st (Ok (SSkip 0))).
    { destruct Hc as (C1 & C2 & C3). cbn. rewrite N.add_0_r. repeat split; auto; lia. }
    destruct f; cbn [map_ok quiet_map] in *; try contradiction; unfold modify in H.
    - destruct (Hfit c st Hc Hs) as (Hok & _). eapply Hok; eauto.
    - destruct (error_string E P _ _); [|discriminate]. injection H as <- <-. now split.
    - injection H as <- <-. now split.
    - injection H as <- <-. apply Hset; [apply add_missing_kids| | |apply add_missing_flags|apply add_missing_kind];
        clear; generalize (tok st a); induction l as [|kv l IH]; intros t; cbn [add_missing_attrs fold_left] in *;
        try reflexivity; fold (add_missing_attrs l); unfold add_missing_attrs in IH; rewrite IH; destruct (get_attr (fst kv) t); reflexivity.
    - injection H as <- <-. now apply Hset.
    - destruct (attributes_of st a) as [l|]; [|discriminate]. injection H as <- <-.
      apply Hset; [apply set_attrs_kids| | |apply set_attrs_flags|apply set_attrs_kind];
        clear; generalize (tok st a); unfold set_attrs; induction l as [|kv l IH]; intros t; cbn [fold_left];
        try reflexivity; now rewrite IH.
    - injection H as <- <-. now apply Hset.
  Qed.

  Lemma map_err_fits f e c s st r st' : quiet_map f -> window_ok c -> scopes_bounded st ->
    map_err E P f e c s st = Ret r st' ->
    result_fits (rs (c_off c)) (re (c_off c)) st' r /\ scopes_bounded st'.
  Proof.
    intros Hq Hc Hs H.
    assert (Hskip : result_fits (rs (c_off c)) (re (c_off c)) st (Ok (SSkip 0))).
    { destruct Hc as (C1 & C2 & C3). cbn. rewrite N.add_0_r. repeat split; auto; lia. }
    destruct (Hfit c st Hc Hs) as (_ & Herr & _).
    destruct f, e; cbn [map_err quiet_map] in *; try contradiction;
      try (injection H as <- <-; now split);
      try (eapply Herr; now eauto).
    destruct (error_string E P _ (c_off c)); [|discriminate]. injection H as <- <-. now split.
  Qed.

  (* ---------- programs ---------- *)

  (* nothing collected yet, or a proper range *)
  Definition range_fits (lo hi : N) (r : range) : Prop :=
    r = mkR usize_max 0 \/ (lo <= rs r /\ rs r <= re r /\ re r <= hi /\ pos (rs r) /\ pos (re r)).

  Lemma contain_fits lo hi r s : hi < usize_max -> range_fits lo hi r ->
    lo <= rs s -> rs s <= re s -> re s <= hi -> pos (rs s) -> pos (re s) ->
    range_fits lo hi (contain r s) /\ contain r s <> mkR usize_max 0 /\
    rs (contain r s) <= rs s /\ re s <= re (contain r s) /\
    rs (contain r s) <= rs r /\ re r <= re (contain r s).
  Proof.
    intros Hhi Hr H1 H2 H3 H4 H5. unfold contain.
    destruct Hr as [->|(R1 & R2 & R3 & R4 & R5)]; cbn [rs re].
    - destruct (N.ltb_spec (rs s) usize_max); [|lia].
      destruct (N.ltb_spec 0 (re s)) as [H0|H0].
      + split; [right; cbn [rs re]; repeat split; auto; lia|]. split; [|cbn [rs re]; lia].
        intros Hx. injection Hx as Hx _. lia.
      + assert (re s = 0) by lia. split; [right; cbn [rs re]; repeat split; auto; try lia; congruence|].
        split; [|cbn [rs re]; lia]. intros Hx. injection Hx as Hx. lia.
    - destruct (N.ltb_spec (rs s) (rs r)), (N.ltb_spec (re r) (re s)); cbn [rs re];
        (split; [right; cbn [rs re]; repeat split; auto; lia|]; split; [intros Hx; injection Hx as Hx _; lia|lia]).
  Qed.

  Section ProgramBounds.
    Variables (rec : recT) (pt : addr) (st_s : state) (lo hi : N) (i : pinfo) (c : ctx).
    Hypothesis Hsound : forall h, sound h rec.
    Hypothesis Hrec : forall m c s st r st', bounded m -> scopes_bounded st -> window_ok c ->
      rec m c s st = Ret r st' ->
      result_fits (rs (c_off c)) (re (c_off c)) st' r /\ scopes_bounded st' /\
      (m_consuming m = false -> result_tokens r = []).
    Hypothesis Hpt : heap_size st_s = pt.
    Hypothesis Hlo : lo <= hi.
    Hypothesis Hhi : hi <= slen (p_src P).
    Hypothesis Hphi : pos hi.
    Hypothesis Hplo : pos lo.
    Hypothesis Hc : re (c_off c) = hi.

    (* [b] is a bound of the children collected so far, normally the cursor *)
    Definition pinv_at (b : N) (st : state) (ps : pst) : Prop :=
      stage pt st_s st ps /\ scopes_bounded st /\
      (lo <= ps_off ps <= hi /\ pos (ps_off ps)) /\
      (forall k, In k (ps_kids ps) -> tree_fits lo hi st k) /\
      range_fits lo hi (ps_cr ps) /\ range_fits lo hi (ps_mr ps) /\
      (ps_cr ps <> mkR usize_max 0 -> ps_mr ps <> mkR usize_max 0 /\
         rs (ps_mr ps) <= rs (ps_cr ps) /\ re (ps_cr ps) <= re (ps_mr ps)) /\
      (is_error (tok st pt) = false) /\
      (StronglySorted (fun x y => re (tk_mr (tok st x)) <= rs (tk_mr (tok st y))) (ps_kids ps) /\
       forall k, In k (ps_kids ps) ->
         re (tk_mr (tok st k)) <= b /\
         rs (ps_mr ps) <= rs (tk_mr (tok st k)) /\ re (tk_mr (tok st k)) <= re (ps_mr ps) /\
         rs (ps_cr ps) <= rs (tk_cr (tok st k)) /\ re (tk_cr (tok st k)) <= re (ps_cr ps)).
    Definition pinv (st : state) (ps : pst) : Prop := pinv_at (ps_off ps) st ps.

    Lemma hi_small : hi < usize_max.
    Proof. clear -Hhi Hlen. unfold isize_bound, usize_max in *. lia. Qed.

    Lemma contain_minmax r s : rs (contain r s) = N.min (rs r) (rs s) /\ re (contain r s) = N.max (re r) (re s).
    Proof.
      clear. unfold contain. destruct (N.ltb_spec (rs s) (rs r)), (N.ltb_spec (re r) (re s)); cbn [rs re]; lia.
    Qed.

    (* a new child or proxied token widens both ranges *)
    Lemma widen_ranges ps t : token_fits lo hi t ->
      range_fits lo hi (ps_cr ps) -> range_fits lo hi (ps_mr ps) ->
      (ps_cr ps <> mkR usize_max 0 -> ps_mr ps <> mkR usize_max 0 /\
         rs (ps_mr ps) <= rs (ps_cr ps) /\ re (ps_cr ps) <= re (ps_mr ps)) ->
      let cr := contain (ps_cr ps) (tk_cr t) in let mr := contain (ps_mr ps) (tk_mr t) in
      range_fits lo hi cr /\ range_fits lo hi mr /\
      (cr <> mkR usize_max 0 -> mr <> mkR usize_max 0 /\ rs mr <= rs cr /\ re cr <= re mr).
    Proof.
      intros (T1 & T2 & T3 & T4 & T5 & T6 & T7 & T8) Hcr Hmr Hin cr mr. pose proof hi_small as Hs.
      destruct (contain_fits lo hi (ps_cr ps) (tk_cr t) Hs Hcr) as (A1 & A2 & A3 & A4 & A5 & A6); auto; try lia.
      destruct (contain_fits lo hi (ps_mr ps) (tk_mr t) Hs Hmr) as (B1 & B2 & B3 & B4 & B5 & B6); auto; try lia.
      split; [exact A1|]. split; [exact B1|]. intros _. split; [exact B2|]. unfold cr, mr in *.
      clear A1 A2 A5 A6 B1 B2 Hmr T4 T5 T6 T7 T8.
      destruct (contain_minmax (ps_cr ps) (tk_cr t)) as [-> ->].
      destruct (contain_minmax (ps_mr ps) (tk_mr t)) as [-> ->].
      clear A3 A4 B3 B4 B5 B6 cr mr. destruct Hcr as [Hb|Hb].
      - rewrite Hb. cbn [rs re]. clear Hin Hb. clear -T1 T2 T3 Hs. lia.
      - assert (Hne : ps_cr ps <> mkR usize_max 0).
        { intros Hx. rewrite Hx in Hb. cbn [rs re] in Hb. clear -Hb. unfold usize_max in *. lia. }
        destruct (Hin Hne) as (I1 & I2 & I3). clear -T1 T2 T3 I2 I3. lia.
    Qed.

    Lemma contain_both r s : rs (contain r s) <= rs s /\ re s <= re (contain r s) /\
      rs (contain r s) <= rs r /\ re r <= re (contain r s).
    Proof.
      clear. unfold contain. destruct (N.ltb_spec (rs s) (rs r)), (N.ltb_spec (re r) (re s)); cbn [rs re]; lia.
    Qed.

    (* [new]: tokens that are still to be added, in order *)
    Definition follows (st : state) (off : N) (new : list addr) : Prop :=
      StronglySorted (fun x y => re (tk_mr (tok st x)) <= rs (tk_mr (tok st y))) new /\
      forall k, In k new -> off <= rs (tk_mr (tok st k)) /\ tree_fits lo hi st k /\ (S pt <= k < heap_size st)%nat.

    Lemma add_token_pinv b a new fwd ps st ps' st' : pinv_at b st ps -> follows st b (a :: new) ->
      add_token P pt a fwd true ps st = Ret ps' st' ->
      pinv st' ps' /\ follows st' (ps_off ps') new.
    Proof.
      intros (I1 & I2 & I3 & I4 & I5 & I6 & I7 & I8 & I9) [F1 F2] H.
      destruct (F2 a (or_introl eq_refl)) as (G1 & Ha & Hr).
      assert (Hx : stage pt st_s st' ps' /\ heap_size st' = heap_size st).
      { eapply (add_token_stage P 0 pt st_s Hpt); [lia|exact I1|exact Hr|exact H]. }
      pose proof (tree_root _ _ _ _ Ha) as [Ht _]. pose proof Ht as (T1 & T2 & T3 & T4 & T5 & T6 & T7 & T8 & T9).
      unfold add_token in H. rewrite T8 in H. cbn [negb andb] in H.
      destruct (fwd && true && (re (tk_mr (tok st a)) =? ps_off ps)); [discriminate|]. injection H as <- <-.
      set (st' := set_tok st a (set_parent (Some pt) (tok st a))) in *.
      assert (Hkeep : forall x, tree_fits lo hi st x -> tree_fits lo hi st' x).
      { intros x. now apply tree_fits_set. }
      assert (Hmr : forall x, tk_mr (tok st' x) = tk_mr (tok st x) /\ tk_cr (tok st' x) = tk_cr (tok st x)).
      { intros x. unfold st'. destruct (Nat.eq_dec a x) as [<-|Hn].
        - rewrite tok_set_same by (unfold heap_size in Hr; lia). auto.
        - now rewrite tok_set_other. }
      assert (Hsort : forall l, StronglySorted (fun x y => re (tk_mr (tok st x)) <= rs (tk_mr (tok st y))) l ->
        StronglySorted (fun x y => re (tk_mr (tok st' x)) <= rs (tk_mr (tok st' y))) l).
      { intros l. apply sorted_ext. intros x y _ _. destruct (Hmr x) as [-> _]. destruct (Hmr y) as [-> _]. auto. }
      inversion F1 as [|x y F3 F4]; subst x y. rewrite Forall_forall in F4.
      destruct (widen_ranges ps (tok st a) Ht I5 I6 I7) as (W1 & W2 & W3).
      destruct (contain_both (ps_mr ps) (tk_mr (tok st a))) as (M1 & M2 & M3 & M4).
      destruct (contain_both (ps_cr ps) (tk_cr (tok st a))) as (C1 & C2 & C3 & C4).
      destruct I9 as [I9 I10].
      cbn [ps_off]. split.
      - split; [apply Hx|]. cbn [ps_off ps_kids ps_cr ps_mr].
        split; [exact I2|]. split; [split; [lia|exact T7]|].
        split.
        { intros k Hk. apply Hkeep. apply in_app_or in Hk as [Hk|[<-|[]]]; auto. }
        split; [auto|]. split; [auto|]. split; [auto|].
        split; [unfold st'; rewrite tok_set_other by lia; exact I8|]. split.
        + apply Hsort. apply sorted_snoc; [exact I9|]. intros x Hxi. apply I10 in Hxi. lia.
        + intros k Hk. destruct (Hmr k) as [-> ->]. apply in_app_or in Hk as [Hk|[<-|[]]]; [|lia].
          apply I10 in Hk. lia.
      - split; [now apply Hsort|]. intros k Hk. destruct (Hmr k) as [-> _]. split; [now apply F4|].
        destruct (F2 k (or_intror Hk)) as (_ & G2 & G3). split; [now apply Hkeep|]. destruct Hx as [_ Hx].
        rewrite Hx. exact G3.
    Qed.

    Lemma pinv_bound b b' st ps : b <= b' -> pinv_at b st ps -> pinv_at b' st ps.
    Proof.
      intros Hb (I1 & I2 & I3 & I4 & I5 & I6 & I7 & I8 & I9 & I10). unfold pinv_at.
      repeat (split; [assumption|]). intros k Hk. apply I10 in Hk. lia.
    Qed.

    Lemma extract_pinv self l : forall b ps st ps' st', b <= ps_off ps -> pinv_at b st ps -> follows st b l ->
      extract_children P pt self true l ps st = Ret ps' st' -> pinv st' ps'.
    Proof.
      induction l as [|k l IH]; intros b ps st ps' st' Hb Hst Hl H; cbn [extract_children] in H.
      - injection H as <- <-. eapply pinv_bound; eauto.
      - destruct (should_discard (tok st k)).
        + eapply IH; [exact Hb|exact Hst| |exact H]. destruct Hl as [L1 L2]. inversion L1; subst.
          split; [assumption|]. intros; apply L2; now right.
        + destruct (Nat.eqb k self); [discriminate|].
          destruct (add_token P pt k false true ps st) as [ps1 st1|p|] eqn:Ea; try discriminate.
          apply (add_token_pinv _ _ _ _ _ _ _ _ Hst Hl) in Ea as [Ea Hl'].
          eapply IH; [apply N.le_refl|exact Ea|exact Hl'|exact H].
    Qed.

    Lemma handle_token_pinv a fwd ps st ps' st' : pinv st ps -> tree_fits (ps_off ps) hi st a -> (S pt <= a < heap_size st)%nat ->
      handle_token P pt a fwd true ps st = Ret ps' st' -> pinv st' ps'.
    Proof.
      intros Hst Ha Hr H. unfold handle_token in H.
      assert (Hlo1 : lo <= ps_off ps) by apply Hst.
      pose proof (tree_root _ _ _ _ Ha) as [(T1 & T2 & T3 & T4 & T5 & T6 & T7 & T8 & T9) _].
      replace (true && negb (should_discard (tok st a))) with true in H
        by (unfold should_discard; now rewrite T9).
      eapply (add_token_pinv (ps_off ps) a []) in H; [apply H|exact Hst|].
      split; [repeat constructor|]. intros k [<-|[]]. split; [lia|]. split; [|exact Hr].
      eapply tree_fits_wider; eauto.
    Qed.

    Lemma handle_extract_pinv a ps st ps' st' : pinv st ps -> tree_fits (ps_off ps) hi st a -> (S pt <= a < heap_size st)%nat ->
      handle_extract P pt a true ps st = Ret ps' st' -> pinv st' ps'.
    Proof.
      intros Hst Ha Hr H. unfold handle_extract in H.
      assert (Hlo1 : lo <= ps_off ps) by apply Hst.
      pose proof (tree_root _ _ _ _ Ha) as [Ht [Hk1 Hk2]].
      pose proof (token_fits_wider _ _ _ _ Hlo1 Ht) as Ht'.
      pose proof Ht as (T1 & T2 & T3 & T4 & T5 & T6 & T7 & T8 & T9).
      replace (true && negb (should_discard (tok st a))) with true in H
        by (unfold should_discard; now rewrite T9).
      destruct Hst as (I1 & I2 & I3 & I4 & I5 & I6 & I7 & I8 & I9 & I10).
      set (ps1 := mkPst (re (tk_mr (tok st a))) (ps_kids ps) (contain (ps_cr ps) (tk_cr (tok st a)))
                        (contain (ps_mr ps) (tk_mr (tok st a)))) in *.
      destruct (widen_ranges ps (tok st a) Ht' I5 I6 I7) as (W1 & W2 & W3).
      destruct (contain_both (ps_mr ps) (tk_mr (tok st a))) as (M1 & M2 & M3 & M4).
      destruct (contain_both (ps_cr ps) (tk_cr (tok st a))) as (C1 & C2 & C3 & C4).
      eapply (extract_pinv a _ (ps_off ps) ps1); [cbn [ps1 ps_off]; lia| | |exact H].
      - split; [eapply stage_kids; [exact I1|apply I1]|]. cbn [ps1 ps_off ps_kids ps_cr ps_mr].
        split; [exact I2|]. split; [split; [lia|exact T7]|]. split; [exact I4|]. split; [exact W1|].
        split; [exact W2|]. split; [exact W3|]. split; [exact I8|]. split; [exact I9|].
        intros k Hk. apply I10 in Hk. lia.
      - split; [exact Hk1|]. intros k Hk. split; [apply Hk2 in Hk; lia|]. split.
        + eapply tree_fits_wider; [exact Hlo1|]. eapply tree_kids; eauto.
        + eapply (forest_closed (S pt) st); [apply I1|exact Hr|exact Hk].
    Qed.

    Lemma handle_skip_pinv z ps st ps' st' : pinv st ps ->
      (0 <= z)%Z -> ps_off ps + Z.to_N z <= hi -> pos (ps_off ps + Z.to_N z) ->
      handle_skip E lo z ps st = Ret ps' st' -> pinv st' ps'.
    Proof.
      intros (I1 & I2 & I3 & I4 & I5 & I6 & I7 & I8 & I9 & I10) Hz Hle Hp H. pose proof hi_small as Hs.
      unfold handle_skip in H.
      assert (Ha : usize_add (e_checks E) (ps_off ps) (as_usize z) = Some (ps_off ps + Z.to_N z)).
      { apply skips_to_add. apply skips_to_small; lia. }
      rewrite Ha in H. cbn [or_die] in H. injection H as <- <-.
      destruct (contain_fits lo hi (ps_mr ps) (mkR lo (ps_off ps + Z.to_N z)) Hs I6) as (B1 & B2 & B3 & B4 & B5 & B6);
        cbn [rs re]; auto; try lia.
      split; [eapply stage_kids; [exact I1|apply I1]|]. cbn [ps_off ps_kids ps_cr ps_mr].
      split; [exact I2|]. split; [split; [lia|exact Hp]|]. split; [exact I4|]. split; [exact I5|]. split; [exact B1|].
      split; [intros Hn; destruct (I7 Hn) as (J1 & J2 & J3); split; [exact B2|]; lia|].
      split; [exact I8|]. split; [exact I9|]. intros k Hk. apply I10 in Hk. lia.
    Qed.

    (* the payload of a break is taken at the cursor *)
    Lemma handle_payload_pinv p ps st ps' st' : pinv st ps ->
      success_fits (ps_off ps) hi st p -> (forall a, In a (success_tokens p) -> (S pt <= a < heap_size st)%nat) ->
      handle_payload E P pt lo p ps st = Ret ps' st' -> pinv st' ps'.
    Proof.
      intros Hst Hf Hr H. assert (Ho : lo <= ps_off ps) by apply Hst.
      destruct p; cbn [handle_payload] in H; try (injection H as <- <-; exact Hst).
      - eapply handle_token_pinv; [exact Hst|exact Hf| |exact H]. apply Hr. now left.
      - eapply handle_extract_pinv; [exact Hst|exact Hf| |exact H]. apply Hr. now left.
      - destruct Hf as (F1 & F2 & F3). eapply handle_skip_pinv; eauto.
    Qed.

    Lemma finalize_fits ps count strict st r st' : pinv st ps ->
      finalize P i pt ps count strict st = Ret r st' -> result_fits lo hi st' r /\ scopes_bounded st'.
    Proof.
      intros Hst H. pose proof Hst as (I1 & I2 & I3 & I4 & I5 & I6 & I7 & I8 & I9 & I10). pose proof hi_small as Hs.
      assert (Hc' : (if (rs (ps_cr ps) =? usize_max) || (rs (ps_mr ps) =? usize_max) then Ret (Err FFail) st
        else match ps_kids ps with
             | [] => Ret (Err FFail) st
             | _ => Ret (Ok (SToken pt))
                      (modify st pt (fun t => set_mr P (ps_mr ps) (set_cr P (ps_cr ps) (set_kids (ps_kids ps) t))))
             end) = Ret r st' -> result_fits lo hi st' r /\ scopes_bounded st').
      { clear H. intros H.
        destruct (N.eqb_spec (rs (ps_cr ps)) usize_max) as [E1|E1]; cbn [orb] in H; [injection H as <- <-; now split|].
        destruct (N.eqb_spec (rs (ps_mr ps)) usize_max) as [E2|E2]; [injection H as <- <-; now split|].
        destruct (ps_kids ps) as [|k ks] eqn:Ek; injection H as <- <-; [now split|]. split; [|exact I2].
        rewrite <- Ek in I4, I9, I10.
        destruct I5 as [I5|I5]; [rewrite I5 in E1; cbn in E1; congruence|].
        destruct I6 as [I6|I6]; [rewrite I6 in E2; cbn in E2; congruence|].
        assert (Hne : ps_cr ps <> mkR usize_max 0) by (intros Hx; rewrite Hx in E1; cbn in E1; congruence).
        destruct (I7 Hne) as (J1 & J2 & J3).
        pose proof I1 as (S1 & S2 & S3 & S4 & S5). cbn [Spec.result_fits Spec.success_fits]. unfold modify.
        match goal with |- tree_fits _ _ ?x _ => set (st1 := x) in * end.
        assert (Hnew : tok st1 pt = set_mr P (ps_mr ps) (set_cr P (ps_cr ps) (set_kids (ps_kids ps) (tok st pt)))).
        { unfold st1. rewrite tok_set_same by (unfold heap_size in *; lia). now rewrite Ek. }
        assert (Hold : forall y, (S pt <= y)%nat -> tok st1 y = tok st y).
        { intros y Hy. unfold st1. apply tok_set_other. lia. }
        apply tree_join; unfold kids_fit; rewrite Hnew; cbn [tk_kids set_mr set_cr set_kids].
        - unfold Spec.token_fits, is_error. cbn [tk_mr tk_cr tk_flags tk_kind set_mr set_cr set_kids].
          fold (is_error (tok st pt)). repeat split; try apply I5; try apply I6; try lia; try exact I8. apply S4.
        - cbn [tk_mr tk_cr set_mr set_cr]. split.
          + eapply sorted_ext; [|exact I9]. intros x y Hxi Hyi. rewrite !Hold; auto; now apply S5.
          + intros k1 Hk. rewrite Hold by now apply S5. apply I10 in Hk. lia.
        - intros x Hx. pose proof (I4 x Hx) as Hfx. pose proof Hfx as (l & Hl & _).
          eapply tree_fits_tokens; [exact Hl| |exact Hfx]. intros y Hy. apply Hold.
          eapply tree_within in Hy; [|exact S2| |exact Hl]; [lia|]. intros z [<-|[]]. auto. }
      assert (Hskip : result_fits lo hi st (Ok (SSkip 0))).
      { cbn. rewrite N.add_0_r. repeat split; auto; lia. }
      unfold finalize in H. destruct strict; [|now apply Hc'].
      destruct (pi_iter i) as [[a b]|]; [|now apply Hc'].
      destruct (_ && _ && _); [injection H as <- <-; now split|].
      destruct (count <? a); [injection H as <- <-; now split|]. now apply Hc'.
    Qed.

    (* inside a Switch the cursor never moves *)
    Definition held (ps : pst) : Prop := pi_stop i = true -> ps_off ps = lo.

    Definition pass_fits (k : ctl) (ps : pst) (st : state) : Prop :=
      held ps /\
      match k with
      | CDone => pinv st ps
      | CAct x => pinv st ps /\ success_fits (ps_off ps) hi st x /\
                  forall a, In a (success_tokens x) -> (S pt <= a < heap_size st)%nat
      | CRet r => result_fits lo hi st r /\ scopes_bounded st
      end.

    Lemma rec_pinv m s ps st r st1 : bounded m -> pinv st ps ->
      rec m (push_tok (with_start c (ps_off ps)) pt) s st = Ret r st1 ->
      pinv st1 ps /\ result_fits (ps_off ps) hi st1 r /\
      (forall a, In a (result_tokens r) -> (S pt <= a < heap_size st1)%nat) /\
      (m_consuming m = false -> result_tokens r = []).
    Proof.
      intros Hm (I1 & I2 & I3 & I4 & I5 & I6 & I7 & I8 & I9 & I10) H. pose proof I1 as (T1 & T2 & T3 & T4 & T5).
      pose proof (Hsound (heap_size st) _ _ _ st r st1 (le_n _) (forest_top st) H) as (P1 & P2 & P3).
      pose proof (Hsound (S pt) _ _ _ st r st1 T1 T2 H) as (Q1 & Q2 & Q3).
      apply Hrec in H as (R1 & R2 & R3); [|exact Hm|exact I2|].
      2:{ split; [|split]; cbn [c_off push_tok with_start rs re]; try rewrite Hc; try lia; [apply I3|exact Hphi]. }
      cbn [c_off push_tok with_start rs re] in R1. rewrite Hc in R1.
      split; [|split; [exact R1|split; [exact Q3|exact R3]]].
      split; [eapply (stage_below 0 pt st_s Hpt); [lia|exact I1|exact Q1|exact Q2]|].
      split; [exact R2|]. split; [exact I3|]. split.
      - intros k Hk. eapply (tree_fits_kept lo hi (S pt)); [exact T2|apply T5; exact Hk|exact P1|auto].
      - split; [exact I5|]. split; [exact I6|]. split; [exact I7|]. destruct Q1 as [_ Q1]. rewrite Q1 by lia. split; [exact I8|].
        destruct P1 as [_ P1]. split.
        + eapply sorted_ext; [|exact I9]. intros x y Hx Hy. apply T5 in Hx. apply T5 in Hy. rewrite !P1 by lia. auto.
        + intros k Hk. rewrite P1 by (apply T5 in Hk; lia). auto.
    Qed.

    Lemma run_patterns_fits s count pats : (forall m, In m pats -> bounded m) ->
      forall ps st k ps' st', pinv st ps -> held ps ->
      run_patterns E P rec i c s pt lo count pats ps st = Ret (k, ps') st' -> pass_fits k ps' st'.
    Proof.
      induction pats as [|m pats IH]; intros Hb ps st k ps' st' Hst Hd H; cbn [run_patterns] in H.
      - injection H as <- <- <-. now split.
      - assert (Hn : forall m, In m pats -> bounded m) by (intros; apply Hb; now right).
        destruct (rec m _ s st) as [r st1|p|] eqn:Er; try discriminate.
        apply (rec_pinv _ _ _ _ _ _ (Hb m (or_introl eq_refl)) Hst) in Er as (Hst1 & Hr & Hin & Hcons). clear Hst st.
        destruct r as [[a|a|z|nm p|nm p| |]|e]; cbn [result_tokens success_tokens Spec.result_fits] in Hin, Hr, Hcons;
          try (destruct (m_consuming m); [|discriminate Hcons; reflexivity]).
        + destruct (should_discard (tok st1 a)); [exact (IH Hn _ _ _ _ _ Hst1 Hd H)|].
          destruct (pi_stop i) eqn:Ei.
          * injection H as <- <- <-. split; [exact Hd|]. rewrite <- (Hd Ei). split; [exact Hr|apply Hst1].
          * destruct (handle_token P pt a _ _ ps st1) as [ps2 st2|p|] eqn:Ea; try discriminate.
            apply handle_token_pinv in Ea; [|exact Hst1|exact Hr|apply Hin; now left].
            eapply IH; [exact Hn|exact Ea| |exact H]. unfold held. congruence.
        + destruct (should_discard (tok st1 a)); [exact (IH Hn _ _ _ _ _ Hst1 Hd H)|].
          destruct (pi_stop i) eqn:Ei.
          * injection H as <- <- <-. split; [exact Hd|]. rewrite <- (Hd Ei). split; [exact Hr|apply Hst1].
          * destruct (handle_extract P pt a _ ps st1) as [ps2 st2|p|] eqn:Ea; try discriminate.
            apply handle_extract_pinv in Ea; [|exact Hst1|exact Hr|apply Hin; now left].
            eapply IH; [exact Hn|exact Ea| |exact H]. unfold held. congruence.
        + cbn [Spec.success_fits] in Hr.
          destruct (pi_stop i) eqn:Ei.
          * destruct (Z.ltb_spec 0 z) as [Hz|Hz]; cbn [andb] in H.
            -- injection H as <- <- <-. split; [exact Hd|]. rewrite <- (Hd Ei). split; [exact Hr|apply Hst1].
            -- destruct (m_consuming m); [|exact (IH Hn _ _ _ _ _ Hst1 Hd H)].
               destruct (handle_skip E lo z ps st1) as [ps2 st2|p|] eqn:Ea; try discriminate.
               assert (z = 0%Z) by lia. subst z.
               assert (Hoff : ps_off ps2 = ps_off ps).
               { unfold handle_skip in Ea.
                 rewrite (skips_to_add E _ 0 (ps_off ps + 0)) in Ea.
                 - cbn [or_die] in Ea. injection Ea as <- _. cbn [ps_off]. lia.
                 - apply (skips_to_small E (ps_off ps) 0); [lia|]. pose proof hi_small. cbn [Z.to_N] in *. lia. }
               apply handle_skip_pinv in Ea; [|exact Hst1|apply Hr|apply Hr|apply Hr].
               eapply IH; [exact Hn|exact Ea| |exact H]. unfold held. rewrite Hoff. exact Hd.
          * rewrite andb_false_r in H.
            destruct (m_consuming m); [|exact (IH Hn _ _ _ _ _ Hst1 Hd H)].
            destruct (handle_skip E lo z ps st1) as [ps2 st2|p|] eqn:Ea; try discriminate.
            apply handle_skip_pinv in Ea; [|exact Hst1|apply Hr|apply Hr|apply Hr].
            eapply IH; [exact Hn|exact Ea| |exact H]. unfold held. congruence.
        + injection H as <- <- <-. split; [exact Hd|]. auto.
        + injection H as <- <- <-. split; [exact Hd|]. auto.
        + injection H as <- <- <-. split; [exact Hd|]. auto.
        + injection H as <- <- <-. split; [exact Hd|]. auto.
        + destruct (dbg E P _ 10); [|discriminate]. destruct e.
          * destruct (pi_stop i) eqn:Ei; [exact (IH Hn _ _ _ _ _ Hst1 Hd H)|]. destruct (pi_iter i).
            -- destruct (finalize P i pt ps count false st1) as [x st2|p0|] eqn:Ef; try discriminate.
               injection H as <- <- <-. split; [exact Hd|]. eapply finalize_fits; eauto.
            -- injection H as <- <- <-. split; [exact Hd|]. split; [exact Logic.I|apply Hst1].
          * injection H as <- <- <-. split; [exact Hd|]. split; [exact Logic.I|apply Hst1].
    Qed.

    Lemma iterate_fits pats s : (forall m, In m pats -> bounded m) ->
      forall f left count ps st r st', pinv st ps -> held ps ->
      iterate f E P rec pats i c s pt lo left count ps st = Ret r st' ->
      result_fits lo hi st' r /\ scopes_bounded st'.
    Proof.
      intros Hb. induction f as [|f IH]; intros left count ps st r st' Hst Hd H; cbn [iterate] in H.
      - destruct (left =? 0); [|discriminate]. eapply finalize_fits; eauto.
      - destruct (left =? 0); [eapply finalize_fits; eauto|].
        destruct (run_patterns _ _ _ _ _ _ _ _ _ _ _ _) as [[k ps1] st1|p|] eqn:Er; try discriminate.
        apply run_patterns_fits in Er; [|exact Hb|exact Hst|exact Hd]. clear Hst Hd.
        destruct k as [|x|r0]; cbn [pass_fits] in Er.
        + destruct Er as [Hd Hst]. exact (IH _ _ _ _ _ _ Hst Hd H).
        + destruct Er as (Hd & Hst & Hx & Hin).
          destruct x as [a|a|z|nm p|nm p| |]; try discriminate; cbn [success_tokens Spec.success_fits] in Hin, Hx.
          * destruct (pi_stop i) eqn:Ei.
            { injection H as <- <-. split; [|apply Hst]. cbn [Spec.result_fits Spec.success_fits].
              rewrite <- (Hd Ei). exact Hx. }
            assert (Hp : success_fits (ps_off ps1) hi st1 p) by (destruct p; auto; contradiction).
            destruct (handle_payload E P pt lo p ps1 st1) as [ps2 st2|q|] eqn:Eh; try discriminate.
            apply handle_payload_pinv in Eh; [|exact Hst|exact Hp|exact Hin].
            destruct (finalize P i pt ps2 count false st2) as [y st3|q|] eqn:Ef; try discriminate.
            pose proof Ef as Ef'. eapply finalize_fits in Ef; [|exact Eh].
            destruct (is_target i nm); [injection H as <- <-; exact Ef|].
            destruct y as [y|e]; injection H as <- <-; [|exact Ef]. split; [|apply Ef].
            assert (Hy : exists b, y = SToken b).
            { unfold finalize in Ef'. destruct (_ || _); [discriminate|]. destruct (ps_kids ps2); [discriminate|].
              injection Ef' as <- _. eauto. }
            destruct Hy as [b ->]. exact (proj1 Ef).
          * destruct (pi_stop i) eqn:Ei.
            { injection H as <- <-. split; [|apply Hst]. cbn [Spec.result_fits Spec.success_fits].
              rewrite <- (Hd Ei). exact Hx. }
            assert (Hp : success_fits (ps_off ps1) hi st1 p) by (destruct p; auto; contradiction).
            destruct (handle_payload E P pt lo p ps1 st1) as [ps2 st2|q|] eqn:Eh; try discriminate.
            apply handle_payload_pinv in Eh; [|exact Hst|exact Hp|exact Hin].
            destruct (is_target i nm); [|eapply finalize_fits; eauto].
            eapply IH; [exact Eh| |exact H]. unfold held. congruence.
          * eapply finalize_fits; eauto.
        + injection H as <- <-. apply Er.
    Qed.
  End ProgramBounds.

  (* ---------- all matchers ---------- *)

  Definition keeps (rec : recT) : Prop :=
    forall m c s st r st', bounded m -> scopes_bounded st -> window_ok c ->
      rec m c s st = Ret r st' ->
      result_fits (rs (c_off c)) (re (c_off c)) st' r /\ scopes_bounded st' /\
      (m_consuming m = false -> result_tokens r = []).

  Lemma step_keeps rec fuel : (forall h, sound h rec) -> keeps rec -> keeps (step fuel E P rec).
  Proof.
    intros Hsound Hrec m c s st0 r st' Hm Hs0 Hc H. unfold step in H.
    rewrite <- and_assoc. split.
    2:{ intros Hcons. clear -Hm Hcons H. destruct m; try discriminate Hcons; try (injection H as <- _; reflexivity).
        - inversion Hm.
        - destruct p; [discriminate Hcons|]. injection H as <- _. reflexivity.
        - cbn [m_consuming] in Hcons. subst. inversion Hm. }
    pose proof (before_bounded m s st0 Hm Hs0) as Hs.
    set (st := before_exec m s st0) in *. clearbody st. clear Hs0 st0.
    set (lo := rs (c_off c)) in *. set (hi := re (c_off c)) in *.
    assert (Hin : forall m1 n s1 r0 st1, bounded m1 -> rec m1 (clone_with_name c n) s1 st = Ret r0 st1 ->
       result_fits lo hi st1 r0 /\ scopes_bounded st1).
    { intros m1 n s1 r0 st1 Hb1 E1. apply Hrec in E1 as (R1 & R2 & _); auto. }
    pose proof Hc as (Hw & Hplo & Hphi). fold lo hi in Hw, Hplo, Hphi.
    assert (Hskip : forall st, result_fits lo hi st (Ok (SSkip 0))).
    { intros st1. cbn. rewrite N.add_0_r. repeat split; auto; lia. }
    assert (Hleaf : forall t, tk_kids t = [] -> token_fits lo hi t ->
      result_fits lo hi (alloc st t) (Ok (SToken (next_addr st))) /\ scopes_bounded (alloc st t)).
    { intros t Hk Ht. split; [|exact Hs]. now apply leaf_fits. }
    destruct m as [pats i|p name cust|f name cust|fs fe fx name cust|m1|m1|m1| |msg|msg|nm|m1 k|m1 f
                  |om off name cust|p name cust|name|ms|t name cust|o m1|m1 name cust|m1|om d|k name cust cons];
      cbn [m_name m_custom] in H.
    - (* MProgram *)
      unfold exec_program in H. inversion Hm as [ps0 i0 Hps| | | | | | | | | | | | | | | | | | | | | | ]; subst.
      set (pt := next_addr st) in *. set (t0 := std_token P (pi_name i) blank_range) in *.
      assert (Hpt : heap_size st = pt) by reflexivity.
      eapply (iterate_fits rec pt st lo hi i (clone_with_name c (pi_name i)) Hsound Hrec Hpt);
        [lia|lia|exact Hphi|exact Hplo|reflexivity|exact Hps| | |exact H].
      + split; [|split; [exact Hs|]].
        * split; [rewrite heap_size_alloc; lia|]. split.
          -- intros a Ha. rewrite heap_size_alloc in Ha. lia.
          -- split; [intros a Ha; apply tok_alloc_old; unfold heap_size in *; lia|].
             split; [unfold pt; now rewrite tok_alloc_new|intros ? []].
        * cbn [ps_off ps_kids ps_cr ps_mr init_pst]. split; [split; [split; [apply N.le_refl|apply Hw]|exact Hplo]|].
          split; [intros k []|]. split; [now left|]. split; [now left|]. split; [congruence|].
          split; [unfold pt; now rewrite tok_alloc_new|]. split; [constructor|intros k []].
      + intros _. reflexivity.
    - (* MEquals *)
      inversion Hm; subst.
      destruct (fetch_value st s p) as [[v|m1]|] eqn:Ef; [| |discriminate].
      + destruct (matches_str P _ v) as [r0|] eqn:E1; [|discriminate].
        destruct (dbg E P _ 10); [|discriminate].
        destruct r0; injection H as <- <-; [|split; [exact Logic.I|exact Hs]].
        apply matches_fits in E1 as (A1 & A2 & A3 & A4); [|eapply fetched_literal; eauto].
        cbn [c_off clone_with_name] in *. fold lo hi in A1, A2, A3.
        apply Hleaf; [reflexivity|]. unfold Spec.token_fits. cbn [tk_mr tk_cr std_token].
        rewrite A1. repeat split; auto; lia.
      + injection H as <- <-. split; [exact Logic.I|exact Hs].
    - (* MMatches *)
      inversion Hm; subst.
      destruct (matches_regexp P _ f) as [r0|] eqn:E1; [|discriminate]. destruct r0 as [r0|].
      + apply regexp_fits in E1 as (A1 & A2 & A3); [|assumption].
        cbn [c_off clone_with_name] in *. fold lo hi in A1, A2.
        destruct (rs r0 =? re r0).
        * destruct (dbg E P _ 10); [|discriminate]. injection H as <- <-. split; [apply Hskip|exact Hs].
        * injection H as <- <-. apply Hleaf; [reflexivity|]. unfold Spec.token_fits. cbn [tk_mr tk_cr std_token].
          rewrite A1 in *. repeat split; auto; lia.
      + destruct (dbg E P _ 10); [|discriminate]. injection H as <- <-. split; [exact Logic.I|exact Hs].
    - (* MSequence *)
      inversion Hm as [| | |f1 f2 f3 n0 b0 HL1 HL2| | | | | | | | | | | | | | | | | | | ]; subst. unfold exec_sequence in H.
      destruct (fetch_value st s fs) as [[sp|m1]|] eqn:E1; [| |discriminate];
        [|injection H as <- <-; split; [exact Logic.I|exact Hs]].
      destruct (slen sp =? 0); [discriminate|].
      destruct (fetch_value st s fe) as [[ep|m1]|] eqn:E2; [| |discriminate];
        [|injection H as <- <-; split; [exact Logic.I|exact Hs]].
      destruct (slen ep =? 0); [discriminate|].
      destruct (fetch_value st s fx) as [[esc|m1]|] eqn:E3; [| |discriminate];
        [|injection H as <- <-; split; [exact Logic.I|exact Hs]].
      destruct (matches_str P _ sp) as [[r0|]|] eqn:E4; [| |discriminate].
      2:{ destruct (dbg E P _ 10); [|discriminate]. injection H as <- <-; split; [exact Logic.I|exact Hs]. }
      destruct (seq_scan _ P _ ep esc _ _ _) as [[j v| |]|] eqn:E5; try discriminate.
      2:{ destruct (dbg E P _ 10); [|discriminate]. injection H as <- <-; split; [exact Logic.I|exact Hs]. }
      destruct (dbg E P _ _); [|discriminate]. injection H as <- <-.
      apply matches_fits in E4 as (A1 & A2 & A3 & A4); [|exact (fetched_literal _ _ _ _ HL1 E1)].
      apply seq_scan_fits in E5 as (B1 & B2 & B3 & B4).
      specialize (B4 (fetched_literal _ _ _ _ HL2 E2)).
      cbn [c_off clone_with_name] in *. fold lo hi in A1, A2, A3, B3 |- *.
      apply Hleaf; [reflexivity|]. unfold Spec.token_fits. cbn [tk_mr tk_cr std_token2 set_attr rs re].
      rewrite <- A2. repeat split; auto; lia.
    - (* MNot *)
      assert (Hb1 : bounded m1) by (inversion Hm; assumption).
      destruct (rec m1 _ s st) as [r0 st1|p|] eqn:E1; try discriminate. apply Hin in E1 as [H1 H2]; [|assumption].
      destruct r0 as [[a|a|z|b q|b q| |]|[|e]];
        try (injection H as <- <-; split; [exact Logic.I || exact H1 || apply Hskip|exact H2]).
      destruct (z =? 0)%Z; injection H as <- <-; (split; [exact Logic.I || exact H1|exact H2]).
    - (* MOptional *)
      assert (Hb1 : bounded m1) by (inversion Hm; assumption).
      destruct (rec m1 _ s st) as [r0 st1|p|] eqn:E1; try discriminate. apply Hin in E1 as [H1 H2]; [|assumption].
      destruct r0 as [x|[|e]]; injection H as <- <-; (split; [exact H1 || apply Hskip|exact H2]).
    - (* MDiscard *)
      assert (Hb1 : bounded m1) by (inversion Hm; assumption).
      destruct (rec m1 _ s st) as [r0 st1|p|] eqn:E1; try discriminate. apply Hin in E1 as [H1 H2]; [|assumption].
      fold lo in H. apply (discard_fits lo hi) in H as [H3 H4]; [|lia|lia|exact H1].
      split; [exact H3|]. eapply scopes_heap; [exact H4|exact H2].
    - injection H as <- <-. split; [apply Hskip|exact Hs].
    - (* MPanic *)
      destruct (error_string E P msg _); [|discriminate]. injection H as <- <-. split; [exact Logic.I|exact Hs].
    - inversion Hm.
    - injection H as <- <-. split; [exact Logic.I|exact Hs].
    - (* MCatch *)
      assert (Hb1 : bounded m1) by (inversion Hm; assumption).
      destruct (rec m1 _ s st) as [r0 st1|p|] eqn:E1; try discriminate. apply Hin in E1 as [H1 H2]; [|assumption].
      destruct r0 as [x|e]; [injection H as <- <-; now split|].
      match type of H with e_catch E k e ?c1 st1 = _ => destruct (Hfit c1 st1 Hc H2) as (_ & _ & Hk & _) end.
      exact (Hk _ _ _ _ H).
    - (* MMap *)
      assert (Hq : quiet_map f) by (inversion Hm; assumption).
      assert (Hb1 : bounded m1) by (inversion Hm; assumption).
      destruct (rec m1 _ s st) as [r0 st1|p|] eqn:E1; try discriminate. apply Hin in E1 as [H1 H2]; [|assumption].
      destruct r0 as [[a|a|z|b q|b q| |]|e]; try (injection H as <- <-; now split).
      + exact (map_ok_fits f a (clone_with_name c _) s st1 r st' Hq Hc H2 H1 H).
      + exact (map_ok_fits f a (clone_with_name c _) s st1 r st' Hq Hc H2 H1 H).
      + exact (map_err_fits f e (clone_with_name c _) s st1 r st' Hq Hc H2 H).
    - inversion Hm.
    - (* MStore *)
      destruct p as [m1|v].
      + assert (Hb1 : bounded m1) by (inversion Hm; assumption). destruct (rec m1 _ s st) as [r0 st1|p|] eqn:E1; try discriminate. apply Hin in E1 as [H1 H2]; [|assumption].
        destruct r0 as [[a|a|z|b q|b q| |]|e]; injection H as <- <-;
          (now split) || (split; [eapply result_fits_heap; [|exact H1]; reflexivity|apply scopes_set; [exact H2|discriminate]]).
      + injection H as <- <-. split; [apply Hskip|apply scopes_set; [exact Hs|discriminate]].
    - injection H as <- <-. split; [apply Hskip|exact Hs].
    - (* MRegister *)
      inversion Hm as [| | | | | | | | | | | | | | |ms0 Hms| | | | | | | ]; subst.
      injection H as <- <-. split; [apply Hskip|]. clear -Hs Hms. revert st Hs Hms.
      induction ms as [|m ms IH]; intros st Hs Hms; cbn [fold_left]; [exact Hs|]. apply IH.
      + apply scopes_set; [exact Hs|]. intros m' Hx. injection Hx as <-. apply Hms. now left.
      + intros m' Hx. apply Hms. now right.
    - (* MRef *)
      inversion Hm as [| | | | | | | | | | | | | | | |f0 n0 b0 Hf| | | | | | ]; subst.
      destruct (fetch_value st s t) as [[v|m1]|] eqn:Ef; [| |discriminate].
      + destruct (sc_get st s v) as [[ | | ]|] eqn:Eg; try (injection H as <- <-; split; [exact Logic.I|exact Hs]).
        eapply Hin; [|exact H]. eapply scopes_get; eauto.
      + eapply Hin; [|exact H]. destruct t as [v|v|m2]; cbn [fetch_value] in Ef; [discriminate| |injection Ef as <-; now apply Hf].
        destruct (sc_get st s _) as [[a|w|m2]|] eqn:Eg; try discriminate.
        * destruct (split _ _) as [|? [|? [|? ?]]]; try discriminate. destruct (fetch_token _ _ _); discriminate.
        * destruct (split _ _) as [|? [|? ?]]; discriminate.
        * injection Ef as <-. eapply scopes_get; eauto.
    - (* MSetScope *)
      assert (Hb1 : bounded m1) by (inversion Hm; assumption). destruct o as [s1|].
      + eapply Hin; [|exact H]. assumption.
      + destruct (rec m1 _ (c_scope c) (sc_push st (c_scope c))) as [r0 st1|p|] eqn:E1; try discriminate.
        injection H as <- <-. apply Hrec in E1 as (H1 & H2 & _); [|assumption|now apply scopes_push|exact Hc].
        split; [|now apply scopes_pop]. eapply result_fits_heap; [|exact H1]. reflexivity.
    - (* MProxy *)
      assert (Hb1 : bounded m1) by (inversion Hm; assumption).
      destruct (rec m1 _ s st) as [r0 st1|p|] eqn:E1; try discriminate. apply Hin in E1 as [H1 H2]; [|assumption].
      destruct r0 as [[a|a|z|b q|b q| |]|e]; try (injection H as <- <-; now split);
        destruct q; injection H as <- <-; now split.
    - (* MExpand *)
      assert (Hb1 : bounded m1) by (inversion Hm; assumption).
      destruct (rec m1 _ s st) as [r0 st1|p|] eqn:E1; try discriminate.
      pose proof (Hsound (heap_size st) _ _ _ st r0 st1 (le_n _) (forest_top st) E1) as (P1 & P2 & P3).
      apply Hin in E1 as [H1 H2]; [|assumption].
      destruct r0 as [[a|a|z|b q|b q| |]|e]; try (injection H as <- <-; now split).
      + injection H as <- <-. split; [|exact H2]. cbn [Spec.result_fits Spec.success_fits] in *.
        pose proof (tree_root _ _ _ _ H1) as [(T1 & T2 & T3 & T4 & T5 & T6 & T7 & T8 & T9) _].
        assert (Ha : (a < heap_size st1)%nat) by (apply P3; now left).
        apply tree_join; unfold kids_fit; rewrite tok_alloc_new.
        * unfold Spec.token_fits. cbn [tk_mr tk_cr set_kids std_token2]. repeat split; auto; lia.
        * cbn [tk_kids set_kids tk_mr tk_cr std_token2]. split; [repeat constructor|]. intros k [<-|[]].
          rewrite tok_alloc_old by exact Ha. lia.
        * intros k [<-|[]]. eapply (tree_fits_kept lo hi (heap_size st)); [exact P2|apply P3; now left| |exact H1].
          apply preserved_alloc. lia.
      + injection H as <- <-. split; [|exact H2]. cbn [Spec.result_fits Spec.success_fits] in *.
        unfold modify. set (st2 := set_tok _ _ _).
        assert (Ha : (a < heap_size st1)%nat) by (apply P3; now left).
        assert (Hnew : tok st2 a = set_cr P (tk_mr (tok st1 a)) (tok st1 a)).
        { unfold st2. now rewrite tok_set_same. }
        pose proof H1 as (l & Hl & _). inversion Hl as [|a' r' la lb Hla Hlb]; subst. inversion Hlb; subst.
        pose proof (not_below _ _ _ Hla) as Hna.
        assert (Hold : forall x, In x la -> tok st2 x = tok st1 x).
        { intros x Hx. unfold st2. apply tok_set_other. intros <-. contradiction. }
        pose proof (tree_root _ _ _ _ H1) as [(T1 & T2 & T3 & T4 & T5 & T6 & T7 & T8 & T9) [K1 K2]].
        apply tree_join; unfold kids_fit; rewrite Hnew; cbn [tk_kids set_cr].
        * unfold Spec.token_fits, is_error.
          cbn [tk_mr tk_cr set_cr tk_flags tk_kind]. fold (is_error (tok st1 a)). repeat split; auto; lia.
        * cbn [tk_mr tk_cr set_cr]. split.
          -- eapply sorted_ext; [|exact K1]. intros x y Hx Hy. rewrite !Hold; auto; eapply roots_in; eauto.
          -- intros k Hk. rewrite Hold by (eapply roots_in; eauto).
             pose proof (tree_root _ _ _ _ (tree_kids _ _ _ _ H1 k Hk)) as [(U1 & U2 & U3 & _) _].
             apply K2 in Hk. lia.
        * intros k Hk. pose proof (tree_kids _ _ _ _ H1 k Hk) as Hkt. pose proof Hkt as (lk & Hlk & _).
          eapply tree_fits_tokens; [exact Hlk| |exact Hkt]. intros x Hx. apply Hold.
          eapply below_in; eauto.
    - (* MDebug *)
      destruct om as [m1|].
      + assert (Hb1 : bounded m1) by (inversion Hm; assumption). destruct (debug_range E P _ 10); [|discriminate]. apply Hrec in H as (R1 & R2 & _); auto.
      + destruct (debug_range E P _ 10); [|discriminate]. injection H as <- <-. split; [apply Hskip|exact Hs].
    - (* MUser *)
      destruct (Hfit c st Hc Hs) as (_ & _ & _ & Hu). eapply Hu; eauto.
  Qed.

  Lemma exec_keeps : forall n, keeps (exec n E P).
  Proof.
    induction n as [|n IH]; [intros m c s st r st' _ _ _ H; discriminate|].
    cbn [exec]. apply step_keeps; auto. intros h. now apply exec_sound.
  Qed.

  Lemma runs_keeps m c s st r st' : bounded m -> scopes_bounded st -> window_ok c ->
    Runs E P m c s st r st' ->
    result_fits (rs (c_off c)) (re (c_off c)) st' r /\ scopes_bounded st'.
  Proof. intros Hm Hs Hc [n H]. apply exec_keeps in H as (R1 & R2 & _); auto. Qed.
End BoundsProofs.
