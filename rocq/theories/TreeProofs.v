(* The tokens that executions build are proper trees (for C36). *)
From Verif Require Export TokenizeProofs.
Open Scope string_scope.
Open Scope list_scope.
Open Scope N_scope.

Lemma orderly_ext h st st' : heap_size st' = heap_size st ->
  (forall a, tk_kids (tok st' a) = tk_kids (tok st a)) ->
  (forall a, is_error (tok st' a) = is_error (tok st a)) -> orderly h st -> orderly h st'.
Proof.
  intros Hs Hk He Ho a Ha. rewrite Hs in Ha. destruct (Ho a Ha) as [(l & Hl & Hn) Hx]. split.
  - exists l. split; [|exact Hn]. eapply preorder_ext; eauto.
  - rewrite He, Hk. exact Hx.
Qed.
Lemma orderly_heap h st st' : st_heap st' = st_heap st -> orderly h st -> orderly h st'.
Proof.
  intros H. apply orderly_ext; unfold heap_size, tok; rewrite H; reflexivity.
Qed.
Lemma orderly_set h st a t : tk_kids t = tk_kids (tok st a) -> tk_flags t = tk_flags (tok st a) ->
  orderly h st -> orderly h (set_tok st a t).
Proof.
  intros Hk He. apply orderly_ext; [apply heap_size_set|intros x; now apply kids_set|].
  intros x. destruct (Nat.eq_dec a x) as [<-|Hn].
  - destruct (Nat.lt_ge_cases a (List.length (st_heap st))).
    + rewrite tok_set_same by assumption. unfold is_error. now rewrite He.
    + now rewrite tok_set_dead.
  - now rewrite tok_set_other.
Qed.

(* a tree of tokens from [h] on lies between [h] and the end of the heap *)
Lemma tree_within h st roots l : forest h st -> (forall a, In a roots -> (h <= a < heap_size st)%nat) ->
  preorder st roots l -> forall x, In x l -> (h <= x < heap_size st)%nat.
Proof.
  intros Hf Hr Hp. eapply (preorder_within st (fun x => (h <= x < heap_size st)%nat)); eauto.
  now apply forest_closed.
Qed.
Lemma tree_kept h st st' roots l : forest h st -> (forall a, In a roots -> (h <= a < heap_size st)%nat) ->
  preorder st roots l -> preserved (heap_size st) st st' -> preorder st' roots l.
Proof.
  intros Hf Hr Hp [_ Hk]. eapply preorder_ext; [exact Hp|]. intros a Ha. rewrite Hk; [reflexivity|].
  eapply tree_within; eauto.
Qed.

Lemma orderly_alloc h st t : (h <= heap_size st)%nat -> forest h st -> orderly h st ->
  (forall k, In k (tk_kids t) -> (h <= k < heap_size st)%nat) ->
  (exists l, preorder st (tk_kids t) l /\ NoDup l) -> (is_error t = true -> tk_kids t = []) ->
  orderly h (alloc st t).
Proof.
  intros Hh Hf Ho Hk (l & Hl & Hn) He a Ha. rewrite heap_size_alloc in Ha.
  assert (Hp : preserved (heap_size st) st (alloc st t)) by (apply preserved_alloc; lia).
  destruct (Nat.eq_dec a (heap_size st)) as [->|Hne].
  - change (heap_size st) with (next_addr st). rewrite tok_alloc_new. split; [|exact He].
    exists (next_addr st :: l). split.
    + apply preorder_one. rewrite tok_alloc_new. eapply tree_kept; eauto.
    + constructor; [|exact Hn]. intros Hin. change (next_addr st) with (heap_size st) in Hin.
      eapply tree_within in Hin; [|exact Hf|exact Hk|exact Hl]. lia.
  - rewrite (proj2 Hp) by lia. destruct (Ho a) as [(la & Hla & Hna) Hea]; [lia|]. split; [|exact Hea].
    exists la. split; [|exact Hna]. eapply tree_kept; eauto. intros x [<-|[]]. lia.
Qed.
Lemma orderly_leaf h st t : (h <= heap_size st)%nat -> forest h st -> orderly h st -> tk_kids t = [] ->
  orderly h (alloc st t).
Proof.
  intros Hh Hf Ho Hk. apply orderly_alloc; auto; rewrite Hk; [intros ? []|].
  exists []. split; constructor.
Qed.

Definition neat (rec : recT) : Prop :=
  forall h m c s st r st', (h <= heap_size st)%nat -> forest h st -> orderly h st ->
    rec m c s st = Ret r st' -> orderly h st'.

Lemma error_token_at_orderly E P msg r h st x st' : (h <= heap_size st)%nat -> forest h st -> orderly h st ->
  error_token_at E P msg r st = Ret x st' -> orderly h st'.
Proof.
  intros Hh Hf Ho H. unfold error_token_at in H. destruct (error_string E P msg r); [|discriminate].
  injection H as <- <-. now apply orderly_leaf.
Qed.

Lemma add_missing_flags l : forall t, tk_flags (add_missing_attrs l t) = tk_flags t.
Proof.
  unfold add_missing_attrs. induction l as [|kv l IH]; intros t; cbn [fold_left]; [reflexivity|].
  rewrite IH. destruct (get_attr (fst kv) t); reflexivity.
Qed.
Lemma set_attrs_flags l : forall t, tk_flags (set_attrs l t) = tk_flags t.
Proof.
  unfold set_attrs. induction l as [|kv l IH]; intros t; cbn [fold_left]; [reflexivity|]. now rewrite IH.
Qed.

Lemma map_ok_orderly E P f a c s h st r st' : tidy E ->
  (h <= heap_size st)%nat -> forest h st -> orderly h st -> (h <= a < heap_size st)%nat ->
  map_ok E P f a c s st = Ret r st' -> orderly h st'.
Proof.
  intros HE Hh Hf Ho Ha H. unfold modify in H.
  destruct f; cbn [map_ok] in H; unfold modify in H.
  - destruct (HE h st Hh Hf Ho) as (Hok & _). eapply Hok; eauto.
  - destruct (error_string E P _ _); [|discriminate]. injection H as <- <-. exact Ho.
  - injection H as <- <-. exact Ho.
  - eapply error_token_at_orderly; eauto.
  - injection H as <- <-. exact Ho.
  - injection H as <- <-. apply orderly_set; [apply add_missing_kids|apply add_missing_flags|exact Ho].
  - injection H as <- <-. now apply orderly_set.
  - destruct (attributes_of st a) as [l|]; [|discriminate]. injection H as <- <-.
    apply orderly_set; [apply set_attrs_kids|apply set_attrs_flags|exact Ho].
  - injection H as <- <-. now apply orderly_set.
  - destruct (attributes_of st a) as [l|]; [|discriminate].
    set (st1 := set_tok st a (set_attrs l (tok st a))) in *.
    assert (Hm : orderly h st1).
    { apply orderly_set; [apply set_attrs_kids|apply set_attrs_flags|exact Ho]. }
    assert (Hf1 : forest h st1).
    { apply forest_set; [apply set_attrs_kids|apply set_attrs_kind|exact Hf]. }
    assert (Hh1 : (h <= heap_size st1)%nat) by (unfold st1; now rewrite heap_size_set).
    destruct (get_attr "version" (tok st1 a)) as [v|].
    + destruct (parse_usize v).
      * injection H as <- <-. exact Hm.
      * destruct (version_attr l); [|discriminate]. eapply error_token_at_orderly; eauto.
    + eapply error_token_at_orderly; eauto.
  - destruct (re (tk_mr (tok st a)) <? slen (p_src P)).
    + destruct (src_slice P _ _); [|discriminate]. unfold error_token in H. eapply error_token_at_orderly; eauto.
    + injection H as <- <-. exact Ho.
  - destruct (find_child st (tok st a) "AdextopaScope").
    + injection H as <- <-. exact Ho.
    + destruct (find_child st (tok st a) "PatternScope").
      * injection H as <- <-. exact Ho.
      * eapply error_token_at_orderly; eauto.
Qed.

Lemma map_err_orderly E P f e c s h st r st' : tidy E ->
  (h <= heap_size st)%nat -> forest h st -> orderly h st ->
  map_err E P f e c s st = Ret r st' -> orderly h st'.
Proof.
  intros HE Hh Hf Ho H.
  destruct (HE h st Hh Hf Ho) as (_ & Herr & _ & _).
  destruct f, e; cbn [map_err] in H;
    try (injection H as <- <-; exact Ho);
    try (eapply Herr; now eauto).
  - destruct (error_string E P _ (c_off c)); [|discriminate]. injection H as <- <-. exact Ho.
  - unfold error_token in H. eapply error_token_at_orderly; eauto.
Qed.

(* ---------- Discard ---------- *)

Lemma leaves_preorder st l : (forall x, In x l -> tk_kids (tok st x) = []) -> preorder st l l.
Proof.
  induction l as [|a l IH]; intros H; [constructor|].
  change (a :: l) with (a :: [] ++ l) at 2. constructor.
  - rewrite H by now left. constructor.
  - apply IH. intros x Hx. apply H. now right.
Qed.

Lemma add_errors_flags P st l : forall t, tk_flags (add_errors P st l t) = tk_flags t.
Proof.
  unfold add_errors. induction l as [|e l IH]; intros t; cbn [fold_left]; [reflexivity|].
  rewrite IH. unfold widen. destruct (_ || _); reflexivity.
Qed.

Lemma skip_token_orderly E P start a h st x st' : (h <= heap_size st)%nat -> forest h st -> orderly h st ->
  (h <= a < heap_size st)%nat -> skip_token E P start a st = Ret x st' -> orderly h st'.
Proof.
  intros Hh Hf Ho Ha H. unfold skip_token in H.
  destruct (Ho a Ha) as [(all & Hall & Hnd) _].
  assert (Hin : forall k, In k all -> (h <= k < heap_size st)%nat).
  { eapply tree_within; eauto. intros b [<-|[]]. exact Ha. }
  assert (He : errors_below st a (filter (fun x => is_error (tok st x)) all)) by (exists all; auto).
  rewrite (error_tokens_spec _ _ _ He) in H.
  set (errs := filter (fun x => is_error (tok st x)) all) in *.
  assert (Hall' : orderly h (alloc st (add_errors P st errs (std_token P "Error" (mkR start (re (tk_mr (tok st a)))))))).
  { apply orderly_alloc; auto; rewrite ?add_errors_kids; cbn [tk_kids std_token app].
    - intros k Hk. apply filter_In in Hk as [Hk _]. now apply Hin.
    - exists errs. split; [|now apply NoDup_filter]. apply leaves_preorder. intros y Hy.
      apply filter_In in Hy as [Hy Hye]. now apply Ho; [apply Hin|].
    - unfold is_error. rewrite add_errors_flags. discriminate. }
  destruct errs.
  - destruct (isize_sub _ _ _); cbn [or_die] in H; [|discriminate]. injection H as <- <-. exact Hall'.
  - injection H as <- <-. exact Hall'.
Qed.

Lemma discard_orderly E P start r h st r' st' : (h <= heap_size st)%nat -> forest h st -> orderly h st ->
  (forall a, In a (result_tokens r) -> (h <= a < heap_size st)%nat) ->
  discard_result E P start r st = Ret r' st' -> orderly h st'.
Proof.
  intros Hh Hf Ho Hr H.
  assert (Hp : forall p x st1, (forall a, In a (success_tokens p) -> (h <= a < heap_size st)%nat) ->
    discard_payload E P start p st = Ret x st1 -> orderly h st1).
  { intros p x st1 Hp H1. destruct p; cbn [discard_payload] in H1; try discriminate;
      try (injection H1 as <- <-; exact Ho);
      (eapply skip_token_orderly; [exact Hh|exact Hf|exact Ho| |exact H1]; apply Hp; now left). }
  destruct r as [x|e]; [|injection H as <- <-; exact Ho].
  destruct x; cbn [discard_result] in H; try (injection H as <- <-; exact Ho).
  - destruct (skip_token E P start a st) as [y st1|p|] eqn:Ey; try discriminate. injection H as <- <-.
    eapply skip_token_orderly; [exact Hh|exact Hf|exact Ho| |exact Ey]. apply Hr. now left.
  - destruct (skip_token E P start a st) as [y st1|p|] eqn:Ey; try discriminate. injection H as <- <-.
    eapply skip_token_orderly; [exact Hh|exact Hf|exact Ho| |exact Ey]. apply Hr. now left.
  - destruct (discard_payload E P start x st) as [y st1|p|] eqn:Ey; try discriminate. injection H as <- <-.
    exact (Hp x _ _ Hr Ey).
  - destruct (discard_payload E P start x st) as [y st1|p|] eqn:Ey; try discriminate. injection H as <- <-.
    exact (Hp x _ _ Hr Ey).
Qed.

(* ---------- programs ---------- *)

Lemma preorder_split st r1 r2 l : preorder st (r1 ++ r2) l ->
  exists l1 l2, preorder st r1 l1 /\ preorder st r2 l2 /\ l = l1 ++ l2.
Proof.
  revert l. induction r1 as [|a r1 IH]; intros l H; cbn [app] in H.
  - exists [], l. repeat split; [constructor|exact H].
  - inversion H as [|a' r' la lb Ha Hb]; subst. destruct (IH _ Hb) as (l1 & l2 & H1 & H2 & ->).
    exists (a :: la ++ l1), l2. split; [now constructor|]. split; [exact H2|]. cbn [app]. now rewrite app_assoc.
Qed.
Lemma NoDup_join {A} (l1 l2 : list A) : NoDup l1 -> NoDup l2 -> (forall x, In x l1 -> ~ In x l2) -> NoDup (l1 ++ l2).
Proof.
  intros H1 H2 Hd. induction H1 as [|a l1 Ha H1 IH]; [exact H2|]. cbn [app]. constructor.
  - intros Hin. apply in_app_or in Hin as [Hin|Hin]; [contradiction|]. apply (Hd a); [now left|exact Hin].
  - apply IH. intros x Hx. apply Hd. now right.
Qed.

(* the children [kids] of a program and the tokens [new] it is about to add *)
Definition apart (st : state) (kids new : list addr) : Prop :=
  exists l1 l2, preorder st kids l1 /\ preorder st new l2 /\ NoDup (l1 ++ l2).
Lemma apart_none st kids : (exists l, preorder st kids l /\ NoDup l) -> apart st kids [].
Proof. intros (l & H & Hn). exists l, []. rewrite app_nil_r. repeat split; [exact H|constructor|exact Hn]. Qed.
Lemma apart_kids st kids new : apart st kids new -> exists l, preorder st kids l /\ NoDup l.
Proof. intros (l1 & l2 & H1 & _ & Hn). exists l1. split; [exact H1|]. now apply NoDup_split in Hn. Qed.
Lemma apart_move st kids a new : apart st kids (a :: new) -> apart st (kids ++ [a]) new.
Proof.
  intros (l1 & l2 & H1 & H2 & Hn). change (a :: new) with ([a] ++ new) in H2.
  apply preorder_split in H2 as (la & lb & Ha & Hb & ->). exists (l1 ++ la), lb.
  split; [now apply preorder_app|]. split; [exact Hb|]. now rewrite <- app_assoc.
Qed.
Lemma apart_drop st kids a new : apart st kids (a :: new) -> apart st kids new.
Proof.
  intros (l1 & l2 & H1 & H2 & Hn). change (a :: new) with ([a] ++ new) in H2.
  apply preorder_split in H2 as (la & lb & Ha & Hb & ->). exists l1, lb.
  split; [exact H1|]. split; [exact Hb|]. apply NoDup_split in Hn as (N1 & N2 & N3).
  apply NoDup_join; [exact N1|now apply NoDup_split in N2|]. intros x Hx Hin.
  apply (N3 x Hx). apply in_or_app. now right.
Qed.
Lemma apart_open st kids a : apart st kids [a] -> apart st kids (tk_kids (tok st a)).
Proof.
  intros (l1 & l2 & H1 & H2 & Hn). inversion H2 as [|a' r' la lb Ha Hb]; subst. inversion Hb; subst.
  rewrite app_nil_r in *. exists l1, la. split; [exact H1|]. split; [exact Ha|].
  apply NoDup_split in Hn as (N1 & N2 & N3). inversion N2 as [|x y Hx Hy]; subst. apply NoDup_join; auto.
  intros y Hy1 Hin. apply (N3 y Hy1). now right.
Qed.
Lemma apart_same st st' kids new : (forall a, tk_kids (tok st' a) = tk_kids (tok st a)) ->
  apart st kids new -> apart st' kids new.
Proof.
  intros Hk (l1 & l2 & H1 & H2 & Hn). exists l1, l2.
  split; [eapply preorder_ext; eauto|]. split; [eapply preorder_ext; eauto|exact Hn].
Qed.

Lemma success_one x : exists a, success_tokens x = [] \/ success_tokens x = [a].
Proof.
  induction x; cbn [success_tokens]; try (eexists; right; reflexivity); try (exists 0%nat; now left); assumption.
Qed.
Lemma result_one r : exists a, result_tokens r = [] \/ result_tokens r = [a].
Proof. destruct r as [x|e]; [apply success_one|exists 0%nat; now left]. Qed.

Section ProgramTrees.
  Variables (E : env) (P : parser) (rec : recT) (h : nat) (pt : addr) (st_s : state).
  Hypothesis Hsound : forall h, sound h rec.
  Hypothesis Hrec : neat rec.
  Hypothesis Hpt : heap_size st_s = pt.
  Hypothesis Hh : (h <= pt)%nat.
  Hypothesis Hs : forest h st_s.
  Hypothesis Hos : orderly h st_s.

  (* [ps] has the children of [stage], and they and [new] have nothing in common *)
  Definition stagent (st : state) (ps : pst) (new : list addr) : Prop :=
    stage pt st_s st ps /\ orderly (S pt) st /\ apart st (ps_kids ps) new /\
    (is_error (tok st pt) = false) /\
    (forall a, In a new -> (S pt <= a < heap_size st)%nat).

  Lemma stagent_drop st ps new : stagent st ps new -> stagent st ps [].
  Proof.
    intros (S1 & S2 & S3 & S4 & S5). split; [exact S1|]. split; [exact S2|]. split; [|split; [exact S4|intros ? []]].
    apply apart_none. eapply apart_kids; eauto.
  Qed.

  (* everything from [h] on is in order *)
  Lemma old_orderly st : (forall a, (a < pt)%nat -> tok st a = tok st_s a) ->
    forall a, (h <= a < pt)%nat -> is_tree st a /\ (is_error (tok st a) = true -> tk_kids (tok st a) = []).
  Proof.
    intros Ht a Ha. rewrite Ht by lia. rewrite <- Hpt in Ha. destruct (Hos a Ha) as [(l & Hl & Hn) He].
    split; [|exact He]. exists l. split; [|exact Hn]. eapply preorder_ext; [exact Hl|].
    intros b Hb. rewrite Ht; [reflexivity|]. rewrite <- Hpt. eapply tree_within in Hb; eauto; [lia|].
    intros x [<-|[]]. exact Ha.
  Qed.

  Lemma stagent_orderly st ps new : stagent st ps new -> orderly h st.
  Proof.
    intros ((T1 & T2 & T3 & T4 & T5) & S2 & S3 & S4 & S5) a Ha.
    destruct (Nat.lt_trichotomy a pt) as [Hlt|[->|Hgt]].
    - apply old_orderly; [exact T3|lia].
    - destruct T4 as [T4 _]. split; [|auto]. exists [pt]. split; [|constructor; [intros []|constructor]].
      apply preorder_one. rewrite T4. constructor.
    - apply S2. lia.
  Qed.

  Lemma fill_orderly st ps new t : stagent st ps new -> tk_kids t = ps_kids ps -> is_error t = false ->
    orderly h (set_tok st pt t).
  Proof.
    intros Hst Hk He. pose proof Hst as ((T1 & T2 & T3 & T4 & T5) & S2 & S3 & S4 & S5).
    assert (Hnew : forall roots l, (forall a, In a roots -> (S pt <= a < heap_size st)%nat) ->
      preorder st roots l -> preorder (set_tok st pt t) roots l).
    { intros roots l Hr Hl. eapply preorder_ext; [exact Hl|]. intros b Hb.
      eapply tree_within in Hb; eauto. rewrite tok_set_other by lia. reflexivity. }
    intros a Ha. rewrite heap_size_set in Ha.
    destruct (Nat.lt_trichotomy a pt) as [Hlt|[->|Hgt]].
    - apply old_orderly; [|lia]. intros b Hb. rewrite tok_set_other by lia. auto.
    - split; [|rewrite tok_set_same by (unfold heap_size in *; lia); rewrite He; discriminate].
      apply apart_kids in S3 as (l & Hl & Hn). exists (pt :: l). split.
      + apply preorder_one. rewrite tok_set_same by (unfold heap_size in *; lia). rewrite Hk. apply Hnew; auto.
      + constructor; [|exact Hn]. intros Hin. eapply tree_within in Hin; [|exact T2|exact T5|exact Hl]. lia.
    - rewrite tok_set_other by lia. destruct (S2 a) as [(l & Hl & Hn) Hx]; [lia|]. split; [|exact Hx].
      exists l. split; [|exact Hn]. apply Hnew; [|exact Hl]. intros x [<-|[]]. lia.
  Qed.

  Lemma add_token_stagent a new fwd u ps st ps' st' : stagent st ps (a :: new) ->
    add_token P pt a fwd u ps st = Ret ps' st' -> stagent st' ps' new /\
      (forall x, tk_kids (tok st' x) = tk_kids (tok st x)).
  Proof.
    intros (S1 & S2 & S3 & S4 & S5) H.
    assert (Hx : stage pt st_s st' ps' /\ heap_size st' = heap_size st).
    { eapply (add_token_stage P h pt st_s Hpt Hh); [exact S1|apply S5; now left|exact H]. }
    assert (Ha : (S pt <= a)%nat) by (apply S5; now left).
    unfold add_token in H. destruct (_ && _ && _ && _); [discriminate|].
    injection H as <- <-. cbn [ps_kids].
    match goal with |- context [set_tok st a ?t] =>
      assert (Hk : tk_kids t = tk_kids (tok st a)) by (cbn [tk_kids set_parent]; destruct (_ && _); reflexivity);
      assert (Hfl : tk_flags t = tk_flags (tok st a)) by (cbn [tk_flags set_parent]; destruct (_ && _); reflexivity);
      set (t0 := t) in *
    end.
    split; [|intros x; now apply kids_set].
    split; [apply Hx|]. split; [now apply orderly_set|]. split.
    - cbn [ps_kids]. apply apart_move. eapply apart_same; [|exact S3]. intros x. now apply kids_set.
    - split; [rewrite tok_set_other by lia; exact S4|]. rewrite heap_size_set. intros b Hb. apply S5. now right.
  Qed.

  Lemma extract_stagent self u l : forall ps st ps' st', stagent st ps l ->
    extract_children P pt self u l ps st = Ret ps' st' -> stagent st' ps' [].
  Proof.
    induction l as [|k l IH]; intros ps st ps' st' Hst H; cbn [extract_children] in H.
    - injection H as <- <-. exact Hst.
    - destruct (should_discard (tok st k)).
      + eapply IH; [|exact H]. destruct Hst as (S1 & S2 & S3 & S4 & S5).
        split; [exact S1|]. split; [exact S2|]. split; [eapply apart_drop; eauto|]. split; [exact S4|].
        intros b Hb. apply S5. now right.
      + destruct (Nat.eqb k self); [discriminate|].
        destruct (add_token P pt k false u ps st) as [ps1 st1|p|] eqn:Ea; try discriminate.
        apply (add_token_stagent _ _ _ _ _ _ _ _ Hst) in Ea as [Ea _]. eapply IH; eauto.
  Qed.

  Lemma stagent_ps st ps ps' new : ps_kids ps' = ps_kids ps -> stagent st ps new -> stagent st ps' new.
  Proof.
    intros Hk (S1 & S2 & S3 & S4 & S5). split; [|split; [exact S2|]].
    - eapply stage_kids; [exact S1|]. rewrite Hk. apply S1.
    - rewrite Hk. auto.
  Qed.

  Lemma handle_extract_stagent a u ps st ps' st' : stagent st ps [a] ->
    handle_extract P pt a u ps st = Ret ps' st' -> stagent st' ps' [].
  Proof.
    intros Hst H. unfold handle_extract in H. eapply extract_stagent; [|exact H].
    eapply stagent_ps; [|].
    2:{ destruct Hst as (S1 & S2 & S3 & S4 & S5). split; [exact S1|]. split; [exact S2|].
        split; [now apply apart_open|]. split; [exact S4|].
        intros k Hk. eapply (forest_closed (S pt) st); [apply S1|apply S5; now left|exact Hk]. }
    destruct (_ && _); reflexivity.
  Qed.

  Lemma handle_skip_stagent start z ps st ps' st' new : stagent st ps new ->
    handle_skip E start z ps st = Ret ps' st' -> stagent st' ps' [].
  Proof.
    intros Hst H. unfold handle_skip in H. destruct (or_die _ _); [|discriminate].
    injection H as <- <-. apply stagent_drop in Hst. eapply stagent_ps; [|exact Hst]. reflexivity.
  Qed.

  Lemma handle_payload_stagent start p ps st ps' st' : stagent st ps (success_tokens p) ->
    handle_payload E P pt start p ps st = Ret ps' st' -> stagent st' ps' [].
  Proof.
    intros Hst H. destruct p; cbn [handle_payload] in H;
      try (injection H as <- <-; eapply stagent_drop; exact Hst).
    - unfold handle_token in H. eapply add_token_stagent; [exact Hst|exact H].
    - eapply handle_extract_stagent; [exact Hst|exact H].
    - eapply handle_skip_stagent; eauto.
  Qed.

  Lemma finalize_orderly i ps count strict st r st' new : stagent st ps new ->
    finalize P i pt ps count strict st = Ret r st' -> orderly h st'.
  Proof.
    intros Hst H. pose proof (stagent_orderly _ _ _ Hst) as Hq.
    assert (Hc : (if (rs (ps_cr ps) =? usize_max) || (rs (ps_mr ps) =? usize_max) then Ret (Err FFail) st
      else match ps_kids ps with
           | [] => Ret (Err FFail) st
           | _ => Ret (Ok (SToken pt))
                    (modify st pt (fun t => set_mr P (ps_mr ps) (set_cr P (ps_cr ps) (set_kids (ps_kids ps) t))))
           end) = Ret r st' -> orderly h st').
    { clear H. intros H. destruct (_ || _); [injection H as <- <-; exact Hq|].
      destruct (ps_kids ps) as [|k ks] eqn:Ek; injection H as <- <-; [exact Hq|].
      unfold modify. apply (fill_orderly st ps new); [exact Hst|now rewrite Ek|].
      unfold is_error. cbn [tk_flags set_mr set_cr set_kids]. apply Hst. }
    unfold finalize in H. destruct strict; [|now apply Hc].
    destruct (pi_iter i) as [[lo hi]|]; [|now apply Hc].
    destruct (_ && _ && _); [injection H as <- <-; exact Hq|].
    destruct (count <? lo); [injection H as <- <-; exact Hq|]. now apply Hc.
  Qed.

  (* running a pattern *)
  Lemma rec_stagent m c s ps st r st1 : stagent st ps [] -> rec m c s st = Ret r st1 ->
    stagent st1 ps (result_tokens r).
  Proof.
    intros (S1 & S2 & S3 & S4 & S5) H.
    pose proof S1 as (T1 & T2 & T3 & T4 & T5).
    pose proof (Hsound (heap_size st) m c s st r st1 (le_n _) (forest_top st) H) as (P1 & P2 & P3).
    pose proof (Hsound (S pt) m c s st r st1 T1 T2 H) as (Q1 & Q2 & Q3).
    assert (Ho : orderly (S pt) st1) by (eapply Hrec; eauto).
    split; [eapply stage_below; eauto|]. split; [exact Ho|]. split; [|split].
    - apply apart_kids in S3 as (l & Hl & Hn).
      assert (Hone : exists l2, preorder st1 (result_tokens r) l2 /\ NoDup l2).
      { destruct (result_one r) as [x Hat].
        destruct Hat as [Hx|Hx]; rewrite Hx.
        - exists []. split; constructor.
        - apply (Ho x). apply Q3. rewrite Hx. now left. }
      destruct Hone as (l2 & Hl2 & Hn2). exists l, l2.
      split; [exact (tree_kept (S pt) st st1 _ l T2 T5 Hl P1)|]. split; [exact Hl2|].
      apply NoDup_join; auto. intros x Hx Hx2.
      eapply tree_within in Hx; [|exact T2|exact T5|exact Hl].
      eapply tree_within in Hx2; [|exact P2|exact P3|exact Hl2]. lia.
    - destruct Q1 as [_ Q1]. rewrite Q1 by lia. exact S4.
    - intros a Ha. apply Q3 in Ha. lia.
  Qed.

  Definition pass_neat (k : ctl) (ps : pst) (st : state) : Prop :=
    match k with
    | CDone => stagent st ps []
    | CAct x => stagent st ps (success_tokens x)
    | CRet r => orderly h st
    end.

  Lemma run_patterns_neat i c s start count pats : forall ps st k ps' st', stagent st ps [] ->
    run_patterns E P rec i c s pt start count pats ps st = Ret (k, ps') st' -> pass_neat k ps' st'.
  Proof.
    induction pats as [|m pats IH]; intros ps st k ps' st' Hst H; cbn [run_patterns] in H.
    - injection H as <- <- <-. exact Hst.
    - destruct (rec m _ s st) as [r st1|p|] eqn:Er; try discriminate.
      apply (rec_stagent _ _ _ _ _ _ _ Hst) in Er. clear Hst st. rename Er into Hst1.
      pose proof (stagent_drop _ _ _ Hst1) as Hst0.
      pose proof (stagent_orderly _ _ _ Hst1) as Hret.
      destruct r as [[a|a|z|nm p|nm p| |]|e]; cbn [result_tokens success_tokens] in Hst1.
      + destruct (should_discard (tok st1 a)); [eapply IH; [|exact H]; assumption|].
        destruct (pi_stop i); [injection H as <- <- <-; exact Hret|].
        unfold handle_token in H.
        destruct (add_token P pt a _ _ ps st1) as [ps2 st2|p|] eqn:Ea; try discriminate.
        apply (add_token_stagent _ _ _ _ _ _ _ _ Hst1) in Ea as [Ea _]. eapply IH; [exact Ea|exact H].
      + destruct (should_discard (tok st1 a)); [eapply IH; [|exact H]; assumption|].
        destruct (pi_stop i); [injection H as <- <- <-; exact Hret|].
        destruct (handle_extract P pt a _ ps st1) as [ps2 st2|p|] eqn:Ea; try discriminate.
        apply (handle_extract_stagent _ _ _ _ _ _ Hst1) in Ea. eapply IH; [exact Ea|exact H].
      + destruct (_ && _); [injection H as <- <- <-; exact Hret|].
        destruct (m_consuming m); [|eapply IH; [|exact H]; assumption].
        destruct (handle_skip E start z ps st1) as [ps2 st2|p|] eqn:Ea; try discriminate.
        apply (handle_skip_stagent _ _ _ _ _ _ _ Hst1) in Ea. eapply IH; [exact Ea|exact H].
      + injection H as <- <- <-. exact Hst1.
      + injection H as <- <- <-. exact Hst1.
      + injection H as <- <- <-. exact Hst1.
      + injection H as <- <- <-. exact Hst1.
      + destruct (dbg E P _ 10); [|discriminate]. destruct e.
        * destruct (pi_stop i); [eapply IH; [|exact H]; assumption|]. destruct (pi_iter i).
          -- destruct (finalize P i pt ps count false st1) as [x st2|p0|] eqn:Ef; try discriminate.
             injection H as <- <- <-. cbn. eapply finalize_orderly; eauto.
          -- injection H as <- <- <-. exact Hret.
        * injection H as <- <- <-. exact Hret.
  Qed.

  Lemma iterate_orderly pats i c s start : forall f left count ps st r st', stagent st ps [] ->
    iterate f E P rec pats i c s pt start left count ps st = Ret r st' -> orderly h st'.
  Proof.
    induction f as [|f IH]; intros left count ps st r st' Hst H; cbn [iterate] in H.
    - destruct (left =? 0); [|discriminate]. eapply finalize_orderly; eauto.
    - destruct (left =? 0); [eapply finalize_orderly; eauto|].
      destruct (run_patterns _ _ _ _ _ _ _ _ _ _ _ _) as [[k ps1] st1|p|] eqn:Er; try discriminate.
      apply run_patterns_neat in Er; [|exact Hst]. destruct k as [|x|r0]; cbn [pass_neat] in Er.
      + eapply IH; [|exact H]; assumption.
      + pose proof (stagent_orderly _ _ _ Er) as Hret.
        destruct x as [a|a|z|nm p|nm p| |]; try discriminate; cbn [success_tokens] in Er.
        * destruct (pi_stop i); [injection H as <- <-; exact Hret|].
          destruct (handle_payload E P pt start p ps1 st1) as [ps2 st2|q|] eqn:Eh; try discriminate.
          apply handle_payload_stagent in Eh; [|exact Er].
          destruct (finalize P i pt ps2 count false st2) as [y st3|q|] eqn:Ef; try discriminate.
          eapply finalize_orderly in Ef; [|exact Eh].
          destruct (is_target i nm); [injection H as <- <-; exact Ef|].
          destruct y; injection H as <- <-; exact Ef.
        * destruct (pi_stop i); [injection H as <- <-; exact Hret|].
          destruct (handle_payload E P pt start p ps1 st1) as [ps2 st2|q|] eqn:Eh; try discriminate.
          apply handle_payload_stagent in Eh; [|exact Er].
          destruct (is_target i nm); [eapply IH; [|exact H]; assumption|]. eapply finalize_orderly; eauto.
        * eapply finalize_orderly; eauto.
      + injection H as <- <-. exact Er.
  Qed.
End ProgramTrees.

(* ---------- all matchers ---------- *)

Lemma step_neat E P rec fuel : tame E -> tidy E -> (forall h, sound h rec) -> neat rec -> neat (step fuel E P rec).
Proof.
  intros HT HE Hsound Hrec h m c s st0 r st' Hh0 Hf0 Ho0 H.
  unfold step in H.
  assert (Hh : (h <= heap_size (before_exec m s st0))%nat) by (now rewrite before_size).
  assert (Hf : forest h (before_exec m s st0)) by (eapply forest_heap; [apply before_heap|exact Hf0]).
  assert (Ho : orderly h (before_exec m s st0)) by (eapply orderly_heap; [apply before_heap|exact Ho0]).
  set (st := before_exec m s st0) in *. clearbody st. clear Hh0 Hf0 Ho0 st0.
  assert (Hin : forall m1 c1 s1 r0 st1, rec m1 c1 s1 st = Ret r0 st1 ->
     orderly h st1 /\ (h <= heap_size st1)%nat /\ forest h st1 /\
     (forall a, In a (result_tokens r0) -> (h <= a < heap_size st1)%nat)).
  { intros m1 c1 s1 r0 st1 E1. split; [eapply Hrec; eauto|]. apply (Hsound h) in E1; auto.
    split; [eapply stays_size; eauto|]. split; apply E1. }
  destruct m as [pats i|p name cust|f name cust|fs fe fx name cust|m1|m1|m1| |msg|msg|nm|m1 k|m1 f
                |om off name cust|p name cust|name|ms|t name cust|o m1|m1 name cust|m1|om d|k name cust cons];
    cbn [m_name m_custom] in H.
  - (* MProgram *)
    unfold exec_program in H.
    set (pt := next_addr st) in *. set (t0 := std_token P (pi_name i) blank_range) in *.
    assert (Hpt : heap_size st = pt) by reflexivity.
    eapply (iterate_orderly E P rec h pt st Hsound Hrec Hpt); [lia|exact Hf|exact Ho| |exact H].
    assert (Hno : forall a, ~ (S pt <= a < heap_size (alloc st t0))%nat).
    { intros a Ha. rewrite heap_size_alloc in Ha. lia. }
    split; [|split; [|split; [|split]]].
    + split; [rewrite heap_size_alloc; lia|]. split.
      * intros a Ha. exfalso. eapply Hno; eauto.
      * split; [intros a Ha; apply tok_alloc_old; unfold heap_size in *; lia|].
        split; [unfold pt; now rewrite tok_alloc_new|intros ? []].
    + intros a Ha. exfalso. eapply Hno; eauto.
    + apply apart_none. exists []. split; constructor.
    + unfold pt. now rewrite tok_alloc_new.
    + intros ? [].
  - (* MEquals *)
    destruct (fetch_value st s p) as [[v|m1]|]; [| |discriminate].
    + destruct (matches_str P _ v) as [r0|]; [|discriminate].
      destruct (dbg E P _ 10); [|discriminate].
      destruct r0; injection H as <- <-; [|exact Ho]. now apply orderly_leaf.
    + injection H as <- <-. exact Ho.
  - (* MMatches *)
    destruct (matches_regexp P _ f) as [r0|]; [|discriminate]. destruct r0 as [r0|].
    + destruct (rs r0 =? re r0).
      * destruct (dbg E P _ 10); [|discriminate]. injection H as <- <-. exact Ho.
      * injection H as <- <-. now apply orderly_leaf.
    + destruct (dbg E P _ 10); [|discriminate]. injection H as <- <-. exact Ho.
  - (* MSequence *)
    unfold exec_sequence in H.
    repeat match type of H with
    | (let! _ := ?x in _) = _ => destruct x; [|discriminate]
    | (match ?x with _ => _ end) = _ => destruct x
    end; try discriminate;
      try (injection H as <- <-; exact Ho);
      try (injection H as <- <-; now apply orderly_leaf).
  - (* MNot *)
    destruct (rec m1 _ s st) as [r0 st1|p|] eqn:E1; try discriminate. apply Hin in E1 as (H1 & H2 & H3 & H4).
    destruct r0 as [[a|a|z|b q|b q| |]|[|e]]; try (injection H as <- <-; exact H1).
    destruct (z =? 0)%Z; injection H as <- <-; exact H1.
  - (* MOptional *)
    destruct (rec m1 _ s st) as [r0 st1|p|] eqn:E1; try discriminate. apply Hin in E1 as (H1 & H2 & H3 & H4).
    destruct r0 as [x|[|e]]; injection H as <- <-; exact H1.
  - (* MDiscard *)
    destruct (rec m1 _ s st) as [r0 st1|p|] eqn:E1; try discriminate. apply Hin in E1 as (H1 & H2 & H3 & H4).
    exact (discard_orderly _ _ _ _ h _ _ _ H2 H3 H1 H4 H).
  - injection H as <- <-. exact Ho.
  - (* MPanic *)
    destruct (error_string E P msg _); [|discriminate]. injection H as <- <-. exact Ho.
  - unfold error_token in H. eapply error_token_at_orderly; eauto.
  - injection H as <- <-. exact Ho.
  - (* MCatch *)
    destruct (rec m1 _ s st) as [r0 st1|p|] eqn:E1; try discriminate. apply Hin in E1 as (H1 & H2 & H3 & H4).
    destruct r0 as [x|e]; [injection H as <- <-; exact H1|].
    destruct (HE h st1 H2 H3 H1) as (_ & _ & Hc & _). eapply Hc; eauto.
  - (* MMap *)
    destruct (rec m1 _ s st) as [r0 st1|p|] eqn:E1; try discriminate. apply Hin in E1 as (H1 & H2 & H3 & H4).
    destruct r0 as [[a|a|z|b q|b q| |]|e]; try (injection H as <- <-; exact H1).
    + exact (map_ok_orderly _ _ _ _ _ _ h _ _ _ HE H2 H3 H1 (H4 a (or_introl eq_refl)) H).
    + exact (map_ok_orderly _ _ _ _ _ _ h _ _ _ HE H2 H3 H1 (H4 a (or_introl eq_refl)) H).
    + exact (map_err_orderly _ _ _ _ _ _ h _ _ _ HE H2 H3 H1 H).
  - (* MPin *)
    destruct (fetch_value st s off) as [[v|m2]|]; [| |discriminate].
    + destruct (pin_context E _ v); [|discriminate]. destruct om as [m1|].
      * now apply Hin in H as (H1 & _).
      * injection H as <- <-. now apply orderly_leaf.
    + injection H as <- <-. exact Ho.
  - (* MStore *)
    destruct p as [m1|v].
    + destruct (rec m1 _ s st) as [r0 st1|p|] eqn:E1; try discriminate. apply Hin in E1 as (H1 & H2 & H3 & H4).
      destruct r0 as [[a|a|z|b q|b q| |]|e]; injection H as <- <-; (exact H1 || (eapply orderly_heap; [|exact H1]; reflexivity)).
    + injection H as <- <-. eapply orderly_heap; [|exact Ho]. reflexivity.
  - injection H as <- <-. exact Ho.
  - (* MRegister *)
    injection H as <- <-. eapply orderly_heap; [|exact Ho].
    clear. revert st. induction ms as [|m ms IH]; intros st; cbn [fold_left]; [reflexivity|]. now rewrite IH.
  - (* MRef *)
    destruct (fetch_value st s t) as [[v|m1]|]; [| |discriminate].
    + destruct (sc_get st s v) as [[ | | ]|]; try (injection H as <- <-; exact Ho).
      now apply Hin in H as (H1 & _).
    + now apply Hin in H as (H1 & _).
  - (* MSetScope *)
    destruct o as [s1|].
    + now apply Hin in H as (H1 & _).
    + destruct (rec m1 _ (c_scope c) (sc_push st (c_scope c))) as [r0 st1|p|] eqn:E1; try discriminate.
      injection H as <- <-. apply (Hrec h) in E1; [|exact Hh|eapply forest_heap; [|exact Hf]; reflexivity|eapply orderly_heap; [|exact Ho]; reflexivity].
      eapply orderly_heap; [|exact E1]. reflexivity.
  - (* MProxy *)
    destruct (rec m1 _ s st) as [r0 st1|p|] eqn:E1; try discriminate. apply Hin in E1 as (H1 & H2 & H3 & H4).
    destruct r0 as [[a|a|z|b q|b q| |]|e]; try (injection H as <- <-; exact H1);
      destruct q; injection H as <- <-; exact H1.
  - (* MExpand *)
    destruct (rec m1 _ s st) as [r0 st1|p|] eqn:E1; try discriminate. apply Hin in E1 as (H1 & H2 & H3 & H4).
    destruct r0 as [[a|a|z|b q|b q| |]|e]; try (injection H as <- <-; exact H1).
    + injection H as <- <-. apply orderly_alloc; [exact H2|exact H3|exact H1| | |discriminate].
      * intros k [<-|[]]. apply H4. now left.
      * apply (H1 a). apply H4. now left.
    + injection H as <- <-. now apply orderly_set.
  - (* MDebug *)
    destruct om as [m1|].
    + destruct (debug_range E P _ 10); [|discriminate]. now apply Hin in H as (H1 & _).
    + destruct (debug_range E P _ 10); [|discriminate]. injection H as <- <-. exact Ho.
  - (* MUser *)
    destruct (HE h st Hh Hf Ho) as (_ & _ & _ & Hu). eapply Hu; eauto.
Qed.

Lemma exec_neat E P : tame E -> tidy E -> forall n, neat (exec n E P).
Proof.
  intros HT HE. induction n as [|n IH]; [intros h m c s st r st' _ _ _ H; discriminate|].
  cbn [exec]. apply step_neat; auto. intros h. now apply exec_sound.
Qed.

Lemma orderly_top st : orderly (heap_size st) st.
Proof. intros a Ha. lia. Qed.

Lemma runs_orderly E P m c s st r st' : tame E -> tidy E ->
  Runs E P m c s st r st' -> orderly (heap_size st) st'.
Proof. intros HT HE [n H]. eapply exec_neat; eauto using forest_top, orderly_top. Qed.

Lemma runs_trees E P m c s st r st' : tame E -> tidy E ->
  Runs E P m c s st r st' -> forall a, In a (result_tokens r) -> is_tree st' a.
Proof.
  intros HT HE H a Ha. pose proof (runs_orderly _ _ _ _ _ _ _ _ HT HE H) as Ho.
  apply runs_frame in H as (_ & _ & H); [|exact HT]. now apply Ho, H.
Qed.

(* ---------- tokenizing real grammars ---------- *)

Lemma root_result x a : root_of x a -> In a (success_tokens x).
Proof. destruct 1; now left. Qed.

Lemma tokenize_ok E P c m st x a st1 : tame E -> tidy E ->
  Runs E P m c (c_scope c) st (Ok x) st1 -> root_of x a ->
  exists st', Tokenizes E P c m st (TOk a) st' /\ hoisted st1 a st'.
Proof.
  intros HT HE H Hx. pose proof (root_result x a Hx) as Ha. eapply tokenize_root; eauto.
  - apply runs_frame in H as (_ & _ & H); [|exact HT]. now apply H in Ha.
  - eapply runs_trees; eauto.
Qed.

Lemma tokenizes_det E P c m st r1 s1 r2 s2 :
  Tokenizes E P c m st r1 s1 -> Tokenizes E P c m st r2 s2 -> r1 = r2 /\ s1 = s2.
Proof.
  intros [n H1] [k H2]. unfold tokenize in *.
  destruct (exec n E P m c (c_scope c) st) as [x1 t1|p|] eqn:E1; try discriminate.
  destruct (exec k E P m c (c_scope c) st) as [x2 t2|p|] eqn:E2; try discriminate.
  destruct (runs_det E P m c (c_scope c) st x1 t1 x2 t2) as [-> ->]; [now exists n|now exists k|].
  split; congruence.
Qed.

(* the tree after hoisting: the same tokens *)
Lemma filter_preorder st (p : addr -> bool) roots l : preorder st roots l ->
  exists l1 l2, preorder st (filter p roots) l1 /\ preorder st (filter (fun x => negb (p x)) roots) l2 /\
    Permutation l (l1 ++ l2).
Proof.
  induction 1 as [|a roots la lb Ha IHa Hb IHb]; [exists [], []; repeat split; constructor|].
  destruct IHb as (l1 & l2 & H1 & H2 & Hp). cbn [filter]. destruct (p a); cbn [negb].
  - exists (a :: la ++ l1), l2. split; [now constructor|]. split; [exact H2|].
    cbn [app]. constructor. rewrite <- app_assoc. now apply Permutation_app_head.
  - exists l1, (a :: la ++ l2). split; [exact H1|]. split; [now constructor|].
    rewrite Hp. rewrite <- Permutation_middle. constructor. rewrite !app_assoc.
    apply Permutation_app_tail. apply Permutation_app_comm.
Qed.

Lemma hoisted_below st st' roots l : preorder st roots l ->
  (forall a, In a l -> tok st' a = set_kids (other_kids st a) (tok st a)) ->
  forall e, nested_errors st roots e ->
  exists l0 le, preorder st' roots l0 /\ preorder st' e le /\ Permutation l (l0 ++ le).
Proof.
  induction 1 as [|a roots la lb Ha IHa Hb IHb]; intros Ht e He; inversion He as [|a' r' e1 e2 He1 He2]; subst.
  - exists [], []. repeat split; constructor.
  - destruct (IHa) with (e := e1) as (l0a & lea & P1 & P2 & P3); auto.
    { intros x Hx. apply Ht. right. apply in_or_app. now left. }
    destruct (IHb) with (e := e2) as (l0b & leb & Q1 & Q2 & Q3); auto.
    { intros x Hx. apply Ht. right. apply in_or_app. now right. }
    destruct (filter_preorder st' (fun k => negb (is_error (tok st k))) _ _ P1) as (lo & ler & R1 & R2 & R3).
    assert (Ek : filter (fun x => negb (negb (is_error (tok st x)))) (tk_kids (tok st a)) = error_kids st a).
    { unfold error_kids. apply filter_ext. intros x. apply negb_involutive. }
    rewrite Ek in R2. fold (other_kids st a) in R1.
    exists (a :: lo ++ l0b), (lea ++ ler ++ leb). split; [|split].
    + constructor; [|exact Q1]. rewrite Ht by now left. cbn [tk_kids set_kids]. exact R1.
    + repeat apply preorder_app; assumption.
    + cbn [app]. constructor. rewrite P3, R3, Q3. rewrite <- !app_assoc.
      apply Permutation_app_head. rewrite !app_assoc. apply Permutation_app_tail.
      rewrite Permutation_app_comm. rewrite <- !app_assoc. apply Permutation_app_head. apply Permutation_app_comm.
Qed.

Lemma hoisted_tokens st root st' l : hoisted st root st' -> preorder st [root] l ->
  exists l', preorder st' [root] l' /\ Permutation l l'.
Proof.
  intros (_ & _ & l1 & errs & Hp & Hn & Hr & Hl & Ho) H.
  inversion H as [|a roots la lb Ha Hb]; subst. inversion Hb; subst. rewrite app_nil_r in *.
  rewrite (preorder_det _ _ _ Ha _ Hp) in *.
  destruct (hoisted_below st st' _ _ Hp Hl _ Hn) as (l0 & le & P1 & P2 & P3).
  exists (root :: l0 ++ le). split; [|now constructor].
  apply preorder_one. rewrite Hr. cbn [tk_kids set_kids]. now apply preorder_app.
Qed.

(* all of C36 *)
Lemma tokenize_hoists E P c m st a st' : tame E -> tidy E ->
  Tokenizes E P c m st (TOk a) st' ->
  exists x st1 l,
    Runs E P m c (c_scope c) st (Ok x) st1 /\ root_of x a /\
    preorder st1 [a] l /\ NoDup l /\ hoisted st1 a st' /\
    (forall b, In b l -> b <> a -> error_kids st' b = []) /\
    Permutation (error_kids st' a) (filter (fun b => is_error (tok st1 b)) (tl l)) /\
    exists l', preorder st' [a] l' /\ Permutation l l'.
Proof.
  intros HT HE H. destruct (tokenize_only _ _ _ _ _ _ _ H) as (r0 & st1 & Hr & x & -> & Hx).
  destruct (tokenize_ok _ _ _ _ _ _ _ _ HT HE Hr Hx) as (st2 & H2 & Hh).
  destruct (tokenizes_det _ _ _ _ _ _ _ _ _ H H2) as [_ ->].
  destruct (runs_trees _ _ _ _ _ _ _ _ HT HE Hr a (root_result x a Hx)) as (l & Hl & Hn).
  pose proof (hoisted_tokens _ _ _ _ Hh Hl) as Ht.
  inversion Hl as [|b roots la lb Ha Hb]; subst. inversion Hb; subst. rewrite app_nil_r in *.
  inversion Hn as [|b l' Hnot Hn']; subst.
  exists x, st1, (a :: la). split; [exact Hr|]. split; [exact Hx|]. split; [exact Hl|]. split; [exact Hn|].
  split; [exact Hh|]. split; [|split; [|exact Ht]].
  - intros b [->|Hin] Hne; [contradiction|]. eapply hoisted_clean; eauto.
  - cbn [tl]. now apply hoisted_errors.
Qed.

(* C37 *)
Lemma tokenize_token E P c m st a : tame E -> tidy E ->
  ((exists st', Tokenizes E P c m st (TOk a) st') <->
   exists x st1, Runs E P m c (c_scope c) st (Ok x) st1 /\ root_of x a).
Proof.
  intros HT HE. split.
  - intros [st' H]. destruct (tokenize_only _ _ _ _ _ _ _ H) as (r0 & st1 & Hr & x & -> & Hx). eauto.
  - intros (x & st1 & Hr & Hx). destruct (tokenize_ok _ _ _ _ _ _ _ _ HT HE Hr Hx) as (st' & H & _). eauto.
Qed.
Lemma tokenize_failure E P c m st e st' :
  Tokenizes E P c m st (TErr e) st' <->
  (Runs E P m c (c_scope c) st (Err e) st' \/
   e = FFail /\ exists x, Runs E P m c (c_scope c) st (Ok x) st' /\ forall a, ~ root_of x a).
Proof.
  split.
  - intros H. destruct (tokenize_only _ _ _ _ _ _ _ H) as (r0 & st1 & Hr & -> & [->|(-> & x & -> & Hx)]); eauto.
  - intros [H|(-> & x & H & Hx)]; [now apply tokenize_err|eapply tokenize_no_root; eauto].
Qed.
