(* What executions leave alone: older tokens (C19), parents (C18). *)
From Verif Require Export MapProofs.
Open Scope string_scope.
Open Scope list_scope.
Open Scope N_scope.

(* ---------- trees ---------- *)

Lemma preorder_ext st st' roots l : preorder st roots l ->
  (forall a, In a l -> tk_kids (tok st' a) = tk_kids (tok st a)) -> preorder st' roots l.
Proof.
  induction 1 as [|a roots l1 l2 H1 IH1 H2 IH2]; intros Hk; [constructor|].
  constructor.
  - rewrite Hk by now left. apply IH1. intros b Hb. apply Hk. right. apply in_or_app. now left.
  - apply IH2. intros b Hb. apply Hk. right. apply in_or_app. now right.
Qed.

Lemma preorder_app st r1 r2 l1 l2 : preorder st r1 l1 -> preorder st r2 l2 -> preorder st (r1 ++ r2) (l1 ++ l2).
Proof.
  induction 1 as [|a roots la lb Ha _ Hb IHb]; intros H2; [exact H2|].
  cbn [app]. rewrite <- app_assoc. constructor; [exact Ha|auto].
Qed.
Lemma preorder_all st roots :
  (forall a, In a roots -> exists l, preorder st [a] l) -> exists l, preorder st roots l.
Proof.
  induction roots as [|a roots IH]; intros H; [exists []; constructor|].
  destruct (H a (or_introl eq_refl)) as [l1 H1]. destruct IH as [l2 H2]; [intros; apply H; now right|].
  exists (l1 ++ l2). now apply (preorder_app st [a] roots).
Qed.
Lemma preorder_one st a l : preorder st (tk_kids (tok st a)) l -> preorder st [a] (a :: l).
Proof. intros H. rewrite <- (app_nil_r l). constructor; [exact H|constructor]. Qed.

(* everything in a tree is in a set closed under children *)
Lemma preorder_within st (Q : addr -> Prop) roots l : preorder st roots l ->
  (forall a, Q a -> forall k, In k (tk_kids (tok st a)) -> Q k) ->
  (forall a, In a roots -> Q a) -> forall a, In a l -> Q a.
Proof.
  intros H Hc. induction H as [|a roots l1 l2 H1 IH1 H2 IH2]; intros Hr b Hb; [destruct Hb|].
  destruct Hb as [<-|Hb]; [apply Hr; now left|].
  apply in_app_or in Hb as [Hb|Hb].
  - apply IH1; [|exact Hb]. intros k Hk. apply (Hc a); [apply Hr; now left|exact Hk].
  - apply IH2; [|exact Hb]. intros k Hk. apply Hr. now right.
Qed.

(* ---------- heaps ---------- *)

Lemma heap_size_alloc st t : heap_size (alloc st t) = S (heap_size st).
Proof. unfold heap_size, alloc. cbn. rewrite app_length. cbn. lia. Qed.
Lemma heap_size_set st a t : heap_size (set_tok st a t) = heap_size st.
Proof. unfold heap_size, set_tok. cbn. apply upd_length. Qed.
Lemma heap_size_sc st s n v : heap_size (sc_set st s n v) = heap_size st.
Proof. reflexivity. Qed.
Lemma before_size m s st : heap_size (before_exec m s st) = heap_size st.
Proof. unfold heap_size. now rewrite before_heap. Qed.
Lemma before_tok m s st a : tok (before_exec m s st) a = tok st a.
Proof. unfold tok. now rewrite before_heap. Qed.

Lemma preserved_refl h st : preserved h st st.
Proof. split; auto. Qed.
Lemma preserved_trans h st1 st2 st3 : preserved h st1 st2 -> preserved h st2 st3 -> preserved h st1 st3.
Proof. intros [L1 H1] [L2 H2]. split; [lia|]. intros a Ha. rewrite H2, H1; auto. Qed.
Lemma preserved_le h h' st st' : (h <= h')%nat -> preserved h' st st' -> preserved h st st'.
Proof. intros Hle [L H]. split; [exact L|]. intros a Ha. apply H. lia. Qed.
Lemma preserved_heap h st st' : st_heap st' = st_heap st -> preserved h st st'.
Proof. intros H. unfold preserved, heap_size, tok. rewrite H. auto. Qed.
Lemma preserved_alloc h st t : (h <= heap_size st)%nat -> preserved h st (alloc st t).
Proof.
  intros Hh. split; [rewrite heap_size_alloc; lia|]. intros a Ha. apply tok_alloc_old. unfold heap_size in Hh. lia.
Qed.
Lemma preserved_set h st a t : (h <= a)%nat -> preserved h st (set_tok st a t).
Proof. intros Ha. split; [now rewrite heap_size_set|]. intros b Hb. apply tok_set_other. lia. Qed.

Lemma forest_heap h st st' : st_heap st' = st_heap st -> forest h st -> forest h st'.
Proof.
  intros H Hf a Ha. unfold heap_size in *. rewrite H in *.
  assert (Ht : forall b, tok st' b = tok st b) by (intros; unfold tok; now rewrite H).
  destruct (Hf a Ha) as [Hk [l Hl]]. rewrite Ht. split; [exact Hk|].
  exists l. eapply preorder_ext; [exact Hl|]. intros b _. now rewrite Ht.
Qed.

Lemma forest_closed h st : forest h st ->
  forall a, (h <= a < heap_size st)%nat -> forall k, In k (tk_kids (tok st a)) -> (h <= k < heap_size st)%nat.
Proof. intros H a Ha k Hk. apply (H a Ha) in Hk. tauto. Qed.
Lemma forest_pin h st a : forest h st -> (h <= a < heap_size st)%nat -> tk_kind (tok st a) = KPin ->
  tk_kids (tok st a) = [].
Proof.
  intros H Ha Hp. destruct (tk_kids (tok st a)) as [|k l] eqn:E; [reflexivity|].
  destruct (proj1 (H a Ha) k) as [_ Hs]; [rewrite E; now left|congruence].
Qed.

Lemma forest_kids_same h st st' : heap_size st' = heap_size st ->
  (forall a, tk_kids (tok st' a) = tk_kids (tok st a)) ->
  (forall a, tk_kind (tok st' a) = tk_kind (tok st a)) -> forest h st -> forest h st'.
Proof.
  intros Hs Hk Hd Hf a Ha. rewrite Hs in *. destruct (Hf a Ha) as [H1 [l H2]].
  split; [now rewrite Hk, Hd|]. exists l. eapply preorder_ext; eauto.
Qed.

Lemma kids_set st a t x : tk_kids t = tk_kids (tok st a) ->
  tk_kids (tok (set_tok st a t) x) = tk_kids (tok st x).
Proof.
  intros H. destruct (Nat.eq_dec a x) as [<-|Hn].
  - destruct (Nat.lt_ge_cases a (List.length (st_heap st))).
    + now rewrite tok_set_same.
    + now rewrite tok_set_dead.
  - now rewrite tok_set_other.
Qed.
Lemma forest_set h st a t : tk_kids t = tk_kids (tok st a) -> tk_kind t = tk_kind (tok st a) ->
  forest h st -> forest h (set_tok st a t).
Proof.
  intros H Hd. apply forest_kids_same; [apply heap_size_set| |]; intros x; [now apply kids_set|now apply kind_set].
Qed.

Lemma forest_alloc h st t : (h <= heap_size st)%nat -> forest h st ->
  (forall k, In k (tk_kids t) -> (h <= k < heap_size st)%nat /\ tk_kind t = KStandard) -> forest h (alloc st t).
Proof.
  intros Hh Hf Ht a Ha. rewrite heap_size_alloc in *.
  assert (Hold : forall b, (h <= b < heap_size st)%nat -> exists l, preorder (alloc st t) [b] l).
  { intros b Hb. destruct (Hf b Hb) as [_ [l Hl]]. exists l. eapply preorder_ext; [exact Hl|].
    intros x Hx. rewrite tok_alloc_old; [reflexivity|].
    enough (h <= x < heap_size st)%nat by (unfold heap_size in *; lia).
    eapply (preorder_within st (fun x => (h <= x < heap_size st)%nat)); [exact Hl|now apply forest_closed| |exact Hx].
    intros y [<-|[]]. exact Hb. }
  destruct (Nat.eq_dec a (heap_size st)) as [->|Hn].
  - change (tok (alloc st t) (heap_size st)) with (tok (alloc st t) (next_addr st)).
    rewrite tok_alloc_new. split; [intros k Hk; destruct (Ht k Hk); split; [lia|assumption]|].
    destruct (preorder_all (alloc st t) (tk_kids t)) as [l Hl].
    + intros k Hk. apply Hold. now apply Ht.
    + exists (heap_size st :: l). apply preorder_one.
      change (tok (alloc st t) (heap_size st)) with (tok (alloc st t) (next_addr st)). now rewrite tok_alloc_new.
  - rewrite tok_alloc_old by (unfold heap_size in *; lia). split.
    + intros k Hk. apply Hf in Hk as [Hk Hd]; [split; [lia|exact Hd]|lia].
    + apply Hold. lia.
Qed.

(* ---------- stays_above ---------- *)

Definition sound (h : nat) (rec : recT) : Prop :=
  forall m c s st r st', (h <= heap_size st)%nat -> forest h st ->
    rec m c s st = Ret r st' -> stays_above h st r st'.

Lemma stays_same h st r : forest h st -> (forall a, In a (result_tokens r) -> (h <= a < heap_size st)%nat) ->
  stays_above h st r st.
Proof. intros Hf Hr. split; [apply preserved_refl|auto]. Qed.
Lemma stays_heap h st st' r : st_heap st' = st_heap st -> forest h st ->
  (forall a, In a (result_tokens r) -> (h <= a < heap_size st)%nat) -> stays_above h st r st'.
Proof.
  intros He Hf Hr. split; [now apply preserved_heap|]. split; [eapply forest_heap; eauto|].
  unfold heap_size in *. now rewrite He.
Qed.
Lemma stays_from h st0 st r st' : preserved h st0 st -> stays_above h st r st' -> stays_above h st0 r st'.
Proof. intros Hp (H1 & H2 & H3). split; [eapply preserved_trans; eauto|auto]. Qed.
Lemma stays_then h st0 r st r' st' : stays_above h st0 r st -> stays_above h st r' st' -> stays_above h st0 r' st'.
Proof. intros (H1 & _) H. eapply stays_from; eauto. Qed.
Lemma stays_size h st r st' : (h <= heap_size st)%nat -> stays_above h st r st' -> (h <= heap_size st')%nat.
Proof. intros Hh ((Hs & _) & _). lia. Qed.
Lemma stays_result h st r r' st' : stays_above h st r st' ->
  (forall a, In a (result_tokens r') -> In a (result_tokens r)) -> stays_above h st r' st'.
Proof. intros (H1 & H2 & H3) H. split; [exact H1|]. split; [exact H2|]. intros a Ha. apply H3, H, Ha. Qed.

Lemma stays_alloc h st t : (h <= heap_size st)%nat -> forest h st ->
  (forall k, In k (tk_kids t) -> (h <= k < heap_size st)%nat /\ tk_kind t = KStandard) ->
  forall r, (forall a, In a (result_tokens r) -> a = next_addr st \/ (h <= a < heap_size st)%nat) ->
  stays_above h st r (alloc st t).
Proof.
  intros Hh Hf Ht r Hr. split; [now apply preserved_alloc|]. split; [now apply forest_alloc|].
  intros a Ha. rewrite heap_size_alloc. specialize (Hr a Ha).
  replace (next_addr st) with (heap_size st) in Hr by reflexivity. lia.
Qed.
Lemma stays_modify h st a f r : (h <= a)%nat -> forest h st -> tk_kids (f (tok st a)) = tk_kids (tok st a) ->
  tk_kind (f (tok st a)) = tk_kind (tok st a) ->
  (forall a, In a (result_tokens r) -> (h <= a < heap_size st)%nat) ->
  stays_above h st r (modify st a f).
Proof.
  intros Ha Hf Hk Hd Hr. split; [now apply preserved_set|]. split; [now apply forest_set|].
  unfold modify. now rewrite heap_size_set.
Qed.

Lemma error_token_at_stays E P msg r h st x st' : (h <= heap_size st)%nat -> forest h st ->
  error_token_at E P msg r st = Ret x st' -> stays_above h st x st'.
Proof.
  intros Hh Hf H. unfold error_token_at in H. destruct (error_string E P msg r); [|discriminate].
  injection H as <- <-. apply stays_alloc; [assumption|assumption| |].
  - intros k [].
  - intros a0 [<-|[]]. now left.
Qed.

Lemma set_attr_kids k v t : tk_kids (set_attr k v t) = tk_kids t. Proof. reflexivity. Qed.
Lemma add_missing_kids l : forall t, tk_kids (add_missing_attrs l t) = tk_kids t.
Proof.
  unfold add_missing_attrs. induction l as [|kv l IH]; intros t; cbn [fold_left]; [reflexivity|].
  rewrite IH. destruct (get_attr (fst kv) t); reflexivity.
Qed.
Lemma set_attrs_kids l : forall t, tk_kids (set_attrs l t) = tk_kids t.
Proof.
  unfold set_attrs. induction l as [|kv l IH]; intros t; cbn [fold_left]; [reflexivity|]. now rewrite IH.
Qed.

Lemma add_missing_kind l : forall t, tk_kind (add_missing_attrs l t) = tk_kind t.
Proof.
  unfold add_missing_attrs. induction l as [|kv l IH]; intros t; cbn [fold_left]; [reflexivity|].
  rewrite IH. destruct (get_attr (fst kv) t); reflexivity.
Qed.
Lemma set_attrs_kind l : forall t, tk_kind (set_attrs l t) = tk_kind t.
Proof.
  unfold set_attrs. induction l as [|kv l IH]; intros t; cbn [fold_left]; [reflexivity|]. now rewrite IH.
Qed.

Lemma map_ok_stays E P f a c s h st r st' : tame E ->
  (h <= heap_size st)%nat -> forest h st -> (h <= a < heap_size st)%nat ->
  map_ok E P f a c s st = Ret r st' -> stays_above h st r st'.
Proof.
  intros HE Hh Hf Ha H.
  assert (Hone : forall b, In b (result_tokens (Ok (SToken a))) -> (h <= b < heap_size st)%nat).
  { intros b [<-|[]]. exact Ha. }
  destruct f; cbn [map_ok] in H.
  - destruct (HE h st Hh Hf) as (Hok & _). eapply Hok; eauto.
  - destruct (error_string E P _ _); [|discriminate]. injection H as <- <-. apply stays_same; [exact Hf|intros ? []].
  - injection H as <- <-. apply stays_same; [exact Hf|intros ? []].
  - eapply error_token_at_stays; eauto.
  - injection H as <- <-. apply stays_same; [exact Hf|intros ? []].
  - injection H as <- <-. apply stays_modify; auto; [lia| |]; [apply add_missing_kids|apply add_missing_kind].
  - injection H as <- <-. apply stays_modify; auto; lia.
  - destruct (attributes_of st a) as [l|]; [|discriminate]. injection H as <- <-.
    apply stays_modify; auto; [lia| |]; [apply set_attrs_kids|apply set_attrs_kind].
  - injection H as <- <-. apply stays_modify; auto; lia.
  - destruct (attributes_of st a) as [l|]; [|discriminate].
    assert (Hm : stays_above h st (Ok (SToken a)) (modify st a (set_attrs l))).
    { apply stays_modify; auto; [lia| |]; [apply set_attrs_kids|apply set_attrs_kind]. }
    destruct (get_attr "version" (tok (modify st a (set_attrs l)) a)) as [v|].
    + destruct (parse_usize v).
      * injection H as <- <-. exact Hm.
      * destruct (version_attr l); [|discriminate].
        eapply stays_then; [exact Hm|]. eapply error_token_at_stays; [|apply Hm|exact H].
        eapply stays_size; eauto.
    + eapply stays_then; [exact Hm|]. eapply error_token_at_stays; [|apply Hm|exact H].
      eapply stays_size; eauto.
  - destruct (re (tk_mr (tok st a)) <? slen (p_src P)).
    + destruct (src_slice P _ _); [|discriminate]. unfold error_token in H. eapply error_token_at_stays; eauto.
    + injection H as <- <-. now apply stays_same.
  - destruct (find_child st (tok st a) "AdextopaScope").
    + injection H as <- <-. now apply stays_same.
    + destruct (find_child st (tok st a) "PatternScope").
      * injection H as <- <-. now apply stays_same.
      * eapply error_token_at_stays; eauto.
Qed.

Lemma map_err_stays E P f e c s h st r st' : tame E ->
  (h <= heap_size st)%nat -> forest h st ->
  map_err E P f e c s st = Ret r st' -> stays_above h st r st'.
Proof.
  intros HE Hh Hf H.
  assert (Hs : forall r, result_tokens r = [] -> stays_above h st r st).
  { intros r0 Hr. apply stays_same; [exact Hf|]. rewrite Hr. intros ? []. }
  destruct (HE h st Hh Hf) as (_ & Herr & _ & _).
  destruct f, e; cbn [map_err] in H;
    try (injection H as <- <-; now apply Hs);
    try (eapply Herr; now eauto).
  - destruct (error_string E P _ (c_off c)); [|discriminate]. injection H as <- <-. now apply Hs.
  - unfold error_token in H. eapply error_token_at_stays; eauto.
Qed.

(* ---------- Discard ---------- *)

Lemma error_tokens_within st (Q : addr -> Prop) :
  (forall a, Q a -> forall k, In k (tk_kids (tok st a)) -> Q k) ->
  forall f a l, Q a -> error_tokens f st a = Some l -> forall x, In x l -> Q x.
Proof.
  intros Hc. induction f as [|f IH]; intros a l Ha H; [discriminate|]. cbn [error_tokens] in H.
  assert (Hf : forall kids acc l, (forall x, In x acc -> Q x) -> (forall k, In k kids -> Q k) ->
    fold_left (fun acc k => match acc, error_tokens f st k with
                            | Some l, Some l' => Some (l ++ l') | _, _ => None end) kids (Some acc) = Some l ->
    forall x, In x l -> Q x).
  { induction kids as [|k kids IHk]; intros acc l0 Hacc Hkids Hl; cbn [fold_left] in Hl.
    - injection Hl as <-. exact Hacc.
    - destruct (error_tokens f st k) as [lk|] eqn:Ek.
      + apply (IHk (acc ++ lk) l0); [|intros; apply Hkids; now right|exact Hl].
        intros x Hx. apply in_app_or in Hx as [Hx|Hx]; [auto|].
        eapply IH; [|exact Ek|exact Hx]. apply Hkids. now left.
      + exfalso. clear - Hl. induction kids; cbn in Hl; [discriminate|auto]. }
  eapply Hf; [| |exact H].
  - intros x Hx. destruct (is_error (tok st a)); [destruct Hx as [<-|[]]; exact Ha|destruct Hx].
  - intros k Hk. now apply (Hc a).
Qed.

Lemma add_errors_kids P st l : forall t, tk_kids (add_errors P st l t) = tk_kids t ++ l.
Proof.
  unfold add_errors. induction l as [|e l IH]; intros t; cbn [fold_left]; [now rewrite app_nil_r|].
  rewrite IH. unfold widen. destruct (_ || _); cbn [tk_kids set_kids set_mr]; now rewrite <- app_assoc.
Qed.

Lemma add_errors_kind P st l : forall t, tk_kind (add_errors P st l t) = tk_kind t.
Proof.
  unfold add_errors. induction l as [|e l IH]; intros t; cbn [fold_left]; [reflexivity|].
  rewrite IH. unfold widen. destruct (_ || _); reflexivity.
Qed.

Lemma skip_token_stays E P start a h st x st' : (h <= heap_size st)%nat -> forest h st ->
  (h <= a < heap_size st)%nat -> skip_token E P start a st = Ret x st' -> stays_above h st (Ok x) st'.
Proof.
  intros Hh Hf Ha H. unfold skip_token in H.
  destruct (error_tokens _ st a) as [l|] eqn:El; [|discriminate].
  assert (Hl : forall k, In k l -> (h <= k < heap_size st)%nat).
  { eapply (error_tokens_within st (fun k => (h <= k < heap_size st)%nat)); [now apply forest_closed| |exact El]; auto. }
  destruct l as [|e l].
  - destruct (isize_sub _ _ _); cbn [or_die] in H; [|discriminate]. injection H as <- <-.
    apply stays_alloc; [assumption|assumption| |].
    + intros k [].
    + intros b [].
  - injection H as <- <-. apply stays_alloc; [assumption|assumption| |].
    + fold (add_errors P st l). rewrite add_errors_kids, add_errors_kind. unfold widen.
      destruct (_ || _); intros k Hk; (split; [now apply Hl|reflexivity]).
    + intros b [<-|[]]. now left.
Qed.
Lemma discard_payload_stays E P start p h st x st' : (h <= heap_size st)%nat -> forest h st ->
  (forall a, In a (success_tokens p) -> (h <= a < heap_size st)%nat) ->
  discard_payload E P start p st = Ret x st' -> stays_above h st (Ok x) st'.
Proof.
  intros Hh Hf Hp H. destruct p; cbn [discard_payload] in H; try discriminate;
    try (injection H as <- <-; apply stays_same; [exact Hf|intros ? []]);
    (eapply skip_token_stays; [exact Hh|exact Hf| |exact H]; apply Hp; now left).
Qed.
Lemma discard_stays E P start r h st r' st' : (h <= heap_size st)%nat -> forest h st ->
  (forall a, In a (result_tokens r) -> (h <= a < heap_size st)%nat) ->
  discard_result E P start r st = Ret r' st' -> stays_above h st r' st'.
Proof.
  intros Hh Hf Hr H. destruct r as [x|e].
  - destruct x; cbn [discard_result] in H;
      try (injection H as <- <-; apply stays_same; [exact Hf|exact Hr]).
    + destruct (skip_token E P start a st) as [y st1|p|] eqn:Ey; try discriminate. injection H as <- <-.
      eapply skip_token_stays; [exact Hh|exact Hf| |exact Ey]. apply Hr. now left.
    + destruct (skip_token E P start a st) as [y st1|p|] eqn:Ey; try discriminate. injection H as <- <-.
      eapply skip_token_stays; [exact Hh|exact Hf| |exact Ey]. apply Hr. now left.
    + destruct (discard_payload E P start x st) as [y st1|p|] eqn:Ey; try discriminate. injection H as <- <-.
      eapply stays_result; [exact (discard_payload_stays E P start x h st y st1 Hh Hf Hr Ey)|]. auto.
    + destruct (discard_payload E P start x st) as [y st1|p|] eqn:Ey; try discriminate. injection H as <- <-.
      eapply stays_result; [exact (discard_payload_stays E P start x h st y st1 Hh Hf Hr Ey)|]. auto.
  - injection H as <- <-. apply stays_same; auto.
Qed.

(* ---------- programs ---------- *)

Section ProgramFrame.
  Variables (E : env) (P : parser) (rec : recT) (h : nat) (pt : addr) (st_s : state).
  (* the program was started in [st_s]; its token is the next one *)
  Hypothesis Hrec : sound (S pt) rec.
  Hypothesis Hpt : heap_size st_s = pt.
  Hypothesis Hh : (h <= pt)%nat.
  Hypothesis Hs : forest h st_s.

  (* while the program runs *)
  Definition stage (st : state) (ps : pst) : Prop :=
    (S pt <= heap_size st)%nat /\ forest (S pt) st /\
    (forall a, (a < pt)%nat -> tok st a = tok st_s a) /\
    (tk_kids (tok st pt) = [] /\ tk_kind (tok st pt) = KStandard) /\
    (forall k, In k (ps_kids ps) -> (S pt <= k < heap_size st)%nat).

  Lemma stage_below st st' ps : stage st ps -> preserved (S pt) st st' -> forest (S pt) st' -> stage st' ps.
  Proof.
    intros (H1 & H2 & H3 & H4 & H5) [Hl Hp] Hf. split; [lia|]. split; [exact Hf|].
    split; [intros a Ha; rewrite Hp by lia; auto|]. split; [now rewrite Hp by lia|].
    intros k Hk. specialize (H5 k Hk). lia.
  Qed.

  Lemma stage_preserved st ps : stage st ps -> preserved h st_s st.
  Proof. intros (H1 & H2 & H3 & H4 & H5). split; [lia|]. intros a Ha. apply H3. lia. Qed.

  (* old tokens have their old trees *)
  Lemma old_tree st : (forall a, (a < pt)%nat -> tok st a = tok st_s a) ->
    forall a, (h <= a < pt)%nat ->
      (forall k, In k (tk_kids (tok st a)) -> (h <= k < pt)%nat /\ tk_kind (tok st a) = KStandard) /\
      exists l, preorder st [a] l.
  Proof.
    intros Ht a Ha. rewrite Ht by lia. rewrite <- Hpt in Ha. destruct (Hs a Ha) as [Hk [l Hl]].
    split; [rewrite Hpt in Hk; exact Hk|]. exists l. eapply preorder_ext; [exact Hl|].
    intros b Hb. rewrite Ht; [reflexivity|].
    enough (h <= b < heap_size st_s)%nat by lia.
    eapply (preorder_within st_s (fun b => (h <= b < heap_size st_s)%nat));
      [exact Hl|now apply forest_closed| |exact Hb].
    intros x [<-|[]]. exact Ha.
  Qed.

  Lemma stage_forest st ps : stage st ps -> forest h st.
  Proof.
    intros (H1 & H2 & H3 & H4 & H5) a Ha.
    destruct (Nat.lt_trichotomy a pt) as [Hlt|[->|Hgt]].
    - destruct (old_tree st H3 a) as [Hk Ht]; [lia|]. split; [|exact Ht].
      intros k Hin. destruct (Hk k Hin). split; [lia|assumption].
    - destruct H4 as [H4 _]. rewrite H4. split; [intros k []|]. exists [pt]. apply preorder_one. rewrite H4. constructor.
    - destruct (H2 a) as [Hk Ht]; [lia|]. split; [|exact Ht]. intros k Hin. destruct (Hk k Hin). split; [lia|assumption].
  Qed.

  Lemma stage_size st ps : stage st ps -> (h <= heap_size st)%nat.
  Proof. intros (H1 & _). lia. Qed.

  Lemma stage_set st ps a t : stage st ps -> (S pt <= a)%nat ->
    tk_kids t = tk_kids (tok st a) -> tk_kind t = tk_kind (tok st a) ->
    stage (set_tok st a t) ps.
  Proof.
    intros Hst Ha Hk Hd. eapply stage_below; [exact Hst|now apply preserved_set|].
    apply forest_set; [exact Hk|exact Hd|]. apply Hst.
  Qed.
  Lemma stage_kids st ps ps' : stage st ps ->
    (forall k, In k (ps_kids ps') -> (S pt <= k < heap_size st)%nat) -> stage st ps'.
  Proof. intros (H1 & H2 & H3 & H4 & H5) H. unfold stage. auto. Qed.

  Lemma add_token_stage a fwd u ps st ps' st' : stage st ps -> (S pt <= a < heap_size st)%nat ->
    add_token P pt a fwd u ps st = Ret ps' st' -> stage st' ps' /\ heap_size st' = heap_size st.
  Proof.
    intros Hst Ha H. unfold add_token in H. destruct (_ && _ && _ && _); [discriminate|].
    injection H as <- <-. split; [|apply heap_size_set].
    eapply stage_kids.
    - apply (stage_set st ps); [exact Hst|lia| |]; cbn [tk_kids tk_kind set_parent]; destruct (_ && _); reflexivity.
    - cbn [ps_kids]. rewrite heap_size_set. intros k Hk. apply in_app_or in Hk as [Hk|[<-|[]]]; [|exact Ha].
      now apply Hst.
  Qed.

  Lemma extract_stage self u l : forall ps st ps' st', stage st ps ->
    (forall a, In a l -> (S pt <= a < heap_size st)%nat) ->
    extract_children P pt self u l ps st = Ret ps' st' -> stage st' ps'.
  Proof.
    induction l as [|k l IH]; intros ps st ps' st' Hst Hl H; cbn [extract_children] in H.
    - injection H as <- <-. exact Hst.
    - destruct (should_discard (tok st k)).
      + eapply IH; [exact Hst| |exact H]. intros; apply Hl; now right.
      + destruct (Nat.eqb k self); [discriminate|].
        destruct (add_token P pt k false u ps st) as [ps1 st1|p|] eqn:Ea; try discriminate.
        destruct (add_token_stage _ _ _ _ _ _ _ Hst (Hl k (or_introl eq_refl)) Ea) as [Hst1 Hsz].
        eapply IH; [exact Hst1| |exact H]. intros a Ha. rewrite Hsz. apply Hl. now right.
  Qed.

  Lemma handle_extract_stage a u ps st ps' st' : stage st ps -> (S pt <= a < heap_size st)%nat ->
    handle_extract P pt a u ps st = Ret ps' st' -> stage st' ps'.
  Proof.
    intros Hst Ha H. unfold handle_extract in H. eapply extract_stage; [| |exact H].
    - eapply stage_kids; [exact Hst|]. destruct (_ && _); apply Hst.
    - intros k Hk. eapply (forest_closed (S pt) st); [apply Hst|exact Ha|exact Hk].
  Qed.

  Lemma handle_skip_stage start z ps st ps' st' : stage st ps ->
    handle_skip E start z ps st = Ret ps' st' -> stage st' ps'.
  Proof.
    intros Hst H. unfold handle_skip in H. destruct (or_die _ _); [|discriminate].
    injection H as <- <-. eapply stage_kids; [exact Hst|apply Hst].
  Qed.

  Lemma handle_payload_stage start p ps st ps' st' : stage st ps ->
    (forall a, In a (success_tokens p) -> (S pt <= a < heap_size st)%nat) ->
    handle_payload E P pt start p ps st = Ret ps' st' -> stage st' ps'.
  Proof.
    intros Hst Hp H. destruct p; cbn [handle_payload] in H; try (injection H as <- <-; exact Hst).
    - unfold handle_token in H. eapply add_token_stage; [exact Hst| |exact H]. apply Hp. now left.
    - eapply handle_extract_stage; [exact Hst| |exact H]. apply Hp. now left.
    - eapply handle_skip_stage; eauto.
  Qed.

  (* the finished program *)
  Lemma fill_stays st ps t : stage st ps -> tk_kids t = ps_kids ps -> tk_kind t = KStandard ->
    stays_above h st_s (Ok (SToken pt)) (set_tok st pt t).
  Proof.
    intros Hst Hk Hd. pose proof Hst as (H1 & H2 & H3 & H4 & H5).
    assert (Hold : forall a, (a < pt)%nat -> tok (set_tok st pt t) a = tok st_s a).
    { intros a Ha. rewrite tok_set_other by lia. auto. }
    assert (Hnew : forall a, (S pt <= a < heap_size st)%nat -> exists l, preorder (set_tok st pt t) [a] l).
    { intros a Ha. destruct (H2 a Ha) as [_ [l Hl]]. exists l. eapply preorder_ext; [exact Hl|].
      intros b Hb. rewrite tok_set_other; [reflexivity|].
      enough (S pt <= b < heap_size st)%nat by lia.
      eapply (preorder_within st (fun b => (S pt <= b < heap_size st)%nat));
        [exact Hl|now apply forest_closed| |exact Hb].
      intros x [<-|[]]. exact Ha. }
    split; [|split].
    - split; [rewrite heap_size_set; lia|]. intros a Ha. apply Hold. lia.
    - intros a Ha. rewrite heap_size_set in *.
      destruct (Nat.lt_trichotomy a pt) as [Hlt|[->|Hgt]].
      + destruct (old_tree _ Hold a) as [Hkk Ht]; [lia|]. split; [|exact Ht].
        intros k Hin. destruct (Hkk k Hin). split; [lia|assumption].
      + rewrite tok_set_same by (unfold heap_size in *; lia). rewrite Hk. split.
        * intros k Hin. specialize (H5 k Hin). split; [lia|exact Hd].
        * destruct (preorder_all (set_tok st pt t) (ps_kids ps)) as [l Hl].
          { intros k Hin. apply Hnew. auto. }
          exists (pt :: l). apply preorder_one. rewrite tok_set_same by (unfold heap_size in *; lia). now rewrite Hk.
      + rewrite tok_set_other by lia. split; [|apply Hnew; lia].
        intros k Hin. apply (H2 a) in Hin as [Hin Hd']; [split; [lia|exact Hd']|lia].
    - intros a [<-|[]]. rewrite heap_size_set. lia.
  Qed.

  Lemma finalize_stays i ps count strict st r st' : stage st ps ->
    finalize P i pt ps count strict st = Ret r st' -> stays_above h st_s r st'.
  Proof.
    intros Hst H.
    assert (Hq : forall r, result_tokens r = [] -> stays_above h st_s r st).
    { intros r0 Hr. split; [eapply stage_preserved; eauto|]. split; [eapply stage_forest; eauto|].
      rewrite Hr. intros ? []. }
    assert (Hc : (if (rs (ps_cr ps) =? usize_max) || (rs (ps_mr ps) =? usize_max) then Ret (Err FFail) st
      else match ps_kids ps with
           | [] => Ret (Err FFail) st
           | _ => Ret (Ok (SToken pt))
                    (modify st pt (fun t => set_mr P (ps_mr ps) (set_cr P (ps_cr ps) (set_kids (ps_kids ps) t))))
           end) = Ret r st' -> stays_above h st_s r st').
    { clear H. intros H. destruct (_ || _); [injection H as <- <-; now apply Hq|].
      destruct (ps_kids ps) as [|k ks] eqn:Ek; injection H as <- <-; [now apply Hq|].
      unfold modify. apply (fill_stays st ps); [exact Hst| |]; cbn [tk_kids tk_kind set_mr set_cr set_kids].
      - now rewrite Ek.
      - apply Hst. }
    unfold finalize in H. destruct strict; [|now apply Hc].
    destruct (pi_iter i) as [[lo hi]|]; [|now apply Hc].
    destruct (_ && _ && _); [injection H as <- <-; now apply Hq|].
    destruct (count <? lo); [injection H as <- <-; now apply Hq|]. now apply Hc.
  Qed.

  (* the end of a pass *)
  Definition pass_fine (k : ctl) (ps : pst) (st : state) : Prop :=
    match k with
    | CDone => stage st ps
    | CAct x => stage st ps /\ forall a, In a (success_tokens x) -> (S pt <= a < heap_size st)%nat
    | CRet r => stays_above h st_s r st
    end.

  Lemma run_patterns_fine i c s start count pats : forall ps st k ps' st', stage st ps ->
    run_patterns E P rec i c s pt start count pats ps st = Ret (k, ps') st' -> pass_fine k ps' st'.
  Proof.
    induction pats as [|m pats IH]; intros ps st k ps' st' Hst H; cbn [run_patterns] in H.
    - injection H as <- <- <-. exact Hst.
    - destruct (rec m _ s st) as [r st1|p|] eqn:Er; try discriminate.
      apply Hrec in Er as (Hp & Hf & Hr); [|exact (proj1 Hst)|exact (proj1 (proj2 Hst))].
      assert (Hst1 : stage st1 ps) by (eapply stage_below; eauto).
      assert (Hret : forall r0, (forall a, In a (result_tokens r0) -> In a (result_tokens r)) ->
        stays_above h st_s r0 st1).
      { intros r0 H0. split; [eapply stage_preserved; eauto|]. split; [eapply stage_forest; eauto|].
        intros a Ha. apply H0, Hr in Ha. lia. }
      destruct r as [[a|a|z|nm p|nm p| |]|e].
      + destruct (should_discard (tok st1 a)); [eapply IH; [|exact H]; assumption|].
        destruct (pi_stop i); [injection H as <- <- <-; apply Hret; auto|].
        unfold handle_token in H.
        destruct (add_token P pt a _ _ ps st1) as [ps2 st2|p|] eqn:Ea; try discriminate.
        apply add_token_stage in Ea as [Hst2 _]; [eapply IH; [|exact H]; assumption|exact Hst1|apply Hr; now left].
      + destruct (should_discard (tok st1 a)); [eapply IH; [|exact H]; assumption|].
        destruct (pi_stop i); [injection H as <- <- <-; apply Hret; auto|].
        destruct (handle_extract P pt a _ ps st1) as [ps2 st2|p|] eqn:Ea; try discriminate.
        apply handle_extract_stage in Ea; [eapply IH; [|exact H]; assumption|exact Hst1|apply Hr; now left].
      + destruct (_ && _); [injection H as <- <- <-; apply Hret; auto|].
        destruct (m_consuming m); [|eapply IH; [|exact H]; assumption].
        destruct (handle_skip E start z ps st1) as [ps2 st2|p|] eqn:Ea; try discriminate.
        apply handle_skip_stage in Ea; [eapply IH; [|exact H]; assumption|exact Hst1].
      + injection H as <- <- <-. split; [exact Hst1|exact Hr].
      + injection H as <- <- <-. split; [exact Hst1|exact Hr].
      + injection H as <- <- <-. split; [exact Hst1|exact Hr].
      + injection H as <- <- <-. split; [exact Hst1|exact Hr].
      + destruct (dbg E P _ 10); [|discriminate]. destruct e.
        * destruct (pi_stop i); [eapply IH; [|exact H]; assumption|]. destruct (pi_iter i).
          -- destruct (finalize P i pt ps count false st1) as [x st2|p0|] eqn:Ef; try discriminate.
             injection H as <- <- <-. eapply finalize_stays; eauto.
          -- injection H as <- <- <-. apply Hret. intros ? [].
        * injection H as <- <- <-. apply Hret. intros ? [].
  Qed.

  Lemma iterate_stays pats i c s start : forall f left count ps st r st', stage st ps ->
    iterate f E P rec pats i c s pt start left count ps st = Ret r st' -> stays_above h st_s r st'.
  Proof.
    induction f as [|f IH]; intros left count ps st r st' Hst H; cbn [iterate] in H.
    - destruct (left =? 0); [|discriminate]. eapply finalize_stays; eauto.
    - destruct (left =? 0); [eapply finalize_stays; eauto|].
      destruct (run_patterns _ _ _ _ _ _ _ _ _ _ _ _) as [[k ps1] st1|p|] eqn:Er; try discriminate.
      apply run_patterns_fine in Er; [|exact Hst]. destruct k as [|x|r0]; cbn [pass_fine] in Er.
      + eapply IH; [|exact H]; assumption.
      + destruct Er as [Hst1 Hx]. destruct x as [a|a|z|nm p|nm p| |]; try discriminate.
        * destruct (pi_stop i).
          { injection H as <- <-. split; [eapply stage_preserved; eauto|]. split; [eapply stage_forest; eauto|].
            intros a Ha. apply Hx in Ha. lia. }
          destruct (handle_payload E P pt start p ps1 st1) as [ps2 st2|q|] eqn:Eh; try discriminate.
          apply handle_payload_stage in Eh; [|exact Hst1|exact Hx].
          destruct (finalize P i pt ps2 count false st2) as [y st3|q|] eqn:Ef; try discriminate.
          apply finalize_stays in Ef; [|exact Eh].
          destruct (is_target i nm); [injection H as <- <-; exact Ef|].
          destruct y; injection H as <- <-; eapply stays_result; eauto.
        * destruct (pi_stop i).
          { injection H as <- <-. split; [eapply stage_preserved; eauto|]. split; [eapply stage_forest; eauto|].
            intros a Ha. apply Hx in Ha. lia. }
          destruct (handle_payload E P pt start p ps1 st1) as [ps2 st2|q|] eqn:Eh; try discriminate.
          apply handle_payload_stage in Eh; [|exact Hst1|exact Hx].
          destruct (is_target i nm); [eapply IH; [|exact H]; assumption|]. eapply finalize_stays; eauto.
        * eapply finalize_stays; eauto.
      + injection H as <- <-. exact Er.
  Qed.
End ProgramFrame.

(* ---------- all matchers ---------- *)

Lemma step_sound E P rec fuel : tame E -> (forall h, sound h rec) -> forall h, sound h (step fuel E P rec).
Proof.
  intros HE Hrec h m c s st0 r st' Hh0 Hf0 H.
  unfold step in H.
  assert (Hp0 : preserved h st0 (before_exec m s st0)) by (apply preserved_heap, before_heap).
  assert (Hh : (h <= heap_size (before_exec m s st0))%nat) by (now rewrite before_size).
  assert (Hf : forest h (before_exec m s st0)) by (eapply forest_heap; [apply before_heap|exact Hf0]).
  apply (stays_from h st0 (before_exec m s st0)); [exact Hp0|].
  set (st := before_exec m s st0) in *. clearbody st. clear Hp0 Hh0 Hf0 st0.
  assert (Hin : forall m1 c1 s1 r0 st1, rec m1 c1 s1 st = Ret r0 st1 ->
     stays_above h st r0 st1 /\ (h <= heap_size st1)%nat /\ forest h st1 /\
     (forall a, In a (result_tokens r0) -> (h <= a < heap_size st1)%nat)).
  { intros m1 c1 s1 r0 st1 E1. apply (Hrec h) in E1; auto. split; [exact E1|].
    split; [eapply stays_size; eauto|]. split; apply E1. }
  assert (Hq : forall r, result_tokens r = [] -> stays_above h st r st).
  { intros r0 Hr. apply stays_same; [exact Hf|]. rewrite Hr. intros ? []. }
  destruct m as [pats i|p name cust|f name cust|fs fe fx name cust|m1|m1|m1| |msg|msg|nm|m1 k|m1 f
                |om off name cust|p name cust|name|ms|t name cust|o m1|m1 name cust|m1|om d|k name cust cons];
    cbn [m_name m_custom] in H.
  - (* MProgram *)
    unfold exec_program in H.
    set (pt := next_addr st) in *. set (t0 := std_token P (pi_name i) blank_range) in *.
    assert (Hpt : heap_size st = pt) by reflexivity.
    eapply (iterate_stays E P rec h pt st (Hrec (S pt)) Hpt); [lia|exact Hf| |exact H].
    split; [rewrite heap_size_alloc; lia|]. split.
    + intros a Ha. rewrite heap_size_alloc in Ha. lia.
    + split; [intros a Ha; apply tok_alloc_old; unfold heap_size in *; lia|].
      split; [unfold pt; now rewrite tok_alloc_new|intros ? []].
  - (* MEquals *)
    destruct (fetch_value st s p) as [[v|m1]|]; [| |discriminate].
    + destruct (matches_str P _ v) as [r0|]; [|discriminate].
      destruct (dbg E P _ 10); [|discriminate].
      destruct r0; injection H as <- <-; [|now apply Hq].
      apply stays_alloc; [assumption|assumption| |]; [intros ? []|intros ? [<-|[]]; now left].
    + injection H as <- <-. now apply Hq.
  - (* MMatches *)
    destruct (matches_regexp P _ f) as [r0|]; [|discriminate]. destruct r0 as [r0|].
    + destruct (rs r0 =? re r0).
      * destruct (dbg E P _ 10); [|discriminate]. injection H as <- <-. now apply Hq.
      * injection H as <- <-. apply stays_alloc; [assumption|assumption| |]; [intros ? []|intros ? [<-|[]]; now left].
    + destruct (dbg E P _ 10); [|discriminate]. injection H as <- <-. now apply Hq.
  - (* MSequence *)
    unfold exec_sequence in H.
    repeat match type of H with
    | (let! _ := ?x in _) = _ => destruct x; [|discriminate]
    | (match ?x with _ => _ end) = _ => destruct x
    end; try discriminate;
      try (injection H as <- <-; now apply Hq);
      try (injection H as <- <-; apply stays_alloc; [assumption|assumption| |]; [intros ? []|intros ? [<-|[]]; now left]).
  - (* MNot *)
    destruct (rec m1 _ s st) as [r0 st1|p|] eqn:E1; try discriminate. apply Hin in E1 as (H1 & H2 & H3 & H4).
    destruct r0 as [[a|a|z|b q|b q| |]|[|e]]; try (injection H as <- <-; eapply stays_result; [exact H1|]; auto; intros ? []).
    destruct (z =? 0)%Z; injection H as <- <-; eapply stays_result; eauto.
  - (* MOptional *)
    destruct (rec m1 _ s st) as [r0 st1|p|] eqn:E1; try discriminate. apply Hin in E1 as (H1 & H2 & H3 & H4).
    destruct r0 as [x|[|e]]; injection H as <- <-; eapply stays_result; eauto.
  - (* MDiscard *)
    destruct (rec m1 _ s st) as [r0 st1|p|] eqn:E1; try discriminate. apply Hin in E1 as (H1 & H2 & H3 & H4).
    eapply stays_then; [exact H1|]. eapply discard_stays; eauto.
  - injection H as <- <-. now apply Hq.
  - (* MPanic *)
    destruct (error_string E P msg _); [|discriminate]. injection H as <- <-. now apply Hq.
  - unfold error_token in H. eapply error_token_at_stays; eauto.
  - injection H as <- <-. now apply Hq.
  - (* MCatch *)
    destruct (rec m1 _ s st) as [r0 st1|p|] eqn:E1; try discriminate. apply Hin in E1 as (H1 & H2 & H3 & H4).
    destruct r0 as [x|e]; [injection H as <- <-; exact H1|].
    eapply stays_then; [exact H1|]. destruct (HE h st1 H2 H3) as (_ & _ & Hc & _). eapply Hc; eauto.
  - (* MMap *)
    destruct (rec m1 _ s st) as [r0 st1|p|] eqn:E1; try discriminate. apply Hin in E1 as (H1 & H2 & H3 & H4).
    destruct r0 as [[a|a|z|b q|b q| |]|e]; try (injection H as <- <-; exact H1).
    + eapply stays_then; [exact H1|]. eapply map_ok_stays; eauto. apply H4. now left.
    + eapply stays_then; [exact H1|]. eapply map_ok_stays; eauto. apply H4. now left.
    + eapply stays_then; [exact H1|]. eapply map_err_stays; eauto.
  - (* MPin *)
    destruct (fetch_value st s off) as [[v|m2]|]; [| |discriminate].
    + destruct (pin_context E _ v); [|discriminate]. destruct om as [m1|].
      * now apply Hin in H as (H1 & _).
      * injection H as <- <-. apply stays_alloc; [assumption|assumption| |]; [intros ? []|intros ? [<-|[]]; now left].
    + injection H as <- <-. now apply Hq.
  - (* MStore *)
    destruct p as [m1|v].
    + destruct (rec m1 _ s st) as [r0 st1|p|] eqn:E1; try discriminate. apply Hin in E1 as (H1 & H2 & H3 & H4).
      destruct r0 as [[a|a|z|b q|b q| |]|e]; injection H as <- <-; try exact H1.
      eapply stays_then; [exact H1|]. apply stays_heap; auto.
    + injection H as <- <-. apply stays_heap; auto. intros ? [].
  - injection H as <- <-. now apply Hq.
  - (* MRegister *)
    injection H as <- <-. apply stays_heap; [|exact Hf|intros ? []].
    clear. revert st. induction ms as [|m ms IH]; intros st; cbn [fold_left]; [reflexivity|]. now rewrite IH.
  - (* MRef *)
    destruct (fetch_value st s t) as [[v|m1]|]; [| |discriminate].
    + destruct (sc_get st s v) as [[ | | ]|]; try (injection H as <- <-; now apply Hq).
      now apply Hin in H as (H1 & _).
    + now apply Hin in H as (H1 & _).
  - (* MSetScope *)
    destruct o as [s1|].
    + now apply Hin in H as (H1 & _).
    + destruct (rec m1 _ (c_scope c) (sc_push st (c_scope c))) as [r0 st1|p|] eqn:E1; try discriminate.
      injection H as <- <-. apply (Hrec h) in E1; [|exact Hh|eapply forest_heap; [|exact Hf]; reflexivity].
      destruct E1 as (H1 & H2 & H3). split; [|split].
      * eapply preserved_trans; [eapply (preserved_heap h st (sc_push st (c_scope c))); reflexivity|].
        eapply preserved_trans; [exact H1|]. now apply preserved_heap.
      * eapply forest_heap; [|exact H2]. reflexivity.
      * exact H3.
  - (* MProxy *)
    destruct (rec m1 _ s st) as [r0 st1|p|] eqn:E1; try discriminate. apply Hin in E1 as (H1 & H2 & H3 & H4).
    destruct r0 as [[a|a|z|b q|b q| |]|e]; try (injection H as <- <-; eapply stays_result; [exact H1|auto]);
      destruct q; injection H as <- <-; eapply stays_result; eauto.
  - (* MExpand *)
    destruct (rec m1 _ s st) as [r0 st1|p|] eqn:E1; try discriminate. apply Hin in E1 as (H1 & H2 & H3 & H4).
    destruct r0 as [[a|a|z|b q|b q| |]|e]; try (injection H as <- <-; exact H1).
    + injection H as <- <-. eapply stays_then; [exact H1|]. apply stays_alloc; [assumption|assumption| |].
      * intros k [<-|[]]. split; [apply H4; now left|reflexivity].
      * intros b [<-|[]]. now left.
    + injection H as <- <-. eapply stays_then; [exact H1|]. apply stays_modify; auto.
      apply H4. now left.
  - (* MDebug *)
    destruct om as [m1|].
    + destruct (debug_range E P _ 10); [|discriminate]. now apply Hin in H as (H1 & _).
    + destruct (debug_range E P _ 10); [|discriminate]. injection H as <- <-. now apply Hq.
  - (* MUser *)
    destruct (HE h st Hh Hf) as (_ & _ & _ & Hu). eapply Hu; eauto.
Qed.

Lemma exec_sound E P : tame E -> forall n h, sound h (exec n E P).
Proof.
  intros HE. induction n as [|n IH]; intros h; [intros m c s st r st' _ _ H; discriminate|].
  cbn [exec]. now apply step_sound.
Qed.

Lemma runs_stays E P m c s st r st' h : tame E -> (h <= heap_size st)%nat -> forest h st ->
  Runs E P m c s st r st' -> stays_above h st r st'.
Proof. intros HE Hh Hf [n H]. eapply exec_sound; eauto. Qed.

Lemma forest_top st : forest (heap_size st) st.
Proof. intros a Ha. lia. Qed.

Lemma runs_frame E P m c s st r st' : tame E ->
  Runs E P m c s st r st' -> stays_above (heap_size st) st r st'.
Proof. intros HE. apply runs_stays; [exact HE|lia|apply forest_top]. Qed.
