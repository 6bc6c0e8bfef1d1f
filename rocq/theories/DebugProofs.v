(* Debug output does not change executions (C38). *)
From Verif Require Import Exec Tokenize Spec SpecMore Facts Mono TextProofs FrameProofs TreeProofs BoundsProofs MoveProofs.
From Coq Require Import Lia.
Open Scope string_scope.
Open Scope list_scope.
Open Scope N_scope.

(* ---------- layers of Debug ---------- *)

Fixpoint layers (m : matcher) : nat :=
  match m with MDebug (Some m) _ => S (layers m) | _ => O end.
Inductive shallow (D : nat) : matcher -> Prop :=
| sh_all m : (layers m <= D)%nat -> (forall x, In x (parts m) -> shallow D x) -> shallow D m.

Lemma shallow_more D D' m : (D <= D')%nat -> shallow D m -> shallow D' m.
Proof. intros HD H. induction H as [m H1 H2 IH]. constructor; [lia|exact IH]. Qed.
Lemma shallow_list l : (forall x, In x l -> exists D, shallow D x) -> exists D, forall x, In x l -> shallow D x.
Proof.
  induction l as [|y l IH]; intros H; [exists O; intros x []|].
  destruct IH as [D HD]; [intros x Hx; apply H; now right|]. destruct (H y (or_introl eq_refl)) as [D' HD'].
  exists (Nat.max D D'). intros x [<-|Hx]; eapply shallow_more; try (apply HD'); try (apply HD; exact Hx); lia.
Qed.
Lemma placed_shallow m : debug_placed m -> exists D, shallow D m.
Proof.
  induction 1 as [m _ _ _ IH]. destruct (shallow_list _ IH) as [D HD]. exists (Nat.max D (layers m)).
  constructor; [lia|]. intros x Hx. eapply shallow_more; [|apply HD; exact Hx]. lia.
Qed.

Lemma lists_bound {A} (Q : nat -> A -> Prop) : (forall D D' x, (D <= D')%nat -> Q D x -> Q D' x) ->
  forall l, (forall x, In x l -> exists D, Q D x) -> exists D, forall x, In x l -> Q D x.
Proof.
  intros Hm. induction l as [|y l IH]; intros H; [exists O; intros x []|].
  destruct IH as [D HD]; [intros x Hx; apply H; now right|]. destruct (H y (or_introl eq_refl)) as [D' HD'].
  exists (Nat.max D D'). intros x [<-|Hx]; eapply Hm; try (apply HD'); try (apply HD; exact Hx); lia.
Qed.
Lemma scopes_shallow st : scopes_debug_placed st -> exists D, scopes_all (shallow D) st.
Proof.
  intros H.
  destruct (lists_bound (fun D stack => forall sc n m, In sc stack -> In (n, VMatcher m) sc -> shallow D m)
    ltac:(intros D D' x HD Hx sc n m H1 H2; eapply shallow_more; eauto) (st_scopes st)) as [D HD].
  - intros stack H1.
    destruct (lists_bound (fun D sc => forall n m, In (n, VMatcher m) sc -> shallow D m)
      ltac:(intros D D' x HD Hx n m H2; eapply shallow_more; eauto) stack) as [D HD].
    + intros sc H2.
      destruct (lists_bound (fun D (p : str * variable) => forall m, snd p = VMatcher m -> shallow D m)
        ltac:(intros D D' x HD Hx m H3; eapply shallow_more; eauto) sc) as [D HD].
      * intros [n v] H3. cbn [snd]. destruct v as [a|v|m]; try (exists O; discriminate).
        destruct (placed_shallow m) as [D HD]; [eapply H; eauto|]. exists D. intros m' Hm. now injection Hm as <-.
      * exists D. intros n m H3. now apply (HD _ H3).
    + exists D. intros sc n m H2 H3. now apply (HD sc H2 n).
  - exists D. intros stack sc n m H1 H2 H3. now apply (HD stack H1 sc n m).
Qed.

(* ---------- the store ---------- *)

Lemma pl_stack_of st s : stack_of (plain_state st) s = map plain_scope (stack_of st s).
Proof.
  unfold stack_of, plain_state. cbn [st_scopes]. change ([] : list scope) with (map plain_scope []) at 1. apply map_nth.
Qed.
Lemma pl_map_upd {A B} (f : A -> B) n x l : map f (upd n x l) = upd n (f x) (map f l).
Proof. revert n. induction l as [|y l IH]; intros [|n]; cbn; auto. now rewrite IH. Qed.
Lemma pl_set_stack st s l : set_stack (plain_state st) s (map plain_scope l) = plain_state (set_stack st s l).
Proof. unfold set_stack, plain_state. cbn [st_heap st_scopes]. now rewrite pl_map_upd. Qed.
Lemma pl_assoc_get n sc : assoc_get n (plain_scope sc) = option_map plain_variable (assoc_get n sc).
Proof. induction sc as [|[k v] sc IH]; cbn; [reflexivity|]. destruct (str_eqb n k); [reflexivity|exact IH]. Qed.
Lemma pl_sc_get st s n : sc_get (plain_state st) s n = option_map plain_variable (sc_get st s n).
Proof.
  unfold sc_get. rewrite pl_stack_of. induction (stack_of st s) as [|sc l IH]; cbn [map stack_get]; [reflexivity|].
  rewrite pl_assoc_get. destruct (assoc_get n sc); [reflexivity|exact IH].
Qed.
Lemma pl_assoc_set n v sc : assoc_set n (plain_variable v) (plain_scope sc) = plain_scope (assoc_set n v sc).
Proof.
  unfold assoc_set. cbn [plain_scope map fst snd]. f_equal. induction sc as [|[k x] sc IH]; [reflexivity|].
  cbn [plain_scope map filter fst snd]. destruct (negb (str_eqb n k)); cbn [map fst snd]; now rewrite <- IH.
Qed.
Lemma pl_sc_set st s n v : sc_set (plain_state st) s n (plain_variable v) = plain_state (sc_set st s n v).
Proof.
  unfold sc_set. rewrite pl_stack_of, <- pl_set_stack. f_equal.
  destruct (stack_of st s) as [|sc l]; cbn [stack_set map]; [reflexivity|]. now rewrite pl_assoc_set.
Qed.
Lemma pl_sc_push st s : sc_push (plain_state st) s = plain_state (sc_push st s).
Proof. unfold sc_push. now rewrite pl_stack_of, <- pl_set_stack. Qed.
Lemma pl_sc_pop st s : sc_pop (plain_state st) s = plain_state (sc_pop st s).
Proof. unfold sc_pop. rewrite pl_stack_of, <- pl_set_stack. now destruct (stack_of st s). Qed.
Lemma pl_tok st a : tok (plain_state st) a = tok st a.
Proof. reflexivity. Qed.
Lemma pl_error_tokens st : forall g a, error_tokens g (plain_state st) a = error_tokens g st a.
Proof.
  induction g as [|g IH]; intros a; [reflexivity|]. cbn [error_tokens]. rewrite pl_tok.
  generalize (Some (if is_error (tok st a) then [a] else [])). induction (tk_kids (tok st a)) as [|k l IHl]; intros o; [reflexivity|].
  cbn [fold_left]. now rewrite IH, IHl.
Qed.
Lemma pl_attr_pairs st l : attr_pairs (plain_state st) l = attr_pairs st l.
Proof.
  induction l as [|a l IH]; cbn [attr_pairs]; [reflexivity|]. rewrite pl_tok, IH. reflexivity.
Qed.

(* ---------- matchers ---------- *)

Definition wraps (m : matcher) : bool := match m with MDebug (Some _) _ => true | _ => false end.
Lemma pl_name m : wraps m = false -> m_name (plain m) = m_name m.
Proof. destruct m as [| | | | | | | | | | | | | | | | | | | | |[?|] ?|]; try reflexivity. discriminate. Qed.
Lemma pl_custom m : wraps m = false -> m_custom (plain m) = m_custom m.
Proof. destruct m as [| | | | | | | | | | | | | | | | | | | | |[?|] ?|]; try reflexivity. discriminate. Qed.
Lemma pl_consuming m : debug_placed m -> m_consuming (plain m) = m_consuming m.
Proof.
  induction 1 as [m Hd _ Hp IH].
  destruct m as [| | | | | | | | | | | | | |[?|?] ? ?| | | | | | |[m1|] d|]; try reflexivity.
  cbn [plain parts m_consuming] in *. rewrite (IH m1) by now left. now apply (Hd m1 d).
Qed.
Lemma plain_not_wraps m : wraps (plain m) = false.
Proof.
  assert (H : forall n m, (layers m <= n)%nat -> wraps (plain m) = false).
  { induction n as [|n IH]; intros x Hx.
    - destruct x as [| | | | | | | | | | | | | | | | | | | | |[m1|] d|]; try reflexivity. cbn in Hx. lia.
    - destruct x as [| | | | | | | | | | | | | | | | | | | | |[m1|] d|]; try reflexivity. cbn [plain]. apply IH. cbn in Hx. lia. }
  exact (H (layers m) m (le_n _)).
Qed.
Lemma pl_before m s st : wraps m = false -> before_exec (plain m) s (plain_state st) = plain_state (before_exec m s st).
Proof.
  intros H. unfold before_exec. rewrite pl_custom, pl_name by exact H. destruct (m_custom m); [|reflexivity].
  change (VMatcher (plain m)) with (plain_variable (VMatcher m)). apply pl_sc_set.
Qed.
Lemma pl_register s l : (forall m, In m l -> wraps m = false) -> forall st,
  fold_left (fun st m => sc_set st s (m_name m) (VMatcher m)) (map plain l) (plain_state st) =
  plain_state (fold_left (fun st m => sc_set st s (m_name m) (VMatcher m)) l st).
Proof.
  induction l as [|m l IH]; intros H st; cbn [map fold_left]; [reflexivity|].
  rewrite pl_name by (apply H; now left). change (VMatcher (plain m)) with (plain_variable (VMatcher m)).
  rewrite pl_sc_set, IH; [reflexivity|]. intros x Hx. apply H. now right.
Qed.

(* ---------- executions ---------- *)

Section Debugging.
  (* [early]: which side may run out of fuel.  [allow]: the debug output may
     panic; otherwise all windows are in range. *)
  Variables (E : env) (P : parser) (D : nat) (late allow : bool).
  Let T1 (_ : N) : Prop := True.
  Let T2 (_ : str) : Prop := True.
  Definition tight : Prop :=
    tame E /\ fitting (p_src P) T1 T2 sane_find E /\ slen (p_src P) < isize_bound /\ ascii_only (p_src P).
  Hypothesis Hblind : debug_blind E.
  Hypothesis Hmode : allow = true \/ tight.

  Definition fine (m : matcher) : Prop :=
    debug_placed m /\ shallow D m /\ (allow = true \/ bounded T2 sane_find m).
  Definition G : state -> Prop := scopes_all fine.
  Definition inside (c : ctx) : Prop := allow = true \/ window_ok (p_src P) T1 c.

  Definition debug_panic (p : panic) : Prop := p = PSlice \/ p = POverflow.
  Definition unfinished {A} (r' r : res A) : Prop := if late then r' = OOF else r = OOF.
  (* [r'] without and [r] with debug output *)
  Definition sim {A} (r' r : res A) : Prop :=
    unfinished r' r \/ (allow = true /\ exists p, r = Pan p /\ debug_panic p) \/
    (r' = plain_res r /\ match r with Ret _ st => G st | _ => True end).

  Lemma sim_ret {A} (x : A) st' st : st' = plain_state st -> G st -> sim (Ret x st') (Ret x st).
  Proof. intros -> H. right. right. now split. Qed.
  Lemma sim_pan {A} p : sim (A := A) (Pan p) (Pan p).
  Proof. right. right. now split. Qed.
  Lemma sim_oof {A} : sim (A := A) OOF OOF.
  Proof. right. right. now split. Qed.
  Lemma sim_bind {A B} r' r (k' k : A -> state -> res B) :
    sim r' r -> (forall x st, r = Ret x st -> G st -> sim (k' x (plain_state st)) (k x st)) ->
    sim (match r' with Ret x st => k' x st | Pan p => Pan p | OOF => OOF end)
        (match r with Ret x st => k x st | Pan p => Pan p | OOF => OOF end).
  Proof.
    intros [H|[(Ha & p & -> & Hp)|[-> Hg]]] Hk.
    - left. unfold unfinished in *. destruct late; rewrite H; reflexivity.
    - right. left. split; [exact Ha|]. now exists p.
    - destruct r as [x st|p|]; cbn [plain_res]; [now apply Hk|apply sim_pan|apply sim_oof].
  Qed.
  Lemma sim_let {A B} (m : may A) (k' k : A -> res B) :
    (forall x, m = Val x -> sim (k' x) (k x)) ->
    sim (match m with Val x => k' x | Die p => Pan p end) (match m with Val x => k x | Die p => Pan p end).
  Proof. intros H. destruct m; [now apply H|apply sim_pan]. Qed.

  Lemma g_heap st st' : st_scopes st' = st_scopes st -> G st -> G st'.
  Proof. intros H. apply all_same; assumption. Qed.
  Lemma fine_part m x : fine m -> In x (parts m) -> fine x.
  Proof.
    intros (H1 & H2 & H3) Hx. inversion H1 as [m1 _ _ P1]. inversion H2 as [m2 _ P2]. subst m1 m2.
    split; [auto|]. split; [auto|]. destruct H3 as [H3|H3]; [now left|]. right. clear H1 H2 P1 P2.
    destruct H3; cbn [parts] in Hx; try contradiction; auto; try (destruct Hx as [<-|[]]; auto).
    destruct f as [v|k|y]; try contradiction. destruct Hx as [<-|[]]; auto.
  Qed.

  (* contexts *)
  Lemma s_off c c' : silent c c' -> c_off c' = c_off c.
  Proof. now intros (_ & _ & _ & H). Qed.
  Lemma s_name c c' n n' : silent c c' -> silent (clone_with_name c n) (clone_with_name c' n').
  Proof. intros (H1 & H2 & H3 & H4). now repeat split. Qed.
  Lemma s_start c c' z : silent c c' -> silent (with_start c z) (with_start c' z).
  Proof. intros (H1 & H2 & H3 & H4). repeat split; cbn; auto. now rewrite H4. Qed.
  Lemma s_end c c' z : silent c c' -> silent (with_end c z) (with_end c' z).
  Proof. intros (H1 & H2 & H3 & H4). repeat split; cbn; auto. now rewrite H4. Qed.
  Lemma s_push c c' a : silent c c' -> silent (push_tok c a) (push_tok c' a).
  Proof. intros (H1 & H2 & H3 & H4). repeat split; cbn; auto. now rewrite H3. Qed.
  Lemma pl_matches_str c c' p : silent c c' -> matches_str P c' p = matches_str P c p.
  Proof. intros H. unfold matches_str. now rewrite (s_off _ _ H). Qed.
  Lemma pl_matches_at c c' p i : silent c c' -> matches_str_at P c' p i = matches_str_at P c p i.
  Proof. intros H. unfold matches_str_at. now rewrite (s_off _ _ H). Qed.
  Lemma pl_regexp c c' f : silent c c' -> matches_regexp P c' f = matches_regexp P c f.
  Proof. intros H. unfold matches_regexp. now rewrite (s_off _ _ H). Qed.
  Lemma pl_scan c c' ep esc : silent c c' -> forall f i p v,
    seq_scan f P c' ep esc i p v = seq_scan f P c ep esc i p v.
  Proof.
    intros H. induction f as [|f IH]; intros i p v; [reflexivity|]. cbn [seq_scan].
    rewrite (s_off _ _ H), !(pl_matches_at _ _ _ _ H).
    destruct (re (c_off c) <=? i); [reflexivity|].
    destruct (matches_str_at P c ep i) as [[r|]|q]; try reflexivity.
    destruct (matches_str_at P c esc i) as [[r|]|q]; try reflexivity; [|apply IH].
    destruct (if p <? i then src_slice P p i else Val []); [apply IH|reflexivity].
  Qed.

  (* the text of the debug output *)
  Lemma range_cases c k : (allow = true \/ (window_ok (p_src P) T1 c /\ rs (c_off c) + k <= usize_max)) ->
    (exists v, debug_range E P c k = Val v) \/ (allow = true /\ exists p, debug_range E P c k = Die p /\ debug_panic p).
  Proof.
    intros H. unfold debug_range, src_slice. destruct H as [Ha|[((W1 & W2) & _) H2]].
    - destruct (usize_add (e_checks E) (rs (c_off c)) k) as [e|]; cbn [or_die].
      + destruct (slice (p_src P) (rs (c_off c)) _) as [v|]; cbn [or_die]; [left; eauto|].
        right. split; [exact Ha|]. exists PSlice. split; [reflexivity|now left].
      + right. split; [exact Ha|]. exists POverflow. split; [reflexivity|now right].
    - assert (Hu : usize_add (e_checks E) (rs (c_off c)) k = Some (rs (c_off c) + k)).
      { unfold usize_add. now rewrite (proj2 (N.leb_le _ _) H2). }
      rewrite Hu. cbn [or_die]. destruct Hmode as [Ha|(_ & _ & _ & Has)]; [|left].
      + destruct (slice (p_src P) (rs (c_off c)) _) as [v|]; cbn [or_die]; [left; eauto|].
        right. split; [exact Ha|]. exists PSlice. split; [reflexivity|now left].
      + set (e := if re (c_off c) <? rs (c_off c) + k then re (c_off c) else rs (c_off c) + k).
        assert (He : rs (c_off c) <= e /\ e <= re (c_off c)).
        { unfold e. destruct (N.ltb_spec (re (c_off c)) (rs (c_off c) + k)); lia. }
        destruct (slice (p_src P) (rs (c_off c)) e) as [v|] eqn:Es; [cbn [or_die]; eauto|].
        exfalso. apply slice_none in Es. apply Es. apply ascii_sliceable; cbn [rs re]; auto; lia.
  Qed.
  Lemma ten_fits c : inside c -> allow = true \/ (window_ok (p_src P) T1 c /\ rs (c_off c) + 10 <= usize_max).
  Proof.
    intros [H|H]; [now left|]. destruct Hmode as [Ha|(_ & _ & Hl & _)]; [now left|]. right. split; [exact H|].
    destruct H as ((W1 & W2) & _). unfold isize_bound in Hl. unfold usize_max. lia.
  Qed.
  Lemma sim_range {A} c k r' (q : str -> res A) :
    (allow = true \/ (window_ok (p_src P) T1 c /\ rs (c_off c) + k <= usize_max)) ->
    (forall v, sim r' (q v)) ->
    sim r' (match debug_range E P c k with Val v => q v | Die p => Pan p end).
  Proof.
    intros H Hq. destruct (range_cases c k H) as [[v ->]|(Ha & p & -> & Hp)]; [apply Hq|].
    right. left. split; [exact Ha|]. now exists p.
  Qed.
  Lemma sim_dbg {A} c c' k (q' q : res A) : silent c c' ->
    (allow = true \/ (window_ok (p_src P) T1 c /\ rs (c_off c) + k <= usize_max)) -> sim q' q ->
    sim (match dbg E P c' k with Val _ => q' | Die p => Pan p end) (match dbg E P c k with Val _ => q | Die p => Pan p end).
  Proof.
    intros Hs H Hq. unfold dbg. replace (0 <? c_debug c') with false by (destruct Hs as (-> & _); reflexivity).
    destruct (0 <? c_debug c); [|exact Hq].
    destruct (range_cases c k H) as [[v ->]|(Ha & p & -> & Hp)]; [exact Hq|].
    right. left. split; [exact Ha|]. now exists p.
  Qed.
  Lemma sim_dbg10 {A} c c' (q' q : res A) : silent c c' -> inside c -> sim q' q ->
    sim (match dbg E P c' 10 with Val _ => q' | Die p => Pan p end) (match dbg E P c 10 with Val _ => q | Die p => Pan p end).
  Proof. intros Hs Hi. apply sim_dbg; [exact Hs|]. now apply ten_fits. Qed.

  Lemma pl_error_at msg r st : G st -> sim (error_token_at E P msg r (plain_state st)) (error_token_at E P msg r st).
  Proof. intros Hg. unfold error_token_at. apply sim_let. intros x _. now apply sim_ret. Qed.

  Lemma t_slice a b w : slice (p_src P) a b = Some w -> T1 a /\ T1 b.
  Proof. split; exact I. Qed.
  Lemma t_str v (rest : list ascii) a b : T2 v -> slice (p_src P) a b = Some (v ++ rest) -> T1 (a + slen v).
  Proof. intros; exact I. Qed.
  Lemma t_find (f : finder) w a b me : sane_find f -> slice (p_src P) a b = Some w -> f w = Some (0, me) ->
    me <= slen w /\ T1 (a + me).
  Proof. intros H _ H1. split; [|exact I]. now apply (H w 0 me). Qed.

  (* references *)
  Definition pfetched (g : fetched) : fetched :=
    match g with GStr v => GStr v | GMatcher m => GMatcher (plain m) end.
  Lemma pl_fetch st s f : fetch_value (plain_state st) s (plain_fetchable f) =
    match fetch_value st s f with Val g => Val (pfetched g) | Die p => Die p end.
  Proof.
    destruct f as [v|n|m]; cbn [plain_fetchable fetch_value]; try reflexivity.
    rewrite pl_sc_get. destruct (sc_get st s (hd [] (split "." n))) as [[a|v|m]|]; cbn [option_map plain_variable]; try reflexivity.
    - destruct (split "." n) as [|x [|y [|z l]]]; try reflexivity. rewrite pl_tok.
      destruct (fetch_token (tok st a) n y); reflexivity.
    - destruct (split "." n) as [|x [|y l]]; reflexivity.
  Qed.
  Lemma g_fetch st s f m : G st -> (forall x, f = FMatcher x -> fine x) ->
    fetch_value st s f = Val (GMatcher m) -> fine m.
  Proof.
    intros Hg Hf. destruct f as [v|n|x]; cbn [fetch_value]; [discriminate| |].
    - destruct (sc_get st s (hd [] (split "." n))) as [[a|v|y]|] eqn:Es; try discriminate.
      + destruct (split "." n) as [|x [|y [|z l]]]; try discriminate.
        destruct (fetch_token (tok st a) n y); discriminate.
      + destruct (split "." n) as [|x [|y l]]; discriminate.
      + intros H. injection H as <-. eapply all_get; eauto.
    - intros H. injection H as <-. now apply Hf.
  Qed.

  Lemma sim_user (r' r : res mres) st : G st -> r' = plain_res r /\ (forall x st', r = Ret x st' -> st_scopes st' = st_scopes st) ->
    sim r' r.
  Proof.
    intros Hg [H1 H2]. right. right. split; [exact H1|]. destruct r as [x st'|p|]; auto.
    eapply g_heap; [|exact Hg]. eapply H2. reflexivity.
  Qed.

  (* Map *)
  Lemma pl_map_ok f a c c' s st : G st -> silent c c' ->
    sim (map_ok E P f a c' s (plain_state st)) (map_ok E P f a c s st).
  Proof.
    intros Hg Hc. destruct f as [k|msg|msg|msg|msg|l|n| | | | |]; cbn [map_ok].
    - eapply sim_user; [exact Hg|]. apply (proj1 (Hblind c c' st Hc)).
    - rewrite pl_tok. apply sim_let. intros x _. now apply sim_ret.
    - now apply sim_ret.
    - rewrite pl_tok. now apply pl_error_at.
    - now apply sim_ret.
    - apply sim_ret; [reflexivity|]. now apply (g_heap st).
    - apply sim_ret; [reflexivity|]. now apply (g_heap st).
    - unfold attributes_of. rewrite !pl_tok. change (find_child (plain_state st)) with (find_child st).
      destruct (find_child st (tok st a) "Attributes").
      + rewrite pl_tok, pl_attr_pairs. apply sim_let. intros l _. apply sim_ret; [reflexivity|]. now apply (g_heap st).
      + apply sim_ret; [reflexivity|]. now apply (g_heap st).
    - apply sim_ret; [reflexivity|]. now apply (g_heap st).
    - assert (Ha : attributes_of (plain_state st) a = attributes_of st a).
      { unfold attributes_of. rewrite pl_tok. change (find_child (plain_state st)) with (find_child st).
        destruct (find_child st (tok st a) "Attributes"); [apply pl_attr_pairs|reflexivity]. }
      rewrite Ha. destruct (attributes_of st a) as [l|]; [|apply sim_pan].
      change (modify (plain_state st) a (set_attrs l)) with (plain_state (modify st a (set_attrs l))).
      rewrite pl_tok. set (st1 := modify st a (set_attrs l)). assert (Hg1 : G st1) by now apply (g_heap st). clearbody st1.
      change (find_child (plain_state st1)) with (find_child st1).
      destruct (get_attr "version" (tok st1 a)) as [v|].
      + destruct (parse_usize v); [now apply sim_ret|]. destruct (version_attr l); [|apply sim_pan].
        rewrite pl_tok. now apply pl_error_at.
      + destruct (find_child st1 (tok st1 a) "EndOfScopeHeader"); [rewrite pl_tok|]; now apply pl_error_at.
    - rewrite pl_tok. destruct (re (tk_mr (tok st a)) <? slen (p_src P)); [|now apply sim_ret].
      apply sim_let. intros x _. unfold error_token. rewrite (s_off _ _ Hc). now apply pl_error_at.
    - rewrite pl_tok. change (find_child (plain_state st)) with (find_child st).
      destruct (find_child st (tok st a) "AdextopaScope"); [now apply sim_ret|].
      destruct (find_child st (tok st a) "PatternScope"); [now apply sim_ret|]. now apply pl_error_at.
  Qed.
  Lemma pl_map_err f e c c' s st : G st -> silent c c' ->
    sim (map_err E P f e c' s (plain_state st)) (map_err E P f e c s st).
  Proof.
    intros Hg Hc.
    destruct f as [k|msg|msg|msg|msg|l|n| | | | |]; cbn [map_err]; try (destruct e; now apply sim_ret).
    - eapply sim_user; [exact Hg|]. apply (proj1 (proj2 (Hblind c c' st Hc))).
    - destruct e; [|now apply sim_ret]. rewrite (s_off _ _ Hc). apply sim_let. intros x _. now apply sim_ret.
    - destruct e; [|now apply sim_ret]. unfold error_token. rewrite (s_off _ _ Hc). now apply pl_error_at.
  Qed.

  (* Discard *)
  Lemma pl_skip_token start a st : G st -> sim (skip_token E P start a (plain_state st)) (skip_token E P start a st).
  Proof.
    intros Hg. unfold skip_token. rewrite pl_error_tokens. change (st_heap (plain_state st)) with (st_heap st). rewrite pl_tok.
    destruct (error_tokens (S (List.length (st_heap st))) st a) as [[|x l]|]; [| |apply sim_oof].
    - apply sim_let. intros z _. apply sim_ret; [reflexivity|]. now apply (g_heap st).
    - apply sim_ret; [reflexivity|]. now apply (g_heap st).
  Qed.
  Lemma pl_discard start r st : G st -> sim (discard_result E P start r (plain_state st)) (discard_result E P start r st).
  Proof.
    intros Hg.
    assert (Hp : forall p, sim (discard_payload E P start p (plain_state st)) (discard_payload E P start p st)).
    { intros [a|a|z|n p|n p| |]; cbn [discard_payload]; try (now apply pl_skip_token); try (now apply sim_ret); apply sim_pan. }
    destruct r as [[a|a|z|n p|n p| |]|e]; cbn [discard_result]; try now apply sim_ret.
    - eapply sim_bind; [now apply pl_skip_token|]. intros x st1 _ Hg1. now apply sim_ret.
    - eapply sim_bind; [now apply pl_skip_token|]. intros x st1 _ Hg1. now apply sim_ret.
    - eapply sim_bind; [apply Hp|]. intros x st1 _ Hg1. now apply sim_ret.
    - eapply sim_bind; [apply Hp|]. intros x st1 _ Hg1. now apply sim_ret.
  Qed.

  (* Pin *)
  Lemma pl_pin c c' v : silent c c' ->
    match pin_context E c v with
    | Val d => exists d', pin_context E c' v = Val d' /\ silent d d'
    | Die p => pin_context E c' v = Die p
    end.
  Proof.
    intros Hc. unfold pin_context. rewrite (s_off _ _ Hc).
    destruct (parse_offset E (rs (c_off c)) (rs (c_off c)) (hd [] (split ".." v))) as [z|p]; [|reflexivity].
    destruct (split ".." v) as [|x [|y l]].
    - eexists. split; [reflexivity|]. now apply s_start.
    - eexists. split; [reflexivity|]. now apply s_start.
    - rewrite (s_off _ _ (s_start _ _ z Hc)).
      destruct (parse_offset E (rs (c_off (with_start c z))) (re (c_off (with_start c z))) y); [|reflexivity].
      eexists. split; [reflexivity|]. apply s_end. now apply s_start.
  Qed.

  (* Sequence *)
  Lemma pl_sequence x y z n c c' s st : G st -> silent c c' -> inside c ->
    sim (exec_sequence E P (plain_fetchable x) (plain_fetchable y) (plain_fetchable z) n c' s (plain_state st))
        (exec_sequence E P x y z n c s st).
  Proof.
    intros Hg Hc Hi. unfold exec_sequence. pose proof (s_name _ _ n n Hc) as Hn.
    assert (Hin : inside (clone_with_name c n)) by exact Hi.
    rewrite !pl_fetch. destruct (fetch_value st s x) as [[sp|m]|p]; cbn [pfetched]; [|now apply sim_ret|apply sim_pan].
    destruct (slen sp =? 0); [apply sim_pan|].
    destruct (fetch_value st s y) as [[ep|m]|p]; cbn [pfetched]; [|now apply sim_ret|apply sim_pan].
    destruct (slen ep =? 0); [apply sim_pan|].
    destruct (fetch_value st s z) as [[xp|m]|p]; cbn [pfetched]; [|now apply sim_ret|apply sim_pan].
    rewrite (pl_matches_str _ _ _ Hn). destruct (matches_str P (clone_with_name c n) sp) as [[r|]|p] eqn:Em; [| |apply sim_pan].
    - rewrite (pl_scan _ _ _ _ Hn).
      destruct (seq_scan (S (List.length (p_src P))) P (clone_with_name c n) ep xp (re r) (re r) []) as [[i v| |]|p] eqn:Es; try apply sim_pan; try apply sim_oof.
      + rewrite (s_off _ _ Hn). apply (sim_dbg _ _ _ _ _ Hn).
        * destruct Hi as [Ha|Hw]; [now left|]. destruct Hmode as [Ha|(_ & _ & Hl & _)]; [now left|].
          right. split; [exact Hw|].
          apply (seq_scan_fits P T1 T2 sane_find Hl t_slice t_str t_find) in Es.
          destruct Es as (_ & _ & Es & _). destruct Hw as ((W1 & W2) & _). cbn [c_off clone_with_name] in *.
          unfold isize_bound in Hl. unfold usize_max. lia.
        * apply sim_ret; [reflexivity|]. now apply (g_heap st).
      + apply (sim_dbg10 _ _ _ _ Hn Hin). now apply sim_ret.
    - apply (sim_dbg10 _ _ _ _ Hn Hin). now apply sim_ret.
  Qed.

  (* Program *)
  Lemma pl_add pt a x y ps st : G st -> sim (add_token P pt a x y ps (plain_state st)) (add_token P pt a x y ps st).
  Proof.
    intros Hg. unfold add_token. rewrite pl_tok. destruct (_ && _ && _ && _); [apply sim_pan|].
    apply sim_ret; [reflexivity|]. now apply (g_heap st).
  Qed.
  Lemma pl_handle pt a x y ps st : G st -> sim (handle_token P pt a x y ps (plain_state st)) (handle_token P pt a x y ps st).
  Proof. intros Hg. unfold handle_token. rewrite pl_tok. now apply pl_add. Qed.
  Lemma pl_extract_kids pt self u l : forall ps st, G st ->
    sim (extract_children P pt self u l ps (plain_state st)) (extract_children P pt self u l ps st).
  Proof.
    induction l as [|k l IH]; intros ps st Hg; cbn [extract_children]; [now apply sim_ret|]. rewrite pl_tok.
    destruct (should_discard (tok st k)); [now apply IH|].
    destruct (Nat.eqb k self); [apply sim_pan|].
    eapply sim_bind; [now apply pl_add|]. intros ps1 st1 _ Hg1. now apply IH.
  Qed.
  Lemma pl_extract pt a u ps st : G st -> sim (handle_extract P pt a u ps (plain_state st)) (handle_extract P pt a u ps st).
  Proof. intros Hg. unfold handle_extract. rewrite pl_tok. now apply pl_extract_kids. Qed.
  Lemma pl_handle_skip start z ps st : G st -> sim (handle_skip E start z ps (plain_state st)) (handle_skip E start z ps st).
  Proof. intros Hg. unfold handle_skip. apply sim_let. intros x _. now apply sim_ret. Qed.
  Lemma pl_payload pt start p ps st : G st ->
    sim (handle_payload E P pt start p ps (plain_state st)) (handle_payload E P pt start p ps st).
  Proof.
    intros Hg. destruct p; cbn [handle_payload]; try (now apply sim_ret).
    - now apply pl_handle.
    - now apply pl_extract.
    - now apply pl_handle_skip.
  Qed.
  Lemma pl_finalize i pt ps n b st : G st -> sim (finalize P i pt ps n b (plain_state st)) (finalize P i pt ps n b st).
  Proof.
    intros Hg. unfold finalize.
    assert (Hc : forall l, sim
      (if (rs (ps_cr ps) =? usize_max) || (rs (ps_mr ps) =? usize_max) then Ret (Err FFail) (plain_state st)
       else match l with
            | [] => Ret (Err FFail) (plain_state st)
            | _ => Ret (Ok (SToken pt)) (modify (plain_state st) pt (fun t => set_mr P (ps_mr ps) (set_cr P (ps_cr ps) (set_kids (ps_kids ps) t))))
            end)
      (if (rs (ps_cr ps) =? usize_max) || (rs (ps_mr ps) =? usize_max) then Ret (Err FFail) st
       else match l : list addr with
            | [] => Ret (Err FFail) st
            | _ => Ret (Ok (SToken pt)) (modify st pt (fun t => set_mr P (ps_mr ps) (set_cr P (ps_cr ps) (set_kids (ps_kids ps) t))))
            end)).
    { intros l. destruct ((rs (ps_cr ps) =? usize_max) || (rs (ps_mr ps) =? usize_max)); [now apply sim_ret|].
      destruct l; [now apply sim_ret|]. apply sim_ret; [reflexivity|]. now apply (g_heap st). }
    destruct b; [|apply Hc]. destruct (pi_iter i) as [[lo hi]|]; [|apply Hc].
    destruct ((lo =? 0) && (n =? 0) && _); [now apply sim_ret|].
    destruct (n <? lo); [now apply sim_ret|apply Hc].
  Qed.

  Variables rec rec' : recT.
  Hypothesis Hrec : forall m c c' s st, fine m -> silent c c' -> inside c -> G st ->
    sim (rec' (plain m) c' s (plain_state st)) (rec m c s st).
  Hypothesis Hkeep : allow = true \/ ((forall h, sound h rec) /\ keeps P T1 T2 sane_find rec).

  Section Patterns.
    Variables (pt : addr) (st_s : state) (lo hi : N) (i : pinfo) (c c' : ctx) (s : sid).
    Hypothesis Hc : silent c c'.
    Hypothesis Hin : inside c.
    Hypothesis Hpt : heap_size st_s = pt.
    Hypothesis Hlo : lo = rs (c_off c).
    Hypothesis Hhi : hi = re (c_off c).
    Definition I (st : state) (ps : pst) : Prop :=
      allow = true \/ pinv T1 T2 sane_find pt st_s lo hi st ps.

    Lemma window : allow = true \/ (lo <= hi /\ hi <= slen (p_src P)).
    Proof. destruct Hin as [H|(H & _)]; [now left|]. right. subst. lia. Qed.
    Lemma inside_at st ps : I st ps -> inside (with_start c (ps_off ps)).
    Proof.
      intros [H|H]; [now left|]. destruct window as [Hw|[Hw1 Hw2]]; [now left|]. right.
      destruct H as (_ & _ & (H & _) & _). split; [|split; exact Logic.I]. cbn [c_off with_start rs re]. lia.
    Qed.
    Lemma I_rec m ps st r st1 : fine m -> I st ps ->
      rec m (push_tok (with_start c (ps_off ps)) pt) s st = Ret r st1 ->
      I st1 ps /\ (allow = true \/ (result_fits T1 (ps_off ps) hi st1 r /\
        (forall a, In a (result_tokens r) -> (S pt <= a < heap_size st1)%nat) /\
        (m_consuming m = false -> result_tokens r = []))).
    Proof.
      intros (_ & _ & Hm) HI Hr. destruct Hm as [Ha|Hm]; [split; now left|]. destruct HI as [Ha|HI]; [split; now left|].
      destruct window as [Ha|[Hw1 Hw2]]; [split; now left|]. destruct Hkeep as [Ha|[Hs Hk]]; [split; now left|].
      destruct Hmode as [Ha|(_ & _ & Hl & _)]; [split; now left|].
      apply (rec_pinv P T1 T2 sane_find Hl t_slice rec pt st_s lo hi c Hs Hk Hpt Hw1 Hw2 Logic.I (eq_sym Hhi)) in Hr; auto.
      destruct Hr as (R1 & R2 & R3 & R4). split; right; auto.
    Qed.

    Lemma I_handle a b ps st ps' st' : I st ps ->
      (allow = true \/ (tree_fits T1 (ps_off ps) hi st a /\ (S pt <= a < heap_size st)%nat)) ->
      handle_token P pt a b true ps st = Ret ps' st' -> I st' ps'.
    Proof.
      intros [Ha|H] Hf Hr; [now left|]. destruct Hf as [Ha|[H1 H2]]; [now left|].
      destruct window as [Ha|[Hw1 Hw2]]; [now left|]. destruct Hmode as [Ha|(_ & _ & Hl & _)]; [now left|].
      destruct Hkeep as [Ha|[Hs Hk]]; [now left|]. right.
      eapply (handle_token_pinv P T1 T2 sane_find Hl t_slice rec pt st_s lo hi c Hs Hk Hpt Hw1 Hw2 (eq_sym Hhi)); eauto.
    Qed.
    Lemma I_extract a ps st ps' st' : I st ps ->
      (allow = true \/ (tree_fits T1 (ps_off ps) hi st a /\ (S pt <= a < heap_size st)%nat)) ->
      handle_extract P pt a true ps st = Ret ps' st' -> I st' ps'.
    Proof.
      intros [Ha|H] Hf Hr; [now left|]. destruct Hf as [Ha|[H1 H2]]; [now left|].
      destruct window as [Ha|[Hw1 Hw2]]; [now left|]. destruct Hmode as [Ha|(_ & _ & Hl & _)]; [now left|].
      destruct Hkeep as [Ha|[Hs Hk]]; [now left|]. right.
      eapply (handle_extract_pinv P T1 T2 sane_find Hl t_slice rec pt st_s lo hi c Hs Hk Hpt Hw1 Hw2 (eq_sym Hhi)); eauto.
    Qed.
    Lemma I_skip z ps st ps' st' : I st ps ->
      (allow = true \/ success_fits T1 (ps_off ps) hi st (SSkip z)) ->
      handle_skip E lo z ps st = Ret ps' st' -> I st' ps'.
    Proof.
      intros [Ha|H] Hf Hr; [now left|]. destruct Hf as [Ha|(F1 & F2 & F3)]; [now left|].
      destruct window as [Ha|[Hw1 Hw2]]; [now left|]. destruct Hmode as [Ha|(_ & _ & Hl & _)]; [now left|].
      destruct Hkeep as [Ha|[Hs Hk]]; [now left|]. right.
      eapply (handle_skip_pinv E P T1 T2 sane_find Hl t_slice rec pt st_s lo hi c Hs Hk Hpt Hw1 Hw2 Logic.I (eq_sym Hhi)); eauto.
    Qed.
    Lemma I_payload p ps st ps' st' : I st ps ->
      (allow = true \/ (success_fits T1 (ps_off ps) hi st p /\ forall a, In a (success_tokens p) -> (S pt <= a < heap_size st)%nat)) ->
      handle_payload E P pt lo p ps st = Ret ps' st' -> I st' ps'.
    Proof.
      intros [Ha|H] Hf Hr; [now left|]. destruct Hf as [Ha|[F1 F2]]; [now left|].
      destruct window as [Ha|[Hw1 Hw2]]; [now left|]. destruct Hmode as [Ha|(_ & _ & Hl & _)]; [now left|].
      destruct Hkeep as [Ha|[Hs Hk]]; [now left|]. right.
      eapply (handle_payload_pinv E P T1 T2 sane_find Hl t_slice rec pt st_s lo hi c Hs Hk Hpt Hw1 Hw2 Logic.I (eq_sym Hhi)); eauto.
    Qed.

    Lemma pl_patterns n pats : (forall m, In m pats -> fine m) ->
      forall ps st, G st -> I st ps ->
      sim (run_patterns E P rec' i c' s pt lo n (map plain pats) ps (plain_state st))
          (run_patterns E P rec i c s pt lo n pats ps st).
    Proof.
      induction pats as [|m pats IH]; intros Hp ps st Hg HI; cbn [map run_patterns]; [now apply sim_ret|].
      specialize (IH (fun x Hx => Hp x (or_intror Hx))).
      assert (Hm : fine m) by (apply Hp; now left).
      assert (Hs := s_start _ _ (ps_off ps) Hc).
      pose proof (inside_at st ps HI) as Hw.
      eapply sim_bind; [apply Hrec; [exact Hm|now apply s_push|exact Hw|exact Hg]|].
      intros r st1 Er Hg1. rewrite (pl_consuming m (proj1 Hm)).
      destruct (I_rec m ps st r st1 Hm HI Er) as [HI1 Hfit]. clear Er.
      destruct r as [[a|a|z|b p|b p| |]|e]; try now apply sim_ret.
      - rewrite pl_tok. destruct (should_discard (tok st1 a)); [now apply IH|]. destruct (pi_stop i); [now apply sim_ret|].
        eapply sim_bind; [now apply pl_handle|]. intros ps1 st2 Eh Hg2. apply IH; [exact Hg2|].
        destruct Hfit as [Ha|(F1 & F2 & F3)]; [now left|].
        destruct (m_consuming m); [|discriminate (F3 eq_refl)].
        eapply I_handle; [exact HI1| |exact Eh]. right. split; [exact F1|]. apply F2. now left.
      - rewrite pl_tok. destruct (should_discard (tok st1 a)); [now apply IH|]. destruct (pi_stop i); [now apply sim_ret|].
        eapply sim_bind; [now apply pl_extract|]. intros ps1 st2 Eh Hg2. apply IH; [exact Hg2|].
        destruct Hfit as [Ha|(F1 & F2 & F3)]; [now left|].
        destruct (m_consuming m); [|discriminate (F3 eq_refl)].
        eapply I_extract; [exact HI1| |exact Eh]. right. split; [exact F1|]. apply F2. now left.
      - destruct ((0 <? z)%Z && pi_stop i); [now apply sim_ret|].
        destruct (m_consuming m); [|now apply IH].
        eapply sim_bind; [now apply pl_handle_skip|]. intros ps1 st2 Eh Hg2. apply IH; [exact Hg2|].
        eapply I_skip; [exact HI1| |exact Eh]. destruct Hfit as [Ha|(F1 & _)]; [now left|]. now right.
      - apply (sim_dbg10 _ _ _ _ Hs Hw).
        destruct e as [|e]; [|now apply sim_ret]. destruct (pi_stop i); [now apply IH|].
        destruct (pi_iter i) as [r|]; [|now apply sim_ret].
        eapply sim_bind; [now apply pl_finalize|]. intros x st2 _ Hg2. now apply sim_ret.
    Qed.

    Definition J (st : state) (ps : pst) : Prop :=
      allow = true \/ (pinv T1 T2 sane_find pt st_s lo hi st ps /\ held lo i ps).
    Lemma J_I st ps : J st ps -> I st ps.
    Proof. intros [H|[H _]]; [now left|now right]. Qed.
    Lemma J_patterns n pats : (forall m, In m pats -> fine m) -> forall ps st k ps' st', J st ps ->
      run_patterns E P rec i c s pt lo n pats ps st = Ret (k, ps') st' ->
      allow = true \/ pass_fits T1 T2 sane_find pt st_s lo hi i k ps' st'.
    Proof.
      intros Hp ps st k ps' st' [Ha|[H1 H2]] Hr; [now left|].
      destruct window as [Ha|[Hw1 Hw2]]; [now left|]. destruct Hkeep as [Ha|[Hs Hk]]; [now left|].
      destruct Hmode as [Ha|(_ & _ & Hl & _)]; [now left|].
      assert (Hb : allow = true \/ forall m, In m pats -> bounded T2 sane_find m).
      { clear -Hp. destruct allow eqn:Ea; [now left|]. right. intros m Hm.
        destruct (Hp m Hm) as (_ & _ & [H|H]); [congruence|exact H]. }
      destruct Hb as [Ha|Hb]; [now left|]. right.
      eapply (run_patterns_fits E P T1 T2 sane_find Hl t_slice rec pt st_s lo hi i c Hs Hk Hpt Hw1 Hw2 Logic.I Logic.I (eq_sym Hhi)); eauto.
    Qed.

    Lemma pl_iterate pats : (forall m, In m pats -> fine m) ->
      forall f f' left n ps st, (if late then f' <= f else f <= f')%nat -> G st -> J st ps ->
      sim (iterate f' E P rec' (map plain pats) i c' s pt lo left n ps (plain_state st))
          (iterate f E P rec pats i c s pt lo left n ps st).
    Proof.
      intros Hp. induction f as [|f IH]; intros f' left n ps st Hf Hg HJ.
      { destruct late eqn:El.
        - assert (f' = O) by lia. subst f'. cbn [iterate]. destruct (left =? 0); [now apply pl_finalize|apply sim_oof].
        - destruct f' as [|f']; cbn [iterate].
          + destruct (left =? 0); [now apply pl_finalize|apply sim_oof].
          + destruct (left =? 0); [now apply pl_finalize|]. left. unfold unfinished. now rewrite El. }
      destruct f' as [|f'].
      { cbn [iterate]. destruct (left =? 0); [now apply pl_finalize|].
        left. unfold unfinished. destruct late; [reflexivity|lia]. }
      assert (Hf' : (if late then f' <= f else f <= f')%nat) by (destruct late; lia).
      cbn [iterate]. destruct (left =? 0); [now apply pl_finalize|].
      eapply sim_bind; [apply pl_patterns; [exact Hp|exact Hg|now apply J_I]|].
      intros [k ps1] st1 Er Hg1. apply (J_patterns _ _ Hp _ _ _ _ _ HJ) in Er.
      destruct k as [|x|r]; [| |now apply sim_ret].
      - apply IH; [exact Hf'|exact Hg1|]. destruct Er as [Ha|[Hd Hi]]; [now left|]. right. now split.
      - assert (Hi : I st1 ps1) by (destruct Er as [Ha|(Hd & Hi & _)]; [now left|now right]).
        assert (Hx : allow = true \/ (success_fits T1 (ps_off ps1) hi st1 x /\
                   forall a, In a (success_tokens x) -> (S pt <= a < heap_size st1)%nat)).
        { destruct Er as [Ha|(Hd & _ & Hx)]; [now left|now right]. }
        destruct x as [a|a|z|b p|b p| |]; try apply sim_pan.
        + destruct (pi_stop i) eqn:Ei; [now apply sim_ret|].
          eapply sim_bind; [now apply pl_payload|]. intros ps2 st2 _ Hg2.
          eapply sim_bind; [now apply pl_finalize|]. intros r st3 _ Hg3.
          destruct (is_target i b); [now apply sim_ret|]. destruct r; now apply sim_ret.
        + destruct (pi_stop i) eqn:Ei; [now apply sim_ret|].
          eapply sim_bind; [now apply pl_payload|]. intros ps2 st2 Eh Hg2.
          destruct (is_target i b); [|now apply pl_finalize]. apply IH; [exact Hf'|exact Hg2|].
          assert (Hi2 : I st2 ps2).
          { eapply I_payload; [exact Hi| |exact Eh]. destruct Hx as [Ha|[X1 X2]]; [now left|]. right.
            cbn [success_fits success_tokens] in X1, X2. split; [|exact X2]. destruct p; auto; contradiction. }
          destruct Hi2 as [Ha|Hi2]; [now left|]. right. split; [exact Hi2|]. unfold held. congruence.
        + now apply pl_finalize.
    Qed.
  End Patterns.

  Lemma pl_program f f' pats i c c' s st : (if late then f' <= f else f <= f')%nat ->
    silent c c' -> inside c -> (forall m, In m pats -> fine m) -> G st ->
    sim (exec_program f' E P rec' (map plain pats) i c' s (plain_state st)) (exec_program f E P rec pats i c s st).
  Proof.
    intros Hf Hc Hi Hp Hg. unfold exec_program. rewrite (s_off _ _ (s_name _ _ (pi_name i) (pi_name i) Hc)).
    change (next_addr (plain_state st)) with (next_addr st).
    change (alloc (plain_state st) (std_token P (pi_name i) blank_range)) with
      (plain_state (alloc st (std_token P (pi_name i) blank_range))).
    apply (pl_iterate (next_addr st) st (rs (c_off c)) (re (c_off c)) i
             (clone_with_name c (pi_name i)) (clone_with_name c' (pi_name i)) s (s_name _ _ _ _ Hc) Hi eq_refl eq_refl eq_refl pats Hp f f');
      [exact Hf|now apply (g_heap st)|].
    destruct Hi as [Ha|Hw]; [now left|]. 
    destruct allow eqn:Ea; [now left|]. right. split; [|intros _; reflexivity].
    assert (Hs : scopes_bounded T2 sane_find st).
    { intros stack sc n m H1 H2 H3. destruct (Hg stack sc n m H1 H2 H3) as (_ & _ & [H|H]); [congruence|exact H]. }
    split; [|split; [exact Hs|]].
    - split; [rewrite heap_size_alloc; unfold heap_size, next_addr; lia|]. split.
      + intros a Ha. rewrite heap_size_alloc in Ha. unfold heap_size, next_addr in *. lia.
      + split; [intros a Ha; apply tok_alloc_old; unfold heap_size, next_addr in *; lia|].
        split; [now rewrite tok_alloc_new|intros ? []].
    - cbn [ps_off ps_kids ps_cr ps_mr init_pst]. destruct Hw as (Hw & _).
      split; [split; [split; [apply N.le_refl|apply Hw]|exact Logic.I]|].
      split; [intros k []|]. split; [now left|]. split; [now left|]. split; [congruence|].
      split; [now rewrite tok_alloc_new|]. split; [constructor|intros k []].
  Qed.

  Lemma pl_step f f' m c c' s st : (if late then f' <= f else f <= f')%nat -> wraps m = false ->
    fine m -> silent c c' -> inside c -> G st ->
    sim (step f' E P rec' (plain m) c' s (plain_state st)) (step f E P rec m c s st).
  Proof.
    intros Hf Hw Hm Hc Hi Hg0. unfold step. rewrite pl_before, pl_name by exact Hw.
    assert (Hg : G (before_exec m s st)) by (apply all_before; assumption).
    pose proof (s_name _ _ (m_name m) (m_name m) Hc) as Hn.
    set (st1 := before_exec m s st) in *. clearbody st1. clear st Hg0. rename st1 into st.
    assert (Hin : inside (clone_with_name c (m_name m))) by exact Hi.
    pose proof (fun x Hx => fine_part m x Hm Hx) as Hparts.
    destruct m as [pats i|p n b|r n b|x y z n b|m1|m1|m1| |msg|msg|n|m1 k|m1 g|om off n b|p n b|n|l|t n b|os m1|m1 n b|m1|om d|k n b cs];
      cbn [plain parts] in *; cbv zeta.
    - now apply pl_program.
    - rewrite pl_fetch. destruct (fetch_value st s p) as [[v|m]|q]; cbn [pfetched]; [|now apply sim_ret|apply sim_pan].
      rewrite (pl_matches_str _ _ _ Hn). apply sim_let. intros [r|] _; apply (sim_dbg10 _ _ _ _ Hn Hin); [|now apply sim_ret].
      apply sim_ret; [reflexivity|now apply (g_heap st)].
    - rewrite (pl_regexp _ _ _ Hn). apply sim_let. intros [r'|] _.
      + destruct (rs r' =? re r'); [apply (sim_dbg10 _ _ _ _ Hn Hin); now apply sim_ret|].
        apply sim_ret; [reflexivity|now apply (g_heap st)].
      + apply (sim_dbg10 _ _ _ _ Hn Hin); now apply sim_ret.
    - now apply pl_sequence.
    - eapply sim_bind; [apply Hrec; auto; apply Hparts; now left|]. intros r st1 _ Hg1.
      destruct r as [[a|a|z|q p|q p| |]|[|e]]; try now apply sim_ret.
      destruct (z =? 0)%Z; now apply sim_ret.
    - eapply sim_bind; [apply Hrec; auto; apply Hparts; now left|]. intros r st1 _ Hg1.
      destruct r as [y|[|e]]; now apply sim_ret.
    - eapply sim_bind; [apply Hrec; auto; apply Hparts; now left|]. intros r st1 _ Hg1.
      rewrite (s_off _ _ Hc). now apply pl_discard.
    - now apply sim_ret.
    - unfold top_token. rewrite (s_off _ _ Hc). replace (c_stack c') with (c_stack c) by (symmetry; apply Hc).
      apply sim_let. intros x _. now apply sim_ret.
    - unfold error_token. rewrite (s_off _ _ Hc). now apply pl_error_at.
    - now apply sim_ret.
    - eapply sim_bind; [apply Hrec; auto; apply Hparts; now left|]. intros r st1 _ Hg1.
      destruct r as [y|e]; [now apply sim_ret|].
      eapply sim_user; [exact Hg1|]. apply (proj1 (proj2 (proj2 (Hblind _ _ st1 Hn)))).
    - eapply sim_bind; [apply Hrec; auto; apply Hparts; now left|]. intros r st1 _ Hg1.
      destruct r as [[a|a|z|q p|q p| |]|e]; try (now apply sim_ret); try (now apply pl_map_ok). now apply pl_map_err.
    - assert (Hpi : match om with Some m1 => allow = true | None => True end).
      { destruct om as [m1|]; [|exact Logic.I]. destruct Hm as (_ & _ & [Ha|Hb]); [exact Ha|inversion Hb]. }
      rewrite pl_fetch. destruct (fetch_value st s off) as [[v|m]|q]; cbn [pfetched]; [|now apply sim_ret|apply sim_pan].
      pose proof (pl_pin _ _ v Hn) as Hpin. destruct (pin_context E (clone_with_name c (m_name (MPin om off n b))) v) as [d|q].
      + destruct Hpin as (d' & -> & Hd). destruct om as [m1|]; cbn [option_map].
        * apply Hrec; auto; [apply Hparts; now left|now left].
        * rewrite (s_off _ _ Hd). apply sim_ret; [reflexivity|now apply (g_heap st)].
      + rewrite Hpin. apply sim_pan.
    - destruct p as [m1|v]; cbn [plain_storepat].
      + eapply sim_bind; [apply Hrec; auto; apply Hparts; now left|]. intros r st1 _ Hg1.
        destruct r as [[a|a|z|q p|q p| |]|e]; try now apply sim_ret.
        apply sim_ret; [apply (pl_sc_set st1 s n (VToken a))|]. now apply all_set.
      + apply sim_ret; [apply (pl_sc_set st s n (VString v))|]. now apply all_set.
    - now apply sim_ret.
    - apply sim_ret; [apply pl_register|now apply all_register]. intros m Hx. destruct (wraps m) eqn:Ew; [|reflexivity].
      destruct Hm as (Hd & _). inversion Hd as [m0 _ H2 _]; subst m0. exfalso.
      destruct m as [| | | | | | | | | | | | | | | | | | | | |[m1|] d|]; try discriminate. eapply H2; eauto.
    - rewrite pl_fetch. destruct (fetch_value st s t) as [[v|m]|q] eqn:Ef; cbn [pfetched]; [| |apply sim_pan].
      + rewrite pl_sc_get. destruct (sc_get st s v) as [[a|w|m]|] eqn:Es; cbn [option_map plain_variable]; try now apply sim_ret.
        apply Hrec; auto. eapply all_get; eauto.
      + apply Hrec; auto. eapply g_fetch; eauto. intros x ->. apply Hparts. now left.
    - destruct os as [s1|].
      + apply Hrec; auto. apply Hparts. now left.
      + replace (c_scope c') with (c_scope c) by (symmetry; apply Hc). rewrite pl_sc_push.
        eapply sim_bind; [apply Hrec; auto; [apply Hparts; now left|now apply all_push]|]. intros r st1 _ Hg1.
        apply sim_ret; [apply pl_sc_pop|now apply all_pop].
    - eapply sim_bind; [apply Hrec; auto; apply Hparts; now left|]. intros r st1 _ Hg1.
      destruct r as [[a|a|z|q p|q p| |]|e]; try now apply sim_ret.
      + destruct p; now apply sim_ret.
      + destruct p; now apply sim_ret.
    - eapply sim_bind; [apply Hrec; auto; apply Hparts; now left|]. intros r st1 _ Hg1.
      destruct r as [[a|a|z|q p|q p| |]|e]; try now apply sim_ret.
    - destruct om as [m1|]; [discriminate|]. unfold debug_range. rewrite (s_off _ _ Hc).
      apply sim_let. intros x _. now apply sim_ret.
    - eapply sim_user; [exact Hg|]. apply (proj2 (proj2 (proj2 (Hblind c c' st Hc)))).
  Qed.
End Debugging.

(* ---------- both directions ---------- *)

Section Both.
  Variables (E : env) (P : parser) (D : nat) (allow : bool).
  Hypothesis Hblind : debug_blind E.
  Hypothesis Hmode : allow = true \/ tight E P.
  Notation fine := (fine D allow).
  Notation inside := (inside P allow).
  Notation G := (G D allow).

  Lemma tight_keep n : allow = true \/ ((forall h, sound h (exec n E P)) /\
    keeps P (fun _ => True) (fun _ => True) sane_find (exec n E P)).
  Proof.
    destruct Hmode as [Ha|(H1 & H2 & H3 & H4)]; [now left|]. right. split.
    - intros h. now apply exec_sound.
    - apply exec_keeps; auto. intros f w a b me H _ Hw. split; [|exact Logic.I]. now apply (H w 0 me).
  Qed.
  Lemma wraps_inv m : wraps m = true -> exists m1 d, m = MDebug (Some m1) d.
  Proof. destruct m as [| | | | | | | | | | | | | | | | | | | | |[m1|] d|]; try discriminate. eauto. Qed.
  Lemma silent_debug c c' n d : silent c c' -> silent (with_debug (clone_with_name c n) d) c'.
  Proof. intros (H1 & H2 & H3 & H4). now repeat split. Qed.

  (* whatever the execution with debug output gives, the other gives as well *)
  Lemma plain_follows : forall n m c c' s st, fine m -> silent c c' -> inside c -> G st ->
    sim D false allow (exec n E P (plain m) c' s (plain_state st)) (exec n E P m c s st).
  Proof.
    induction n as [|n IH]; intros m c c' s st Hm Hc Hi Hg; [left; reflexivity|].
    destruct (wraps m) eqn:Hw.
    - apply wraps_inv in Hw as (m1 & d & ->). cbn [plain]. cbn [exec step]. cbv zeta.
      change (before_exec (MDebug (Some m1) d) s st) with st.
      apply sim_range with (E := E) (P := P); [exact Hmode|now apply ten_fits with (E := E)|intros _].
      assert (H : sim D false allow (exec n E P (plain m1) c' s (plain_state st))
        (exec n E P m1 (with_debug (clone_with_name c (m_name (MDebug (Some m1) d))) d) s st)).
      { apply IH; [eapply fine_part; [exact Hm|now left]|now apply silent_debug|exact Hi|exact Hg]. }
      destruct H as [H|[H|[H1 H2]]]; [now left|right; now left|].
      destruct (exec n E P m1 _ s st) as [r st1|p|] eqn:Er; [| |now left].
      + right. right. split; [|exact H2]. rewrite <- H1. apply (exec_mono E P n (S n)); [lia|]. rewrite H1. discriminate.
      + right. right. split; [|exact H2]. rewrite <- H1. apply (exec_mono E P n (S n)); [lia|]. rewrite H1. discriminate.
    - cbn [exec]. apply pl_step; auto using tight_keep.
  Qed.

  (* and the other way around *)
  Lemma debug_follows : forall n g m c c' s st, (S D * n <= g)%nat -> fine m -> silent c c' -> inside c -> G st ->
    sim D true allow (exec n E P (plain m) c' s (plain_state st)) (exec g E P m c s st).
  Proof.
    induction n as [|n IH]; intros g m c c' s st Hgn Hm Hc Hi Hg; [left; reflexivity|].
    assert (H : forall k m g c, (layers m <= k)%nat -> (k + 1 + S D * n <= g)%nat -> fine m -> silent c c' -> inside c ->
      sim D true allow (exec (S n) E P (plain m) c' s (plain_state st)) (exec g E P m c s st)).
    { clear m c g Hgn Hm Hc Hi. induction k as [|k IHk]; intros m g c Hl Hgk Hm Hc Hi.
      - destruct g as [|g]; [lia|]. cbn [exec]. apply pl_step; auto using tight_keep.
        + intros. apply IH; auto. lia.
        + cbn beta iota. lia.
        + destruct (wraps m) eqn:Hw; [|reflexivity]. apply wraps_inv in Hw as (m1 & d & ->). cbn in Hl. lia.
      - destruct g as [|g]; [lia|]. destruct (wraps m) eqn:Hw.
        + apply wraps_inv in Hw as (m1 & d & ->). cbn [plain layers] in *. cbn [exec step] in *. cbv zeta.
          change (before_exec (MDebug (Some m1) d) s st) with st.
          apply sim_range with (E := E) (P := P); [exact Hmode|now apply ten_fits with (E := E)|intros _].
          apply IHk; [lia|lia|eapply fine_part; [exact Hm|now left]|now apply silent_debug|exact Hi].
        + cbn [exec]. apply pl_step; auto using tight_keep.
          * intros. apply IH; auto. lia.
          * cbn beta iota. lia. }
    destruct Hm as (H1 & H2 & H3). inversion H2 as [m0 Hl _]; subst m0.
    apply (H (layers m)); auto; [lia|]. now split.
  Qed.

  Lemma debug_does m c c' s st : fine m -> silent c c' -> inside c -> G st ->
    forall o, Does E P m c s st o ->
    (allow = true /\ exists p, o = Panicked p /\ (p = PSlice \/ p = POverflow)) \/
    Does E P (plain m) c' s (plain_state st) (plain_outcome o).
  Proof.
    intros Hm Hc Hi Hg [r st'|p|] Ho; cbn [Does plain_outcome] in *.
    - destruct Ho as [n Ho]. right. exists n. destruct (plain_follows n m c c' s st Hm Hc Hi Hg) as [H|[(_ & p & H & _)|[H _]]];
        unfold unfinished in *; rewrite Ho in H; try discriminate. exact H.
    - destruct Ho as [n Ho]. destruct (plain_follows n m c c' s st Hm Hc Hi Hg) as [H|[(Ha & q & H & Hq)|[H _]]];
        unfold unfinished in *; rewrite Ho in H; try discriminate.
      + left. split; [exact Ha|]. injection H as <-. now exists p.
      + right. now exists n.
    - right. intros n. destruct (exec n E P (plain m) c' s (plain_state st)) eqn:En; [| |reflexivity]; exfalso;
        (destruct (debug_follows n (S D * n) m c c' s st (le_n _) Hm Hc Hi Hg) as [H|[(_ & q & H & _)|[H _]]];
         unfold unfinished in *; [congruence| |]; rewrite (Ho (S D * n)%nat) in H; [discriminate|]; cbn in H; congruence).
  Qed.
  Lemma plain_does m c c' s st : fine m -> silent c c' -> inside c -> G st ->
    forall o', (allow = false \/ o' <> Never) -> Does E P (plain m) c' s (plain_state st) o' ->
    (allow = true /\ exists p, Panics E P m c s st p /\ (p = PSlice \/ p = POverflow)) \/
    exists o, Does E P m c s st o /\ o' = plain_outcome o.
  Proof.
    intros Hm Hc Hi Hg o' Hne Ho.
    assert (Hcase : forall n x, exec n E P (plain m) c' s (plain_state st) = x -> x <> OOF ->
      (allow = true /\ exists p, Panics E P m c s st p /\ (p = PSlice \/ p = POverflow)) \/
      exists y, exec (S D * n) E P m c s st = y /\ x = plain_res y).
    { intros n x Hx Hoof. destruct (debug_follows n (S D * n) m c c' s st (le_n _) Hm Hc Hi Hg) as [H|[(Ha & q & H & Hq)|[H _]]].
      - unfold unfinished in H. congruence.
      - left. split; [exact Ha|]. exists q. split; [now exists (S D * n)%nat|exact Hq].
      - right. eexists. split; [reflexivity|]. now rewrite <- Hx. }
    destruct o' as [r st'|p|]; cbn [Does] in Ho.
    - destruct Ho as [n Ho]. destruct (Hcase n _ Ho) as [H|(y & Hy & Hx)]; [discriminate|now left|]. right.
      destruct y as [r1 st1|q|]; try discriminate. injection Hx as -> ->. exists (Done r1 st1). split; [now exists (S D * n)%nat|reflexivity].
    - destruct Ho as [n Ho]. destruct (Hcase n _ Ho) as [H|(y & Hy & Hx)]; [discriminate|now left|]. right.
      destruct y as [r1 st1|q|]; try discriminate. injection Hx as ->. exists (Panicked q). split; [now exists (S D * n)%nat|reflexivity].
    - destruct Hne as [Ha|Hne]; [|congruence]. right. exists Never. split; [|reflexivity]. intros n.
      destruct (plain_follows n m c c' s st Hm Hc Hi Hg) as [H|[(Ht & _)|[H _]]]; [exact H|congruence|].
      rewrite (Ho n) in H. destruct (exec n E P m c s st); [discriminate|discriminate|reflexivity].
  Qed.
End Both.

(* ---------- the two readings ---------- *)

Lemma debug_loose E P m c c' s st o :
  debug_blind E -> debug_placed m -> scopes_debug_placed st -> silent c c' -> Does E P m c s st o ->
  (exists p, o = Panicked p /\ (p = PSlice \/ p = POverflow)) \/
  Does E P (plain m) c' s (plain_state st) (plain_outcome o).
Proof.
  intros HE Hm Hs Hc Ho. destruct (placed_shallow m Hm) as [D1 H1]. destruct (scopes_shallow st Hs) as [D2 H2].
  destruct (debug_does E P (Nat.max D1 D2) true HE (or_introl eq_refl) m c c' s st) with (o := o) as [[_ H]|H]; auto.
  - split; [exact Hm|]. split; [|now left]. eapply shallow_more; [|exact H1]. lia.
  - now left.
  - intros stack sc n x Hx1 Hx2 Hx3. split; [eapply Hs; eauto|]. split; [|now left].
    eapply shallow_more; [|eapply H2; eauto]. lia.
Qed.
Lemma debug_loose_back E P m c c' s st r st' :
  debug_blind E -> debug_placed m -> scopes_debug_placed st -> silent c c' ->
  Runs E P (plain m) c' s (plain_state st) r st' ->
  (exists p, Panics E P m c s st p /\ (p = PSlice \/ p = POverflow)) \/
  (exists st1, Runs E P m c s st r st1 /\ st' = plain_state st1).
Proof.
  intros HE Hm Hs Hc Ho. destruct (placed_shallow m Hm) as [D1 H1]. destruct (scopes_shallow st Hs) as [D2 H2].
  destruct (plain_does E P (Nat.max D1 D2) true HE (or_introl eq_refl) m c c' s st) with (o' := Done r st')
    as [[_ H]|(o & Hd & He)]; auto.
  - split; [exact Hm|]. split; [|now left]. eapply shallow_more; [|exact H1]. lia.
  - now left.
  - intros stack sc n x Hx1 Hx2 Hx3. split; [eapply Hs; eauto|]. split; [|now left].
    eapply shallow_more; [|eapply H2; eauto]. lia.
  - right. discriminate.
  - right. destruct o as [r1 st1|p|]; try discriminate. injection He as -> ->. now exists st1.
Qed.

Section Ascii.
  Variables (E : env) (P : parser) (m : matcher) (c c' : ctx) (s : sid) (st : state).
  Hypotheses (H1 : debug_blind E) (H2 : tame E)
    (H3 : fitting (p_src P) (fun _ => True) (fun _ => True) sane_find E)
    (H4 : slen (p_src P) < isize_bound) (H5 : ascii_only (p_src P))
    (H6 : debug_placed m) (H7 : scopes_debug_placed st)
    (H8 : bounded (fun _ => True) sane_find m) (H9 : scopes_bounded (fun _ => True) sane_find st)
    (H10 : rs (c_off c) <= re (c_off c) <= slen (p_src P)) (H11 : silent c c').

  Lemma ascii_debug o : Does E P m c s st o -> Does E P (plain m) c' s (plain_state st) (plain_outcome o).
  Proof.
    intros Ho. destruct (placed_shallow m H6) as [D1 K1]. destruct (scopes_shallow st H7) as [D2 K2].
    destruct (debug_does E P (Nat.max D1 D2) false H1 (or_intror (conj H2 (conj H3 (conj H4 H5)))) m c c' s st) with (o := o)
      as [[H _]|H]; auto.
    - split; [exact H6|]. split; [|now right]. eapply shallow_more; [|exact K1]. lia.
    - right. now repeat split.
    - intros stack sc n x Hx1 Hx2 Hx3. split; [eapply H7; eauto|]. split; [|right; eapply H9; eauto].
      eapply shallow_more; [|eapply K2; eauto]. lia.
    - discriminate.
  Qed.
  Lemma ascii_plain o' : Does E P (plain m) c' s (plain_state st) o' ->
    exists o, Does E P m c s st o /\ o' = plain_outcome o.
  Proof.
    intros Ho. destruct (placed_shallow m H6) as [D1 K1]. destruct (scopes_shallow st H7) as [D2 K2].
    destruct (plain_does E P (Nat.max D1 D2) false H1 (or_intror (conj H2 (conj H3 (conj H4 H5)))) m c c' s st) with (o' := o')
      as [[H _]|H]; auto.
    - split; [exact H6|]. split; [|now right]. eapply shallow_more; [|exact K1]. lia.
    - right. now repeat split.
    - intros stack sc n x Hx1 Hx2 Hx3. split; [eapply H7; eauto|]. split; [|right; eapply H9; eauto].
      eapply shallow_more; [|eapply K2; eauto]. lia.
    - discriminate.
  Qed.
End Ascii.

(* closures that hand back what they get, whatever the store *)
Lemma handing_blind chk w sp d re : debug_blind
  (mkEnv chk (fun _ a _ _ st => Ret (Ok (SToken a)) st) (fun _ e _ _ st => Ret (Err e) st)
         (fun _ e _ st => Ret (Err e) st) (fun _ _ _ st => Ret (Err FFail) st) w sp d re).
Proof.
  intros c c' st _. cbn zeta. cbn [e_map_ok e_map_err e_catch e_user].
  repeat split; intros x st' H; injection H as _ <-; reflexivity.
Qed.

(* a check for [debug_placed] *)
Fixpoint placed_check (f : nat) (m : matcher) : bool :=
  match f with
  | O => false
  | S f =>
      match m with MDebug (Some x) _ => m_consuming x | _ => true end &&
      match m with MRegister ms => forallb (fun x => negb (wraps x)) ms | _ => true end &&
      forallb (placed_check f) (parts m)
  end.
Lemma placed_by f m : placed_check f m = true -> debug_placed m.
Proof.
  revert m. induction f as [|f IH]; intros m H; [discriminate|]. cbn [placed_check] in H.
  apply andb_prop in H as [H H3]. apply andb_prop in H as [H1 H2]. constructor.
  - intros x d ->. exact H1.
  - intros ms x d -> Hx. rewrite forallb_forall in H2. apply H2 in Hx. discriminate.
  - intros x Hx. apply IH. rewrite forallb_forall in H3. now apply H3.
Qed.

Lemma shown_text E P c k v : rs (c_off c) + k <= usize_max -> rs (c_off c) <= re (c_off c) ->
  debug_range E P c k = Val v <->
  exists e, (e = rs (c_off c) + k /\ e <= re (c_off c) \/ e = re (c_off c) /\ e < rs (c_off c) + k) /\
    Spec.window (p_src P) (rs (c_off c)) e v /\ sliceable (p_src P) (mkR (rs (c_off c)) e).
Proof.
  intros Hk Hr. unfold debug_range, src_slice, usize_add. rewrite (proj2 (N.leb_le _ _) Hk). cbn [or_die].
  set (e0 := if re (c_off c) <? rs (c_off c) + k then re (c_off c) else rs (c_off c) + k).
  assert (He : forall e, e = e0 <-> (e = rs (c_off c) + k /\ e <= re (c_off c) \/ e = re (c_off c) /\ e < rs (c_off c) + k)).
  { intros e. unfold e0. destruct (N.ltb_spec (re (c_off c)) (rs (c_off c) + k)); lia. }
  split.
  - destruct (slice (p_src P) (rs (c_off c)) e0) as [x|] eqn:Es; [|discriminate]. intros H. injection H as <-.
    exists e0. split; [now apply He|]. apply slice_iff in Es as (W & B1 & B2). split; [exact W|].
    apply window_len in W. unfold sliceable. cbn [rs re]. repeat split; auto; lia.
  - intros (e & H & W & S1 & S2 & S3 & S4). cbn [rs re] in *. apply He in H as ->.
    replace (slice (p_src P) (rs (c_off c)) e0) with (Some v); [reflexivity|]. symmetry. now apply slice_iff.
Qed.
