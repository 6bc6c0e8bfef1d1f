(* Where grammars end up, with pins, error tokens and references by name. *)
From Verif Require Import Macros Spec SpecMore Mono FrameProofs CombProofs AtomProofs ProgramProofs ScopeProofs BoundsProofs SpecGuard.
Open Scope string_scope.
Open Scope list_scope.
Open Scope N_scope.

Section Landing.
  Variables (E : env) (P : parser) (body : str -> option matcher).
  Hypothesis HE : tame E.
  Hypothesis Hlen : slen (p_src P) < isize_bound.
  Notation L := (slen (p_src P)).
  Notation onward := (onward body).
  Notation keeps_names := (keeps_names body).
  Notation known := (known body).

  Hypothesis Hbody : forall n b, body n = Some b -> onward false false b /\ keeps_names b.

  Definition stop_of (st : state) (a : addr) : N := re (tk_mr (tok st a)).
  Definition low (h : nat) (st : state) : Prop := forall a, (h <= a)%nat -> stop_of st a <= L.
  Fixpoint lands_x (lo start : N) (tight : bool) (st : state) (x : success) : Prop :=
    match x with
    | SToken a => lo <= stop_of st a <= L /\ (tight = true -> forall k, In k (tk_kids (tok st a)) -> lo <= stop_of st k)
    | SProxy a => lo <= stop_of st a <= L /\ (forall k, In k (tk_kids (tok st a)) -> lo <= stop_of st k)
    | SSkip z => (0 <= z)%Z /\ start + Z.to_N z <= L
    | SBreak _ p => lands_x lo start tight st p
    | SNone => True
    | SContinue _ _ | SStop => False
    end.
  Definition lands (lo start : N) (tight : bool) (st : state) (r : mres) : Prop :=
    match r with Ok x => lands_x lo start tight st x | Err _ => True end.
  Definition low_of (back : bool) (start : N) : N := if back then 0 else start.

  Definition landing (rec : recT) : Prop :=
    forall back tight m c s st r st', onward back tight m -> keeps_names m -> known s st ->
      rs (c_off c) <= L -> re (c_off c) = L -> rec m c s st = Ret r st' ->
      low (heap_size st) st' /\ known s st' /\ lands (low_of back (rs (c_off c))) (rs (c_off c)) tight st' r.
  Definition looking (rec : recT) : Prop :=
    forall m c s st r st', look m \/ aside m -> keeps_names m -> known s st -> rec m c s st = Ret r st' ->
      low (heap_size st) st' /\ known s st' /\
      match r with Ok (SToken a) => stop_of st' a <= L | Ok (SSkip _) => True | Ok _ => False | Err _ => True end.

  (* ---------- plain facts ---------- *)

  Lemma lands_lower lo lo' start tight st r : lo' <= lo -> lands lo start tight st r -> lands lo' start tight st r.
  Proof.
    intros Hl. destruct r as [x|e]; [|auto]. cbn [lands].
    induction x as [a|a|z|n p IH|n p IH| |]; cbn [lands_x]; auto.
    - intros [H1 H2]. split; [lia|]. intros Ht k Hk. specialize (H2 Ht k Hk). lia.
    - intros [H1 H2]. split; [lia|]. intros k Hk. specialize (H2 k Hk). lia.
  Qed.
  Lemma lands_x_lower lo lo' start tight st x : lo' <= lo -> lands_x lo start tight st x -> lands_x lo' start tight st x.
  Proof. intros Hl H. apply (lands_lower lo lo' start tight st (Ok x) Hl H). Qed.
  Lemma lands_loose lo start tight st r : lands lo start true st r -> lands lo start tight st r.
  Proof.
    destruct r as [x|e]; [|auto]. cbn [lands].
    induction x as [a|a|z|n p IH|n p IH| |]; cbn [lands_x]; auto. intros [H1 H2]. auto.
  Qed.
  Lemma lands_free lo start tight st r : lands lo start tight st r -> lands lo start false st r.
  Proof.
    destruct r as [x|e]; [|auto]. cbn [lands].
    induction x as [a|a|z|n p IH|n p IH| |]; cbn [lands_x]; auto. intros [H1 H2]. split; [exact H1|discriminate].
  Qed.
  Lemma lands_same lo start tight st st' r :
    (forall a, stop_of st' a = stop_of st a /\ tk_kids (tok st' a) = tk_kids (tok st a)) ->
    lands lo start tight st r -> lands lo start tight st' r.
  Proof.
    intros Hs. destruct r as [x|e]; [|auto]. cbn [lands].
    induction x as [a|a|z|n p IH|n p IH| |]; cbn [lands_x]; auto; destruct (Hs a) as [-> ->]; intros [H1 H2];
      (split; [exact H1|]); intros; destruct (Hs k) as [-> _]; auto.
  Qed.
  Lemma low_le back start : low_of back start <= start.
  Proof. unfold low_of. destruct back; lia. Qed.

  Lemma known_scopes s st st' : st_scopes st' = st_scopes st -> known s st -> known s st'.
  Proof. intros H Hk n m b. unfold sc_get, stack_of. rewrite H. apply Hk. Qed.
  Lemma get_set st s n v n' w : sc_get (sc_set st s n v) s n' = Some w -> sc_get st s n' = Some w \/ (n' = n /\ w = v).
  Proof.
    unfold sc_get, sc_set, set_stack, stack_of. cbn [st_scopes]. intros H.
    destruct (Nat.lt_ge_cases s (List.length (st_scopes st))) as [Hl|Hl].
    - rewrite nth_upd_same in H by exact Hl. destruct (list_eq_dec ascii_dec n n') as [->|Hn].
      + rewrite stack_get_set_same in H. injection H as <-. auto.
      + rewrite stack_get_set_other in H by exact Hn. auto.
    - rewrite upd_overflow in H by exact Hl. auto.
  Qed.
  Lemma known_set s st n v : (forall m b, v = VMatcher m -> body n = Some b -> m = b) -> known s st -> known s (sc_set st s n v).
  Proof.
    intros Hv Hk n' m b H Hb. apply get_set in H as [H|[-> H]]; [now apply (Hk _ _ _ H)|]. symmetry in H. eapply Hv; eauto.
  Qed.
  Lemma known_before m s st : keeps_names m -> known s st -> known s (before_exec m s st).
  Proof.
    intros Hm Hk. unfold before_exec. destruct (m_custom m) eqn:Ec; [|exact Hk].
    apply known_set; [|exact Hk]. intros m' b H Hb. injection H as <-. inversion Hm as [m0 H1 _]; subst.
    symmetry. now apply H1.
  Qed.
  Lemma part_names m x : keeps_names m -> In x (parts m) -> keeps_names x.
  Proof. intros H Hx. inversion H; subst. auto. Qed.

  Lemma low_alloc h st t : low h st -> re (tk_mr t) <= L -> low h (alloc st t).
  Proof.
    intros H Ht a Ha. unfold stop_of. destruct (Nat.lt_trichotomy a (heap_size st)) as [Hl|[->|Hl]].
    - rewrite tok_alloc_old by exact Hl. now apply H.
    - change (heap_size st) with (next_addr st). now rewrite tok_alloc_new.
    - rewrite dead_tok; [cbn; lia|]. cbn. rewrite app_length. cbn. unfold heap_size in Hl. lia.
  Qed.
  Lemma low_set h st a t : low h st -> re (tk_mr t) <= L -> low h (set_tok st a t).
  Proof.
    intros H Ht b Hb. unfold stop_of. destruct (Nat.eq_dec a b) as [<-|Hn].
    - destruct (Nat.lt_ge_cases a (heap_size st)) as [Hl|Hl].
      + now rewrite tok_set_same.
      + rewrite tok_set_dead by exact Hl. now apply H.
    - rewrite tok_set_other by exact Hn. now apply H.
  Qed.
  Lemma low_heap h st st' : st_heap st' = st_heap st -> low h st -> low h st'.
  Proof. intros H Hl a Ha. unfold stop_of, tok. rewrite H. now apply Hl. Qed.

  Lemma alloc_new st t : stop_of (alloc st t) (next_addr st) = re (tk_mr t) /\ tk_kids (tok (alloc st t) (next_addr st)) = tk_kids t.
  Proof. unfold stop_of. now rewrite tok_alloc_new. Qed.
  Lemma same_tok st a t : re (tk_mr t) = stop_of st a -> tk_kids t = tk_kids (tok st a) ->
    forall b, stop_of (set_tok st a t) b = stop_of st b /\ tk_kids (tok (set_tok st a t) b) = tk_kids (tok st b).
  Proof.
    intros H1 H2 b. unfold stop_of. destruct (Nat.eq_dec a b) as [<-|Hn].
    - destruct (Nat.lt_ge_cases a (heap_size st)) as [Hl|Hl].
      + rewrite tok_set_same by exact Hl. auto.
      + now rewrite tok_set_dead.
    - now rewrite tok_set_other.
  Qed.

  Lemma low_top st : low (heap_size st) st.
  Proof. intros a Ha. unfold stop_of. rewrite dead_tok by exact Ha. cbn. lia. Qed.
  Lemma low_grown h st st' : low h st -> preserved (heap_size st) st st' -> low (heap_size st) st' -> low h st'.
  Proof.
    intros H1 [_ H2] H3 a Ha. destruct (Nat.lt_ge_cases a (heap_size st)) as [Hl|Hl]; [|now apply H3].
    unfold stop_of. rewrite H2 by exact Hl. now apply H1.
  Qed.

  (* a new leaf *)
  Lemma leaf_lands h s lo start tight st t : low h st -> known s st -> tk_kids t = [] -> lo <= re (tk_mr t) <= L ->
    low h (alloc st t) /\ known s (alloc st t) /\ lands lo start tight (alloc st t) (Ok (SToken (next_addr st))).
  Proof.
    intros H1 H2 Hk Ht. split; [apply low_alloc; [exact H1|lia]|]. split; [now apply (known_scopes s st)|]. cbn [lands lands_x].
    destruct (alloc_new st t) as [-> ->]. split; [exact Ht|]. rewrite Hk. intros _ k [].
  Qed.
  Lemma error_lands h s lo start tight msg r st x st' : low h st -> known s st -> lo <= re r <= L ->
    error_token_at E P msg r st = Ret x st' -> low h st' /\ known s st' /\ lands lo start tight st' x.
  Proof.
    intros H1 H2 Hr H. unfold error_token_at in H. destruct (error_string E P msg r); [|discriminate].
    injection H as <- <-. now apply leaf_lands.
  Qed.
  Lemma set_low h st a t : low h st -> re (tk_mr t) = stop_of st a -> (h <= a)%nat -> low h (set_tok st a t).
  Proof. intros H1 H2 H3. apply low_set; [exact H1|]. rewrite H2. now apply H1. Qed.

  (* ---------- atoms ---------- *)

  Lemma slice_inside a b w : src_slice P a b = Val w -> a + slen w = b /\ b <= L.
  Proof.
    unfold src_slice. destruct (slice _ _ _) as [w'|] eqn:Ew; cbn; [|discriminate]. injection 1 as <-.
    apply slice_some in Ew as (pre & post & Ew & H1 & H2 & _). rewrite Ew, !slen_app. lia.
  Qed.
  Lemma str_inside c v r : matches_str P c v = Val (Some r) ->
    rs (c_off c) < re r <= L /\ re r = rs (c_off c) + slen v.
  Proof.
    intros H. unfold matches_str in H. destruct (N.eqb_spec (slen v) 0) as [|Hn]; [discriminate|].
    destruct (src_slice P _ _) as [w|] eqn:Ew; [|discriminate]. apply slice_inside in Ew.
    destruct (starts_with v w) eqn:Es; [|discriminate]. apply starts_with_iff in Es as [rest ->].
    injection H as <-. cbn [clone_with_len rs re]. rewrite slen_app in Ew. lia.
  Qed.
  Lemma re_inside c f r : sane_find f -> matches_regexp P c f = Val (Some r) ->
    rs r = rs (c_off c) /\ rs r <= re r <= L.
  Proof.
    intros Hf H. unfold matches_regexp in H. destruct (src_slice P _ _) as [w|] eqn:Ew; [|discriminate].
    apply slice_inside in Ew. destruct (f w) as [[ms me]|] eqn:Efw; [|discriminate].
    destruct (N.eqb_spec (ms + rs (c_off c)) (rs (c_off c))); [|discriminate]. injection H as <-. cbn [rs re].
    apply Hf in Efw. lia.
  Qed.
  Lemma scan_inside c ep esc : forall f index prev parts i v,
    seq_scan f P c ep esc index prev parts = Val (Found i v) -> index <= i /\ i + slen ep <= L.
  Proof.
    assert (Hat : forall v off r, matches_str_at P c v off = Val (Some r) -> re r = off + slen v /\ re r <= L).
    { intros v off r H. unfold matches_str_at in H. destruct (_ || _); [discriminate|].
      destruct (src_slice P _ _) as [w|] eqn:Ew; [|discriminate]. apply slice_inside in Ew.
      destruct (starts_with v w) eqn:Es; [|discriminate]. apply starts_with_iff in Es as [rest ->].
      injection H as <-. cbn [re]. rewrite slen_app in Ew. lia. }
    induction f as [|f IH]; intros index prev parts i v H; cbn [seq_scan] in H; [discriminate|].
    destruct (_ <=? _); [discriminate|].
    destruct (matches_str_at P c ep index) as [[r|]|] eqn:E1; try discriminate.
    - destruct (if prev <? index then _ else _); [|discriminate]. injection H as <- <-. apply Hat in E1. lia.
    - destruct (matches_str_at P c esc index) as [[r|]|] eqn:E2; try discriminate.
      + destruct (if prev <? index then _ else _); [|discriminate]. apply IH in H. apply Hat in E2. lia.
      + apply IH in H. lia.
  Qed.
  Lemma sequence_lands fs fe fx name c s st r st' : exec_sequence E P fs fe fx name c s st = Ret r st' ->
    (st' = st /\ exists e, r = Err e) \/
    exists t, r = Ok (SToken (next_addr st)) /\ st' = alloc st t /\ tk_kids t = [] /\ rs (c_off c) < re (tk_mr t) <= L.
  Proof.
    intros H. unfold exec_sequence in H. destruct (fetch_value st s fs) as [[sp|]|]; try discriminate;
      [|injection H as <- <-; unfold not_a_string; eauto].
    destruct (slen sp =? 0); [discriminate|].
    destruct (fetch_value st s fe) as [[ep|]|]; try discriminate; [|injection H as <- <-; unfold not_a_string; eauto].
    destruct (slen ep =? 0); [discriminate|].
    destruct (fetch_value st s fx) as [[esc|]|]; try discriminate; [|injection H as <- <-; unfold not_a_string; eauto].
    destruct (matches_str _ _ _) as [[r0|]|] eqn:Em; try discriminate.
    - destruct (seq_scan _ _ _ _ _ _ _ _) as [[j v| |]|] eqn:Es; try discriminate.
      + destruct (dbg E P _ _); [|discriminate]. injection H as <- <-. right. eexists. split; [reflexivity|].
        split; [reflexivity|]. split; [reflexivity|]. cbn. apply str_inside in Em. apply scan_inside in Es.
        cbn [c_off clone_with_name] in Em. lia.
      + destruct (dbg E P _ 10); [|discriminate]. injection H as <- <-. eauto.
    - destruct (dbg E P _ 10); [|discriminate]. injection H as <- <-. eauto.
  Qed.

  (* ---------- discarding ---------- *)

  Lemma errors_low h st l t : low h st -> (forall e, In e l -> (h <= e)%nat) -> re (tk_mr t) <= L ->
    re (tk_mr t) <= re (tk_mr (add_errors P st l t)) <= L.
  Proof.
    intros Hl. unfold add_errors. revert t. induction l as [|e l IH]; intros t He Ht; cbn [fold_left]; [lia|].
    destruct (widen_fields P (tk_mr (tok st e)) (set_kids (tk_kids t ++ [e]) t)) as (_ & _ & _ & _ & _ & _ & _ & _ & _ & Hm).
    assert (H1 : re (tk_mr (tok st e)) <= L) by (apply (Hl e), He; now left).
    assert (H2 : re (tk_mr (widen P (tk_mr (tok st e)) (set_kids (tk_kids t ++ [e]) t))) =
                 N.max (re (tk_mr t)) (re (tk_mr (tok st e)))) by exact Hm.
    specialize (IH (widen P (tk_mr (tok st e)) (set_kids (tk_kids t ++ [e]) t))).
    rewrite H2 in IH. specialize (IH (fun x Hx => He x (or_intror Hx)) (N.max_lub _ _ _ Ht H1)). destruct IH as [IH1 IH2]. split; [|exact IH2]. etransitivity; [|exact IH1]. lia.
  Qed.
  Lemma skip_lands h s start a st x st' : low h st -> known s st -> forest h st -> (h <= a < heap_size st)%nat ->
    start <= stop_of st a -> skip_token E P start a st = Ret x st' ->
    low h st' /\ known s st' /\
    ((exists z, x = SSkip z /\ Z.of_N start + z = Z.of_N (stop_of st a))%Z \/
     exists b, x = SToken b /\ stop_of st a <= stop_of st' b <= L).
  Proof.
    intros Hl Hk Hf Ha Hs H. unfold skip_token in H.
    destruct (error_tokens _ st a) as [l|] eqn:El; [|discriminate].
    assert (Hle : forall k, In k l -> (h <= k)%nat).
    { intros k Hin. enough (h <= k < heap_size st)%nat by lia.
      eapply (error_tokens_within st (fun k => (h <= k < heap_size st)%nat)); [now apply forest_closed| |exact El|exact Hin]; auto. }
    assert (Hst : stop_of st a <= L) by (apply Hl; lia).
    assert (He : stop_of st a <= re (tk_mr (add_errors P st l (std_token P "Error" (mkR start (re (tk_mr (tok st a))))))) <= L).
    { exact (errors_low h st l (std_token P "Error" (mkR start (re (tk_mr (tok st a))))) Hl Hle Hst). }
    set (t := add_errors P st l _) in *.
    destruct l as [|e l].
    - rewrite isize_sub_small in H by (unfold stop_of in *; pose proof Hlen; lia). cbn [or_die] in H. injection H as <- <-.
      split; [apply low_alloc; [exact Hl|lia]|]. split; [now apply (known_scopes s st)|]. left. eexists. split; [reflexivity|].
      unfold stop_of. lia.
    - injection H as <- <-. split; [apply low_alloc; [exact Hl|lia]|]. split; [now apply (known_scopes s st)|].
      right. eexists. split; [reflexivity|]. now rewrite (proj1 (alloc_new st t)).
  Qed.

  (* ---------- programs ---------- *)

  Section Pass.
    Variables (rec : recT) (back tight : bool) (c : ctx) (s : sid) (pt : addr) (st_s : state) (i : pinfo).
    Hypothesis Hsound : forall h, sound h rec.
    Hypothesis Hland : landing rec.
    Hypothesis Hlook : looking rec.
    Hypothesis Hpt : heap_size st_s = pt.
    Hypothesis Hcs : rs (c_off c) <= L.
    Hypothesis Hce : re (c_off c) = L.
    Notation start := (rs (c_off c)).
    Notation base := (low_of back start).

    Record J (st : state) (ps : pst) : Prop := mkJ {
      j_stage : stage pt st_s st ps;
      j_low : low pt st;
      j_known : known s st;
      j_off : base <= ps_off ps <= L;
      j_end : re (ps_mr ps) <= L;
      j_mr : rs (ps_mr ps) = usize_max \/ base <= re (ps_mr ps);
      j_reach : back = false -> ps_off ps = start \/ ps_off ps <= re (ps_mr ps);
      j_kids : tight = true -> pi_stop i = false -> forall k, In k (ps_kids ps) -> base <= stop_of st k;
      j_stop : pi_stop i = true -> ps_off ps = start /\ ps_kids ps = [] }.

    (* what the patterns of the program are *)
    Definition pat_ok (x : matcher) : Prop :=
      keeps_names x /\
      (if pi_stop i then onward back tight x else onward back false x \/ (tight = false /\ aside x)).

    Definition later (ps ps' : pst) : Prop :=
      (back = false -> ps_off ps <= ps_off ps') /\ re (ps_mr ps) <= re (ps_mr ps').
    Lemma later_refl ps : later ps ps.
    Proof. split; lia. Qed.
    Lemma later_trans a b d : later a b -> later b d -> later a d.
    Proof. intros [H1 H2] [H3 H4]. split; [intros Hb; specialize (H1 Hb); specialize (H3 Hb); lia|lia]. Qed.

    Lemma low_back n : base <= n -> low_of back n >= base.
    Proof. unfold low_of. destruct back; lia. Qed.

    Lemma J_below st st1 ps : J st ps -> preserved (heap_size st) st st1 -> forest (S pt) st1 ->
      low (heap_size st) st1 -> known s st1 -> J st1 ps.
    Proof.
      intros [A1 A2 A3 A4 A5 A6 A7 A8 A9] Hp Hf Hl Hk.
      assert (Hsz : (S pt <= heap_size st)%nat) by exact (proj1 A1).
      split; auto.
      - eapply stage_below; [exact Hpt|apply le_n|exact A1| |exact Hf]. eapply preserved_le; [exact Hsz|exact Hp].
      - eapply low_grown; eauto.
      - intros Ht Hs k Hin. unfold stop_of. destruct A1 as (_ & _ & _ & _ & A1). specialize (A1 k Hin).
        rewrite (proj2 Hp) by lia. now apply A8.
    Qed.

    Definition inside (st : state) (l : list addr) : Prop := forall a, In a l -> (S pt <= a < heap_size st)%nat.
    Lemma J_rec x c1 st ps r st1 : J st ps -> rec x c1 s st = Ret r st1 ->
      (low (heap_size st) st1 /\ known s st1) -> J st1 ps /\ inside st1 (result_tokens r).
    Proof.
      intros HJ Er [Hl Hk]. pose proof (j_stage _ _ HJ) as (H1 & H2 & _).
      pose proof (Hsound (heap_size st) _ _ _ _ _ _ (le_n _) (forest_top st) Er) as (P1 & P2 & P3).
      pose proof (Hsound (S pt) _ _ _ _ _ _ H1 H2 Er) as (Q1 & Q2 & Q3).
      split; [eapply J_below; eauto|exact Q3].
    Qed.

    Lemma set_same_all st a t : re (tk_mr t) = stop_of st a -> tk_kids t = tk_kids (tok st a) ->
      forall b, stop_of (set_tok st a t) b = stop_of st b.
    Proof. intros H1 H2 b. now apply same_tok. Qed.

    Lemma J_add a fwd u st ps ps' st' : J st ps -> pi_stop i = false -> (S pt <= a < heap_size st)%nat ->
      (tight = true \/ u = true -> base <= stop_of st a) ->
      add_token P pt a fwd u ps st = Ret ps' st' ->
      J st' ps' /\ (forall b, stop_of st' b = stop_of st b) /\ (forall b, tk_kind (tok st' b) = tk_kind (tok st b)) /\
      heap_size st' = heap_size st /\
      ps_off ps' = (if u then stop_of st a else ps_off ps) /\ re (ps_mr ps) <= re (ps_mr ps').
    Proof.
      intros HJ Hns Ha Hb H. pose proof (add_token_stage P pt pt st_s Hpt (le_n _) a fwd u ps st ps' st' (j_stage _ _ HJ) Ha H) as [Hst Hsz].
      pose proof HJ as [A1 A2 A3 A4 A5 A6 A7 A8 A9].
      assert (HL : stop_of st a <= L) by (apply A2; lia).
      unfold add_token in H. destruct (_ && _ && _ && _); [discriminate|].
      set (t1 := if _ && _ then _ else _) in H.
      assert (T1 : re (tk_mr t1) = stop_of st a) by (unfold t1; destruct (_ && _); reflexivity).
      assert (T2 : tk_kids t1 = tk_kids (tok st a)) by (unfold t1; destruct (_ && _); reflexivity).
      assert (T3 : tk_kind t1 = tk_kind (tok st a)) by (unfold t1; destruct (_ && _); reflexivity).
      clearbody t1. injection H as <- <-. cbn [ps_off ps_mr ps_kids] in *.
      assert (Hsame : forall b, stop_of (set_tok st a (set_parent (Some pt) t1)) b = stop_of st b).
      { apply set_same_all; auto. }
      split; [|split; [exact Hsame|split; [|split; [exact Hsz|split]]]].
      - split; cbn [ps_off ps_mr ps_kids ps_cr]; auto.
        + intros b Hb0. rewrite Hsame. now apply A2.
        + destruct u; [|exact A4]. rewrite T1. split; [apply Hb; auto|exact HL].
        + destruct u; [|exact A5]. unfold contain. cbn [re]. rewrite T1. destruct (_ <? stop_of st a); lia.
        + destruct u; [|exact A6]. right. unfold contain. cbn [re]. rewrite T1.
          specialize (Hb (or_intror eq_refl)). destruct (N.ltb_spec (re (ps_mr ps)) (stop_of st a)); lia.
        + intros Hbk. destruct u; [|auto]. right. unfold contain. cbn [re]. rewrite T1.
          destruct (N.ltb_spec (re (ps_mr ps)) (stop_of st a)); lia.
        + intros Ht _ k Hk. rewrite Hsame. apply in_app_or in Hk as [Hk|[<-|[]]]; [now apply A8|]. apply Hb. auto.
        + congruence.
      - intros b. destruct (Nat.eq_dec a b) as [<-|Hn].
        + rewrite tok_set_same by (unfold heap_size in Ha; lia). exact T3.
        + now rewrite tok_set_other.
      - destruct u; [exact T1|reflexivity].
      - destruct u; [|lia]. unfold contain. cbn [re]. destruct (N.ltb_spec (re (ps_mr ps)) (re (tk_mr t1))); lia.
    Qed.

    Lemma J_extract self u lo l : forall st ps ps' st', J st ps -> pi_stop i = false ->
      (forall a, In a l -> (S pt <= a < heap_size st)%nat /\ base <= stop_of st a /\ (back = false -> lo <= stop_of st a)) ->
      (back = false -> lo <= ps_off ps) ->
      extract_children P pt self u l ps st = Ret ps' st' ->
      J st' ps' /\ (back = false -> lo <= ps_off ps') /\ re (ps_mr ps) <= re (ps_mr ps').
    Proof.
      induction l as [|k l IH]; intros st ps ps' st' HJ Hns Hl Hlo H; cbn [extract_children] in H.
      - injection H as <- <-. split; [exact HJ|]. split; [exact Hlo|lia].
      - destruct (should_discard (tok st k)); [eapply IH; eauto; intros; apply Hl; now right|].
        destruct (Nat.eqb k self); [discriminate|].
        destruct (add_token P pt k false u ps st) as [ps1 st1|p|] eqn:Ea; try discriminate.
        destruct (Hl k (or_introl eq_refl)) as (K1 & K2 & K3).
        apply J_add in Ea as (B1 & B2 & B3 & B4 & B5 & B6); auto.
        apply IH in H as (C1 & C2 & C3); auto.
        + split; [exact C1|]. split; [exact C2|lia].
        + intros a Ha. rewrite B2, B4. apply Hl. now right.
        + intros Hb. rewrite B5. destruct u; auto.
    Qed.
    Lemma J_proxy a u st ps ps' st' : J st ps -> pi_stop i = false -> (S pt <= a < heap_size st)%nat ->
      low_of back (ps_off ps) <= stop_of st a ->
      (forall k, In k (tk_kids (tok st a)) -> low_of back (ps_off ps) <= stop_of st k) ->
      handle_extract P pt a u ps st = Ret ps' st' ->
      J st' ps' /\ later ps ps'.
    Proof.
      intros HJ Hns Ha H1 H2 H. unfold handle_extract in H.
      assert (HL : stop_of st a <= L) by (apply (j_low _ _ HJ); lia).
      pose proof (j_off _ _ HJ) as Hoff.
      assert (Hlow : base <= low_of back (ps_off ps)) by (pose proof (low_back (ps_off ps)); lia).
      set (ps1 := if u && negb (should_discard (tok st a)) then _ else ps) in H.
      assert (H0 : J st ps1 /\ later ps ps1).
      { unfold ps1. destruct (u && _); [|split; [exact HJ|apply later_refl]].
        pose proof HJ as [A1 A2 A3 A4 A5 A6 A7 A8 A9]. unfold stop_of in *. split.
        - split; cbn [ps_off ps_mr ps_kids ps_cr]; auto; try (unfold contain; cbn [re]).
          + lia.
          + destruct (_ <? _); lia.
          + right. destruct (N.ltb_spec (re (ps_mr ps)) (re (tk_mr (tok st a)))); lia.
          + right. destruct (N.ltb_spec (re (ps_mr ps)) (re (tk_mr (tok st a)))); lia.
          + congruence.
        - split; cbn [ps_off ps_mr]; [intros ->; exact H1|]. unfold contain. cbn [re].
          destruct (N.ltb_spec (re (ps_mr ps)) (re (tk_mr (tok st a)))); lia. }
      destruct H0 as [H0 [Hlat1 Hlat2]].
      apply (J_extract _ _ (ps_off ps)) in H as (B1 & B2 & B3); auto.
      - split; [exact B1|]. split; [exact B2|lia].
      - intros k Hk. split; [|split].
        + eapply (forest_closed (S pt) st); [apply (j_stage _ _ HJ)|exact Ha|exact Hk].
        + specialize (H2 k Hk). lia.
        + intros ->. exact (H2 k Hk).
    Qed.
    Lemma J_skip z st ps ps' st' : J st ps -> (0 <= z)%Z -> ps_off ps + Z.to_N z <= L ->
      (pi_stop i = true -> z = 0%Z) ->
      handle_skip E start z ps st = Ret ps' st' ->
      J st' ps' /\ later ps ps' /\ ps_off ps' = ps_off ps + Z.to_N z.
    Proof.
      intros HJ Hz Hn Hst H. unfold handle_skip in H.
      assert (Ha : usize_add (e_checks E) (ps_off ps) (as_usize z) = Some (ps_off ps + Z.to_N z)).
      { apply skips_to_add. apply skips_to_small; [lia|]. unfold isize_bound, usize_max in *. lia. }
      rewrite Ha in H. cbn [or_die] in H. injection H as <- <-. pose proof HJ as [A1 A2 A3 A4 A5 A6 A7 A8 A9].
      split; [|split; [|reflexivity]].
      - split; cbn [ps_off ps_mr ps_kids ps_cr]; auto; try (unfold contain; cbn [re]).
        + lia.
        + destruct (_ <? _); lia.
        + right. destruct (N.ltb_spec (re (ps_mr ps)) (ps_off ps + Z.to_N z)); lia.
        + right. destruct (N.ltb_spec (re (ps_mr ps)) (ps_off ps + Z.to_N z)); lia.
        + intros Hs. specialize (Hst Hs). subst z. destruct (A9 Hs) as [-> ->]. cbn. split; [lia|reflexivity].
      - split; cbn [ps_off ps_mr]; [lia|]. unfold contain. cbn [re].
        destruct (N.ltb_spec (re (ps_mr ps)) (ps_off ps + Z.to_N z)); lia.
    Qed.
    Lemma J_payload p t st ps ps' st' : J st ps -> pi_stop i = false -> inside st (success_tokens p) ->
      lands_x (low_of back (ps_off ps)) (ps_off ps) t st p ->
      handle_payload E P pt start p ps st = Ret ps' st' -> J st' ps' /\ later ps ps'.
    Proof.
      intros HJ Hns Hin Hp H. pose proof (j_off _ _ HJ) as Hoff.
      assert (Hlow : base <= low_of back (ps_off ps)) by (pose proof (low_back (ps_off ps)); lia).
      destruct p as [a|a|z|nm p|nm p| |]; cbn [handle_payload lands_x] in *;
        try (injection H as <- <-; split; [exact HJ|apply later_refl]).
      - destruct Hp as [Hp _]. unfold handle_token in H.
        apply J_add in H as (B1 & B2 & B3 & B4 & B5 & B6); auto; [|apply Hin; now left|intros _; lia].
        split; [exact B1|]. split; [|exact B6]. intros ->. rewrite B5. destruct (_ && _); cbn [low_of] in *; lia.
      - destruct Hp as [Hp1 Hp2]. eapply J_proxy; eauto; [apply Hin; now left|lia].
      - destruct Hp as [Hp1 Hp2]. apply J_skip in H as (B1 & B2 & _); auto. congruence.
    Qed.

    Lemma J_finalize count strict st ps r st' : J st ps -> finalize P i pt ps count strict st = Ret r st' ->
      low pt st' /\ known s st' /\ lands base start tight st' r /\
      match r with
      | Ok (SToken a) => stop_of st' a = re (ps_mr ps)
      | Ok (SSkip z) => z = 0%Z /\ strict = true /\ pi_iter i <> None
      | Ok _ => False
      | Err e => e = FFail
      end.
    Proof.
      intros HJ H. pose proof HJ as [A1 A2 A3 A4 A5 A6 A7 A8 A9].
      assert (Hc : (if (rs (ps_cr ps) =? usize_max) || (rs (ps_mr ps) =? usize_max) then Ret (Err FFail) st
        else match ps_kids ps with
             | [] => Ret (Err FFail) st
             | _ => Ret (Ok (SToken pt))
                      (modify st pt (fun t => set_mr P (ps_mr ps) (set_cr P (ps_cr ps) (set_kids (ps_kids ps) t))))
             end) = Ret r st' -> low pt st' /\ known s st' /\ lands base start tight st' r /\
        match r with Ok (SToken a) => stop_of st' a = re (ps_mr ps) | Ok _ => False | Err e => e = FFail end).
      { clear H. intros H.
        destruct (N.eqb_spec (rs (ps_cr ps)) usize_max), (N.eqb_spec (rs (ps_mr ps)) usize_max); cbn [orb] in H;
          try (injection H as <- <-; cbn [lands]; now auto).
        assert (Hb : base <= re (ps_mr ps)) by tauto.
        destruct (ps_kids ps) as [|k ks] eqn:Ek; [injection H as <- <-; cbn [lands]; now auto|]. rewrite <- Ek in *.
        injection H as <- <-. unfold modify.
        assert (Hsz : (pt < heap_size st)%nat) by (destruct A1 as (A1 & _); lia).
        assert (Hself : tok (set_tok st pt (set_mr P (ps_mr ps) (set_cr P (ps_cr ps) (set_kids (ps_kids ps) (tok st pt))))) pt
          = set_mr P (ps_mr ps) (set_cr P (ps_cr ps) (set_kids (ps_kids ps) (tok st pt)))) by (now apply tok_set_same).
        split; [apply low_set; [exact A2|exact A5]|]. split; [now apply (known_scopes s st)|].
        cbn [lands lands_x]. unfold stop_of at 1 2 4. rewrite Hself. cbn [tk_mr tk_kids set_mr set_cr set_kids].
        split; [|reflexivity]. split; [lia|]. intros Ht k0 Hk0.
        assert (Hne : pt <> k0).
        { destruct A1 as (_ & _ & _ & _ & A1). specialize (A1 k0 Hk0). lia. }
        unfold stop_of. rewrite tok_set_other by exact Hne. destruct (pi_stop i) eqn:Ei.
        - destruct (A9 eq_refl) as [_ E0]. rewrite E0 in Hk0. destruct Hk0.
        - now apply A8. }
      assert (Hc' : forall b : bool, (if (rs (ps_cr ps) =? usize_max) || (rs (ps_mr ps) =? usize_max) then Ret (Err FFail) st
        else match ps_kids ps with
             | [] => Ret (Err FFail) st
             | _ => Ret (Ok (SToken pt))
                      (modify st pt (fun t => set_mr P (ps_mr ps) (set_cr P (ps_cr ps) (set_kids (ps_kids ps) t))))
             end) = Ret r st' -> low pt st' /\ known s st' /\ lands base start tight st' r /\
        match r with Ok (SToken a) => stop_of st' a = re (ps_mr ps)
                   | Ok (SSkip z) => z = 0%Z /\ b = true /\ pi_iter i <> None | Ok _ => False | Err e => e = FFail end).
      { intros b H0. apply Hc in H0 as (B1 & B2 & B3 & B4). split; [exact B1|]. split; [exact B2|]. split; [exact B3|].
        destruct r as [[]|]; auto; destruct B4. }
      unfold finalize in H. destruct strict; [|now apply Hc'].
      destruct (pi_iter i) as [[lo hi]|] eqn:Ei; [|now apply Hc'].
      destruct (_ && _ && _).
      { injection H as <- <-. cbn [lands lands_x]. repeat split; auto; try discriminate; lia. }
      destruct (count <? lo); [injection H as <- <-; cbn [lands]; now auto|]. now apply Hc'.
    Qed.

    Definition pass_lands (k : ctl) (ps ps' : pst) (st' : state) : Prop :=
      match k with
      | CDone => J st' ps' /\ later ps ps'
      | CAct x => J st' ps' /\ later ps ps' /\ inside st' (success_tokens x) /\
          ((exists n p, x = SBreak n p) \/ x = SNone) /\
          lands_x (low_of back (ps_off ps')) (ps_off ps') (if pi_stop i then tight else false) st' x
      | CRet r => low pt st' /\ known s st' /\ lands base start tight st' r
      end.

    (* one pattern *)
    Lemma pat_lands x st ps r st1 : pat_ok x -> J st ps ->
      rec x (push_tok (with_start c (ps_off ps)) pt) s st = Ret r st1 ->
      J st1 ps /\ inside st1 (result_tokens r) /\
      ((lands (low_of back (ps_off ps)) (ps_off ps) (if pi_stop i then tight else false) st1 r) \/
       (pi_stop i = false /\ tight = false /\ m_consuming x = false /\
        match r with Ok (SToken a) => stop_of st1 a <= L | Ok (SSkip _) => True | Ok _ => False | Err _ => True end)).
    Proof.
      intros [Hn Hx] HJ Er. pose proof (j_off _ _ HJ) as Hoff.
      assert (Hon : forall t, onward back t x -> J st1 ps /\ inside st1 (result_tokens r) /\
        lands (low_of back (ps_off ps)) (ps_off ps) t st1 r).
      { intros t Ho. pose proof Er as Er'.
        apply (Hland back t) in Er' as (B1 & B2 & B3); auto; [|apply (j_known _ _ HJ)|cbn; lia].
        pose proof (J_rec _ _ _ _ _ _ HJ Er (conj B1 B2)) as [D1 D2]. auto. }
      destruct (pi_stop i) eqn:Ei.
      - apply Hon in Hx as (B1 & B2 & B3). auto.
      - destruct Hx as [Hx|[Ht Hx]]; [apply Hon in Hx as (B1 & B2 & B3); auto|].
        pose proof Er as Er'. apply Hlook in Er' as (B1 & B2 & B3); auto; [|apply (j_known _ _ HJ)].
        pose proof (J_rec _ _ _ _ _ _ HJ Er (conj B1 B2)) as [D1 D2].
        split; [exact D1|]. split; [exact D2|]. right. destruct Hx as (y & off & n & b & -> & Hy). auto.
    Qed.

    Lemma run_lands count : forall pats, (forall x, In x pats -> pat_ok x) -> forall st ps k ps' st', J st ps ->
      run_patterns E P rec i c s pt start count pats ps st = Ret (k, ps') st' -> pass_lands k ps ps' st'.
    Proof.
      induction pats as [|m pats IH]; intros Hok st ps k ps' st' HJ H; cbn [run_patterns] in H.
      - injection H as <- <- <-. split; [exact HJ|apply later_refl].
      - destruct (rec m _ s st) as [r st1|p|] eqn:Er; try discriminate.
        apply pat_lands in Er as (HJ1 & Hin & Hr); [|apply Hok; now left|exact HJ].
        assert (IH' : forall st2 ps2, J st2 ps2 -> later ps ps2 ->
          run_patterns E P rec i c s pt start count pats ps2 st2 = Ret (k, ps') st' -> pass_lands k ps ps' st').
        { intros st2 ps2 HJ2 Hlat H2. apply IH in H2; [|intros; apply Hok; now right|exact HJ2].
          destruct k as [|x|r0]; cbn [pass_lands] in *; [|destruct H2 as (G1 & G2 & G3)|exact H2].
          - destruct H2 as [G1 G2]. split; [exact G1|]. eapply later_trans; eauto.
          - split; [exact G1|]. split; [eapply later_trans; eauto|exact G3]. }
        assert (Hb : base <= low_of back (ps_off ps)) by (pose proof (low_back (ps_off ps)); pose proof (j_off _ _ HJ); lia).
        destruct r as [[a|a|z|nm p|nm p| |]|e]; cbn [lands lands_x] in Hr.
        + destruct (should_discard (tok st1 a)); [apply (IH' _ _ HJ1 (later_refl _) H)|].
          destruct (pi_stop i) eqn:Ei.
          * injection H as <- <- <-. destruct Hr as [Hr|[Hr _]]; [|discriminate].
            split; [apply (j_low _ _ HJ1)|]. split; [apply (j_known _ _ HJ1)|].
            apply (lands_lower (low_of back (ps_off ps))); [exact Hb|].
            destruct (j_stop _ _ HJ1 Ei) as [Eo _]. rewrite Eo in Hr |- *. exact Hr.
          * unfold handle_token in H.
            destruct (add_token P pt a _ _ ps st1) as [ps2 st2|p|] eqn:Ea; try discriminate.
            pose proof (Hin a (or_introl eq_refl)) as Ha.
            apply J_add in Ea as (B1 & B2 & B3 & B4 & B5 & B6); auto.
            -- apply (IH' _ _ B1); [|exact H]. split; [|exact B6]. intros ->. rewrite B5.
               destruct Hr as [[Hr _]|(_ & _ & Hc & _)]; [destruct (_ && _); cbn [low_of] in Hr; lia|rewrite Hc; cbn; lia].
            -- destruct Hr as [[Hr _]|(_ & Ht & Hc & _)]; [intros _; lia|]. rewrite Hc, Ht. cbn. intros [|]; discriminate.
        + destruct (should_discard (tok st1 a)); [apply (IH' _ _ HJ1 (later_refl _) H)|].
          destruct Hr as [Hr|(_ & _ & _ & [])].
          destruct (pi_stop i) eqn:Ei.
          * injection H as <- <- <-.
            split; [apply (j_low _ _ HJ1)|]. split; [apply (j_known _ _ HJ1)|].
            apply (lands_lower (low_of back (ps_off ps))); [exact Hb|]. exact Hr.
          * destruct (handle_extract P pt a _ ps st1) as [ps2 st2|p|] eqn:Ea; try discriminate.
            apply J_proxy in Ea as [B1 B2]; auto; [apply (IH' _ _ B1 B2 H)|apply Hin; now left|lia|apply Hr].
        + destruct (pi_stop i) eqn:Ei.
          * destruct Hr as [[Hr1 Hr2]|[Hr _]]; [|discriminate]. destruct (j_stop _ _ HJ Ei) as [Eo _].
            destruct (Z.ltb_spec 0 z); cbn [andb] in H.
            -- injection H as <- <- <-. split; [apply (j_low _ _ HJ1)|]. split; [apply (j_known _ _ HJ1)|].
               cbn [lands lands_x]. rewrite <- Eo. auto.
            -- destruct (m_consuming m); [|apply (IH' _ _ HJ1 (later_refl _) H)].
               destruct (handle_skip E start z ps st1) as [ps2 st2|p|] eqn:Ea; try discriminate.
               apply J_skip in Ea as (B1 & B2 & _); auto; [apply (IH' _ _ B1 B2 H)|lia].
          * rewrite andb_false_r in H. destruct (m_consuming m) eqn:Ec; [|apply (IH' _ _ HJ1 (later_refl _) H)].
            destruct Hr as [[Hr1 Hr2]|(_ & _ & Hc & _)]; [|discriminate].
            destruct (handle_skip E start z ps st1) as [ps2 st2|p|] eqn:Ea; try discriminate.
            apply J_skip in Ea as (B1 & B2 & _); auto; [apply (IH' _ _ B1 B2 H)|congruence].
        + injection H as <- <- <-. destruct Hr as [Hr|(_ & _ & _ & [])].
          split; [exact HJ1|]. split; [apply later_refl|]. split; [exact Hin|]. split; [eauto|].
          exact Hr.
        + destruct Hr as [[]|(_ & _ & _ & [])].
        + injection H as <- <- <-. split; [exact HJ1|]. split; [apply later_refl|].
          split; [exact Hin|]. split; [auto|exact Logic.I].
        + destruct Hr as [[]|(_ & _ & _ & [])].
        + destruct (dbg E P _ 10); [|discriminate]. destruct e.
          * destruct (pi_stop i) eqn:Ei; [apply (IH' _ _ HJ1 (later_refl _) H)|]. destruct (pi_iter i).
            -- destruct (finalize P i pt ps count false st1) as [x st2|p0|] eqn:Ef; try discriminate.
               injection H as <- <- <-. apply J_finalize in Ef as (B1 & B2 & B3 & _); [|exact HJ1]. cbn [pass_lands]. auto.
            -- injection H as <- <- <-. cbn [pass_lands lands]. split; [apply (j_low _ _ HJ1)|].
               split; [apply (j_known _ _ HJ1)|exact Logic.I].
          * injection H as <- <- <-. cbn [pass_lands lands]. split; [apply (j_low _ _ HJ1)|].
            split; [apply (j_known _ _ HJ1)|exact Logic.I].
    Qed.

    Lemma iterate_lands pats : (forall x, In x pats -> pat_ok x) -> forall f left count st ps r st', J st ps ->
      iterate f E P rec pats i c s pt start left count ps st = Ret r st' ->
      low pt st' /\ known s st' /\ lands base start tight st' r.
    Proof.
      intros Hok. assert (Hfin : forall count strict st ps r st', J st ps -> finalize P i pt ps count strict st = Ret r st' ->
        low pt st' /\ known s st' /\ lands base start tight st' r).
      { intros count strict st ps r st' HJ H. apply J_finalize in H as (B1 & B2 & B3 & _); auto. }
      induction f as [|f IH]; intros left count st ps r st' HJ H; cbn [iterate] in H.
      - destruct (left =? 0); [|discriminate]. eapply Hfin; eauto.
      - destruct (left =? 0); [eapply Hfin; eauto|].
        destruct (run_patterns _ _ _ _ _ _ _ _ _ _ _ _) as [[k ps1] st1|p|] eqn:Er; try discriminate.
        apply run_lands in Er; [|exact Hok|exact HJ]. destruct k as [|x|r0]; cbn [pass_lands] in Er.
        + eapply IH; [apply Er|exact H].
        + destruct Er as (HJ1 & Hlat & Hin & [(n & q & ->)| ->] & Hx); [|discriminate].
          destruct (pi_stop i) eqn:Ei.
          * injection H as <- <-. split; [apply (j_low _ _ HJ1)|]. split; [apply (j_known _ _ HJ1)|].
            destruct (j_stop _ _ HJ1 Ei) as [Eo _]. rewrite Eo in Hx. exact Hx.
          * destruct (handle_payload E P pt start q ps1 st1) as [ps2 st2|p|] eqn:Eh; try discriminate.
            apply (J_payload q false) in Eh as [HJ2 _]; auto.
            destruct (finalize P i pt ps2 count false st2) as [y st3|p|] eqn:Ef; try discriminate.
            apply Hfin in Ef as (B1 & B2 & B3); [|exact HJ2].
            destruct (is_target i n); [injection H as <- <-; auto|].
            destruct y; injection H as <- <-; auto.
        + injection H as <- <-. exact Er.
    Qed.

    (* moving: one of the patterns that consume moves *)
    Definition moved (from : N) (st : state) (r : mres) : Prop :=
      match r with
      | Ok (SToken a) => from < stop_of st a /\ should_discard (tok st a) = false
      | Ok (SSkip z) => (0 < z)%Z
      | Ok (SBreak _ _) | Ok SNone | Err _ => True
      | Ok _ => False
      end.
    Definition leap (x : matcher) : Prop := forall cc st r st', known s st ->
      rs (c_off cc) <= L -> re (c_off cc) = L -> rec x cc s st = Ret r st' -> moved (rs (c_off cc)) st' r.

    Lemma run_moves count : back = false -> pi_stop i = false -> forall pats, (forall x, In x pats -> pat_ok x) ->
      (exists y, In y pats /\ m_consuming y = true /\ leap y) -> forall st ps ps' st', J st ps ->
      run_patterns E P rec i c s pt start count pats ps st = Ret (CDone, ps') st' -> ps_off ps < ps_off ps'.
    Proof.
      intros Hbk Hns. induction pats as [|m pats IH]; intros Hok (y & Hy & Hyc & Hyl) st ps ps' st' HJ H; [destruct Hy|].
      assert (Hok' : forall x, In x pats -> pat_ok x) by (intros; apply Hok; now right).
      cbn [run_patterns] in H. rewrite Hns in H.
      destruct (rec m _ s st) as [r st1|p|] eqn:Er; try discriminate.
      pose proof Er as Er0. apply pat_lands in Er as (HJ1 & Hin & Hr); [|apply Hok; now left|exact HJ]. rewrite Hns in Hr.
      assert (IH' : forall st2 ps2, J st2 ps2 -> later ps ps2 -> (m = y -> ps_off ps < ps_off ps2) ->
          run_patterns E P rec i c s pt start count pats ps2 st2 = Ret (CDone, ps') st' -> ps_off ps < ps_off ps').
      { intros st2 ps2 HJ2 Hlat Hm H2. destruct Hy as [->|Hy].
        - specialize (Hm eq_refl). apply run_lands in H2 as [_ [H2 _]]; auto. specialize (H2 Hbk). lia.
        - apply IH in H2; eauto. destruct Hlat as [Hlat _]. specialize (Hlat Hbk). lia. }
      assert (Hleap : m = y -> moved (ps_off ps) st1 r).
      { intros ->. apply (Hyl (push_tok (with_start c (ps_off ps)) pt) st r st1);
          [apply (j_known _ _ HJ)|cbn; apply (j_off _ _ HJ)|exact Hce|exact Er0]. }
      assert (Hb : base <= low_of back (ps_off ps)) by (pose proof (low_back (ps_off ps)); pose proof (j_off _ _ HJ); lia).
      rewrite Hbk in Hr. cbn [low_of] in Hr.
      destruct r as [[a|a|z|nm p|nm p| |]|e]; cbn [lands lands_x] in Hr.
      + destruct (should_discard (tok st1 a)) eqn:Ed.
        * apply (IH' _ _ HJ1 (later_refl _)); [|exact H]. intros Hm. destruct (Hleap Hm); congruence.
        * unfold handle_token in H. rewrite Ed in H.
          destruct (add_token P pt a _ _ ps st1) as [ps2 st2|p|] eqn:Ea; try discriminate.
          pose proof (Hin a (or_introl eq_refl)) as Ha.
          apply J_add in Ea as (B1 & B2 & B3 & B4 & B5 & B6); auto.
          -- apply (IH' _ _ B1); [| |exact H].
             ++ split; [|exact B6]. intros _. rewrite B5.
                destruct Hr as [[Hr _]|(_ & _ & Hc & _)]; [destruct (_ && _); lia|rewrite Hc; cbn; lia].
             ++ intros Hm. specialize (Hleap Hm). subst m. rewrite B5, Hyc. cbn in *. lia.
          -- destruct Hr as [[Hr _]|(_ & Ht & Hc & _)]; [intros _; rewrite Hbk in *; cbn in *; lia|].
             rewrite Hc, Ht. cbn. intros [|]; discriminate.
      + destruct (should_discard (tok st1 a)) eqn:Ed.
        * apply (IH' _ _ HJ1 (later_refl _)); [|exact H]. intros Hm. destruct (Hleap Hm).
        * destruct Hr as [Hr|(_ & _ & _ & [])].
          destruct (handle_extract P pt a _ ps st1) as [ps2 st2|p|] eqn:Ea; try discriminate.
          apply J_proxy in Ea as [B1 B2]; auto; [|apply Hin; now left| |];
            [|rewrite Hbk; cbn; lia|rewrite Hbk; cbn [low_of]; apply Hr].
          apply (IH' _ _ B1 B2); [|exact H]. intros Hm. destruct (Hleap Hm).
      + rewrite andb_false_r in H. destruct (m_consuming m) eqn:Ec.
        * destruct Hr as [[Hr1 Hr2]|(_ & _ & Hc & _)]; [|discriminate].
          destruct (handle_skip E start z ps st1) as [ps2 st2|p|] eqn:Ea; try discriminate.
          apply J_skip in Ea as (B1 & B2 & B3); auto; [|congruence].
          apply (IH' _ _ B1 B2); [|exact H]. intros Hm. specialize (Hleap Hm). cbn in Hleap. lia.
        * apply (IH' _ _ HJ1 (later_refl _)); [|exact H]. congruence.
      + discriminate.
      + discriminate.
      + discriminate.
      + discriminate.
      + destruct (dbg E P _ 10); [|discriminate]. destruct e; [|discriminate]. destruct (pi_iter i); [|discriminate].
        destruct (finalize P i pt ps count false st1) as [x st2|p0|]; discriminate.
    Qed.

    Lemma finalize_moved count strict st ps r st' : back = false -> pi_iter i = None -> J st ps -> start < ps_off ps ->
      finalize P i pt ps count strict st = Ret r st' -> moved start st' r.
    Proof.
      intros Hbk Hi HJ Ho H.
      assert (Hs : forall h, (h <= pt)%nat -> forest h st_s -> True) by auto. clear Hs.
      pose proof H as H0. apply J_finalize in H as (B1 & B2 & B3 & B4); [|exact HJ].
      destruct r as [[a|a|z|nm p|nm p| |]|e]; cbn [moved]; auto; [|destruct B4 as (_ & _ & B4); congruence].
      rewrite B4. split; [destruct (j_reach _ _ HJ Hbk); lia|].
      assert (Hk : should_discard (tok st pt) = false).
      { unfold should_discard. destruct (j_stage _ _ HJ) as (_ & _ & _ & (_ & ->) & _). reflexivity. }
      assert (Hsz : (pt < heap_size st)%nat) by (destruct (j_stage _ _ HJ) as (X & _); lia).
      unfold finalize in H0. rewrite Hi in H0.
      assert (Hx : (if (rs (ps_cr ps) =? usize_max) || (rs (ps_mr ps) =? usize_max) then Ret (Err FFail) st
        else match ps_kids ps with
             | [] => Ret (Err FFail) st
             | _ => Ret (Ok (SToken pt))
                      (modify st pt (fun t => set_mr P (ps_mr ps) (set_cr P (ps_cr ps) (set_kids (ps_kids ps) t))))
             end) = Ret (Ok (SToken a)) st') by (destruct strict; exact H0). clear H0.
      destruct (_ || _); [discriminate|]. destruct (ps_kids ps); [discriminate|]. injection Hx as <- <-.
      unfold modify. rewrite tok_set_same by exact Hsz. exact Hk.
    Qed.

    Lemma iterate_moves pats f r st st' : back = false -> pi_stop i = false -> pi_iter i = None ->
      (forall x, In x pats -> pat_ok x) -> (exists y, In y pats /\ m_consuming y = true /\ leap y) ->
      J st (init_pst start) -> iterate f E P rec pats i c s pt start 1 0 (init_pst start) st = Ret r st' ->
      moved start st' r.
    Proof.
      intros Hbk Hns Hi Hok Hy HJ H. destruct f as [|f]; cbn [iterate N.eqb] in H; [discriminate|].
      destruct (run_patterns _ _ _ _ _ _ _ _ _ _ _ _) as [[k ps1] st1|p|] eqn:Er; try discriminate.
      pose proof Er as Er0. apply run_lands in Er; [|exact Hok|exact HJ]. destruct k as [|x|r0]; cbn [pass_lands] in Er.
      - apply run_moves in Er0; auto. cbn [ps_off init_pst] in Er0.
        change (1 - 1) with 0 in H. destruct f; cbn [iterate N.eqb] in H; eapply finalize_moved; try exact H; auto; apply Er.
      - destruct Er as (HJ1 & _ & _ & [(n & q & ->)| ->] & Hx); [|discriminate]. rewrite Hns in H.
        destruct (handle_payload E P pt start q ps1 st1) as [ps2 st2|p|] eqn:Eh; try discriminate.
        destruct (finalize P i pt ps2 0 false st2) as [y st3|p|] eqn:Ef; try discriminate.
        unfold is_target in H. rewrite Hi in H. destruct y; injection H as <- <-; exact Logic.I.
      - injection H as <- <-.
        enough (match r0 with Err _ => True | Ok _ => False end) by (destruct r0; [contradiction|exact Logic.I]).
        clear - Er0 Hns Hi. revert Er0. generalize (init_pst start) as ps. revert st.
        induction pats as [|m pats IH]; intros st ps H; cbn [run_patterns] in H; [discriminate|].
        rewrite Hns, Hi in H. destruct (rec m _ s st) as [r st2|p|]; try discriminate.
        destruct r as [[a|a|z|nm p|nm p| |]|e]; try discriminate.
        + destruct (should_discard _); [eapply IH; eauto|].
          destruct (handle_token _ _ _ _ _ _ _); try discriminate. eapply IH; eauto.
        + destruct (should_discard _); [eapply IH; eauto|].
          destruct (handle_extract _ _ _ _ _ _); try discriminate. eapply IH; eauto.
        + rewrite andb_false_r in H. destruct (m_consuming m); [|eapply IH; eauto].
          destruct (handle_skip _ _ _ _ _); try discriminate. eapply IH; eauto.
        + destruct (dbg E P _ 10); [|discriminate]. destruct e; injection H as <- <- <-; exact Logic.I.
    Qed.

    Lemma switch_finalize count strict st ps r st' : pi_stop i = true -> pi_iter i = None -> J st ps ->
      finalize P i pt ps count strict st = Ret r st' -> r = Err FFail.
    Proof.
      intros Hst Hi HJ H. destruct (j_stop _ _ HJ Hst) as [_ Ek]. unfold finalize in H. rewrite Hi, Ek in H.
      destruct strict; destruct (_ || _); now injection H as <- <-.
    Qed.
    Lemma switch_run count : pi_stop i = true -> forall pats, (forall x, In x pats -> pat_ok x /\ leap x) ->
      forall st ps r ps1 st1, J st ps ->
      run_patterns E P rec i c s pt start count pats ps st = Ret (CRet r, ps1) st1 -> moved start st1 r.
    Proof.
      intros Hst. induction pats as [|m pats IH]; intros Hok st ps r ps1 st1 HJ H; cbn [run_patterns] in H; [discriminate|].
      rewrite Hst in H. destruct (rec m _ s st) as [x st2|p|] eqn:Er; try discriminate.
      destruct (Hok m (or_introl eq_refl)) as [Hm Hl].
      pose proof (Hl (push_tok (with_start c (ps_off ps)) pt) st x st2 (j_known _ _ HJ)
        (proj2 (j_off _ _ HJ)) Hce Er) as Hmv.
      apply pat_lands in Er as (HJ1 & _ & Hr); auto. cbn [c_off push_tok with_start rs] in Hmv.
      destruct (j_stop _ _ HJ Hst) as [Eo _]. rewrite Eo in Hmv.
      assert (IH' : forall st2 ps2, J st2 ps2 -> run_patterns E P rec i c s pt start count pats ps2 st2 = Ret (CRet r, ps1) st1 ->
        moved start st1 r) by (intros st3 ps3; apply IH; intros; apply Hok; now right).
      destruct x as [[a|a|z|nm p|nm p| |]|e]; try discriminate.
      - destruct (should_discard (tok st2 a)); [now apply (IH' _ _ HJ1)|]. injection H as <- _ <-. exact Hmv.
      - destruct Hmv.
      - cbn [moved] in Hmv. apply Z.ltb_lt in Hmv as Hz. rewrite Hz in H. cbn [andb] in H. injection H as <- _ <-. exact Hmv.
      - destruct (dbg E P _ 10); [|discriminate]. destruct e; [now apply (IH' _ _ HJ1)|]. injection H as <- _ <-. exact Logic.I.
    Qed.
    Lemma switch_moves pats f r st st' : back = false -> pi_stop i = true -> pi_iter i = None ->
      (forall x, In x pats -> pat_ok x /\ leap x) ->
      J st (init_pst start) -> iterate f E P rec pats i c s pt start 1 0 (init_pst start) st = Ret r st' ->
      moved start st' r.
    Proof.
      intros Hbk Hst Hi Hok HJ H. destruct f as [|f]; cbn [iterate N.eqb] in H; [discriminate|].
      destruct (run_patterns _ _ _ _ _ _ _ _ _ _ _ _) as [[k ps1] st1|p|] eqn:Er; try discriminate.
      pose proof Er as Er0. apply run_lands in Er; [|apply Hok|exact HJ]. destruct k as [|x|r0]; cbn [pass_lands] in Er.
      - change (1 - 1) with 0 in H. assert (Hf : finalize P i pt ps1 (0 + 1) true st1 = Ret r st') by (destruct f; exact H).
        apply switch_finalize in Hf; auto; [subst r; exact Logic.I|apply Er].
      - destruct Er as (HJ1 & _ & _ & [(n & q & ->)| ->] & Hx); [|discriminate]. rewrite Hst in H.
        injection H as <- <-. exact Logic.I.
      - injection H as <- <-. eapply switch_run; eauto.
    Qed.

    (* one of the patterns never succeeds *)
    Definition quits (r : mres) : Prop := match r with Ok (SBreak _ _) | Err _ => True | Ok _ => False end.
    Lemma run_quits count : pi_stop i = false -> pi_iter i = None -> forall pats, (forall x, In x pats -> pat_ok x) ->
      (exists y, In y pats /\ forall cc st r st', known s st -> rs (c_off cc) <= L -> re (c_off cc) = L ->
         rec y cc s st = Ret r st' -> quits r) ->
      forall st ps k ps1 st1, J st ps ->
      run_patterns E P rec i c s pt start count pats ps st = Ret (k, ps1) st1 ->
      match k with CDone => False | CAct _ => True | CRet r => exists e, r = Err e end.
    Proof.
      intros Hns Hi. induction pats as [|m pats IH]; intros Hok (y & Hy & Hq) st ps k ps1 st1 HJ H; [destruct Hy|].
      cbn [run_patterns] in H. rewrite Hns, Hi in H. destruct (rec m _ s st) as [x st2|p|] eqn:Er; try discriminate.
      pose proof Er as Er0. apply pat_lands in Er as (HJ1 & Hin & Hr); auto; [|apply Hok; now left].
      assert (Hnext : forall st2 ps2, J st2 ps2 -> ~ quits x ->
        run_patterns E P rec i c s pt start count pats ps2 st2 = Ret (k, ps1) st1 ->
        match k with CDone => False | CAct _ => True | CRet r => exists e, r = Err e end).
      { intros st3 ps3 HJ3 Hx. apply (IH (fun z Hz => Hok z (or_intror Hz))); [|exact HJ3].
        destruct Hy as [->|Hy]; [|eauto]. exfalso. apply Hx.
        exact (Hq (push_tok (with_start c (ps_off ps)) pt) st x st2 (j_known _ _ HJ) (proj2 (j_off _ _ HJ)) Hce Er0). }
      rewrite Hns in Hr. pose proof (j_off _ _ HJ) as Hoff.
      assert (Hb : base <= low_of back (ps_off ps)) by (pose proof (low_back (ps_off ps)); lia).
      destruct x as [[a|a|z|nm p|nm p| |]|e]; try (injection H as <- _ _; exact Logic.I); cbn [lands lands_x] in Hr.
      - destruct (should_discard (tok st2 a)); [apply (Hnext _ _ HJ1); auto|].
        unfold handle_token in H. destruct (add_token P pt a _ _ ps st2) as [ps3 st3|p|] eqn:Ea; try discriminate.
        apply J_add in Ea as (B1 & _); auto; [apply (Hnext _ _ B1); auto|apply Hin; now left|].
        destruct Hr as [[Hr _]|(_ & Ht & Hc & _)]; [intros _; lia|]. rewrite Hc, Ht. cbn. intros [|]; discriminate.
      - destruct (should_discard (tok st2 a)); [apply (Hnext _ _ HJ1); auto|]. destruct Hr as [Hr|(_ & _ & _ & [])].
        destruct (handle_extract P pt a _ ps st2) as [ps3 st3|p|] eqn:Ea; try discriminate.
        apply J_proxy in Ea as [B1 B2]; auto; [apply (Hnext _ _ B1); auto|apply Hin; now left|lia|apply Hr].
      - rewrite andb_false_r in H. destruct (m_consuming m) eqn:Ec; [|apply (Hnext _ _ HJ1); auto].
        destruct Hr as [[Hr1 Hr2]|(_ & _ & Hc & _)]; [|discriminate].
        destruct (handle_skip E start z ps st2) as [ps3 st3|p|] eqn:Ea; try discriminate.
        apply J_skip in Ea as (B1 & B2 & _); auto; [apply (Hnext _ _ B1); auto|congruence].
      - destruct (dbg E P _ 10); [|discriminate]. destruct e; injection H as <- _ _; eauto.
    Qed.
    Lemma iterate_quits pats f r st st' : pi_stop i = false -> pi_iter i = None -> (forall x, In x pats -> pat_ok x) ->
      (exists y, In y pats /\ forall cc st r st', known s st -> rs (c_off cc) <= L -> re (c_off cc) = L ->
         rec y cc s st = Ret r st' -> quits r) ->
      J st (init_pst start) -> iterate f E P rec pats i c s pt start 1 0 (init_pst start) st = Ret r st' -> quits r.
    Proof.
      intros Hns Hi Hok Hy HJ H. destruct f as [|f]; cbn [iterate N.eqb] in H; [discriminate|].
      destruct (run_patterns _ _ _ _ _ _ _ _ _ _ _ _) as [[k ps1] st1|p|] eqn:Er; try discriminate.
      pose proof Er as Er0. apply run_lands in Er; [|exact Hok|exact HJ].
      apply run_quits in Er0; auto. destruct k as [|x|r0]; cbn [pass_lands] in Er; [destruct Er0| |].
      - destruct Er as (HJ1 & _ & _ & [(n & q & ->)| ->] & Hx); [|discriminate]. rewrite Hns in H.
        destruct (handle_payload E P pt start q ps1 st1) as [ps2 st2|p|] eqn:Eh; try discriminate.
        destruct (finalize P i pt ps2 0 false st2) as [y st3|p|] eqn:Ef; try discriminate.
        unfold is_target in H. rewrite Hi in H. destruct y; injection H as <- <-; exact Logic.I.
      - injection H as <- <-. destruct Er0 as [e ->]. exact Logic.I.
    Qed.

    Lemma start_J t0 : re (tk_mr t0) <= L -> tk_kids t0 = [] -> tk_kind t0 = KStandard -> known s st_s ->
      J (alloc st_s t0) (init_pst start).
    Proof.
      intros H1 H2 H3 H4. split; cbn [ps_off ps_mr ps_kids init_pst]; auto.
      - rewrite <- Hpt. split; [rewrite heap_size_alloc; lia|]. split.
        + intros a Ha. rewrite heap_size_alloc in Ha. lia.
        + split; [intros a Ha; apply tok_alloc_old; unfold heap_size in *; lia|].
          split; [change (heap_size st_s) with (next_addr st_s); now rewrite tok_alloc_new|intros ? []].
      - rewrite <- Hpt. apply low_alloc; [apply low_top|exact H1].
      - split; [apply low_le|exact Hcs].
      - cbn [re]. lia.
      - intros _ _ k [].
    Qed.
  End Pass.

  (* ---------- map ---------- *)

  Lemma attrs_mr l : forall t, tk_mr (set_attrs l t) = tk_mr t.
  Proof. unfold set_attrs. induction l as [|kv l IH]; intros t; cbn [fold_left]; [reflexivity|]. now rewrite IH. Qed.
  Lemma missing_mr l : forall t, tk_mr (add_missing_attrs l t) = tk_mr t.
  Proof.
    unfold add_missing_attrs. induction l as [|kv l IH]; intros t; cbn [fold_left]; [reflexivity|]. rewrite IH.
    destruct (get_attr _ t); reflexivity.
  Qed.
  Lemma child_in st t n k : find_child st t n = Some k -> In k (tk_kids t).
  Proof. unfold find_child. intros H. now apply find_some in H. Qed.
  Lemma pairs_in st l : forall q, attr_pairs st l = Val q -> forall b n v, In (b, n, v) q -> In b l.
  Proof.
    induction l as [|a l IH]; intros q H b n v Hin; cbn [attr_pairs] in H; [injection H as <-; destruct Hin|].
    destruct (tk_kids (tok st a)) as [|x [|y ys]]; try discriminate.
    destruct (attr_pairs st l) as [q'|]; [|discriminate]. injection H as <-.
    destruct Hin as [Hin|Hin]; [injection Hin as <- _ _; now left|right; eapply IH; eauto].
  Qed.
  Lemma version_in l a : version_attr l = Some a -> exists n v, In (a, n, v) l.
  Proof.
    unfold version_attr.
    assert (Hg : forall (l : list (addr * str * str)) o, fold_left (fun o p => if str_eqb (snd (fst p)) "version" then Some (fst (fst p)) else o) l o = Some a ->
      o = Some a \/ exists n v, In (a, n, v) l).
    { clear. induction l as [|[[b n] v] l IH]; intros o H; cbn [fold_left] in H; [auto|].
      apply IH in H as [H|(n' & v' & H)].
      - cbn [fst snd] in H. destruct (str_eqb n "version"); [injection H as ->; right; exists n, v; now left|auto].
      - right. exists n', v'. now right. }
    intros H. apply Hg in H as [H|H]; [discriminate|exact H].
  Qed.

  Lemma map_lands f a cc s h st lo start tight r st' : (forall k, f <> MapUser k) -> (f = MapAdextopaScope -> lo = 0) ->
    low h st -> known s st -> forest h st -> (h <= a < heap_size st)%nat ->
    lo <= rs (c_off cc) <= L -> start <= L ->
    lands lo start tight st (Ok (SToken a)) -> map_ok E P f a cc s st = Ret r st' ->
    low h st' /\ known s st' /\ lands lo start tight st' r.
  Proof.
    intros Hf1 Hf2 Hl Hk Hfo Ha Hc Hs Hx H.
    assert (Hmod : forall g, tk_mr (g (tok st a)) = tk_mr (tok st a) -> tk_kids (g (tok st a)) = tk_kids (tok st a) ->
      low h (modify st a g) /\ known s (modify st a g) /\ lands lo start tight (modify st a g) (Ok (SToken a))).
    { intros g G1 G2. unfold modify. split; [apply set_low; [exact Hl| |lia]; unfold stop_of; now rewrite G1|].
      split; [now apply (known_scopes s st)|]. eapply lands_same; [|exact Hx]. apply same_tok; [unfold stop_of; now rewrite G1|exact G2]. }
    assert (Hmr : lo <= re (tk_mr (tok st a)) <= L) by apply Hx.
    destruct f; cbn [map_ok] in H.
    - now elim (Hf1 k).
    - destruct (error_string E P _ _); [|discriminate]. injection H as <- <-. cbn [lands]. auto.
    - injection H as <- <-. cbn [lands lands_x]. repeat split; auto; lia.
    - eapply error_lands; eauto.
    - injection H as <- <-. cbn [lands lands_x]. repeat split; auto; lia.
    - injection H as <- <-. apply Hmod; [apply missing_mr|apply add_missing_kids].
    - injection H as <- <-. now apply Hmod.
    - destruct (attributes_of st a) as [l|]; [|discriminate]. injection H as <- <-.
      apply Hmod; [apply attrs_mr|apply set_attrs_kids].
    - injection H as <- <-. now apply Hmod.
    - specialize (Hf2 eq_refl). subst lo. destruct (attributes_of st a) as [l|] eqn:El; [|discriminate].
      destruct (Hmod (set_attrs l)) as (M1 & M2 & M3); [apply attrs_mr|apply set_attrs_kids|].
      assert (Hkids : forall x, tk_kids (tok (modify st a (set_attrs l)) x) = tk_kids (tok st x)).
      { intros x. apply same_tok; [unfold stop_of; now rewrite attrs_mr|apply set_attrs_kids]. }
      assert (Hgood : forall x, (h <= x)%nat -> stop_of (modify st a (set_attrs l)) x <= L) by exact M1.
      set (st1 := modify st a (set_attrs l)) in *. clearbody st1.
      destruct (get_attr "version" (tok st1 a)) as [v|].
      + destruct (parse_usize v); [injection H as <- <-; auto|].
        destruct (version_attr l) as [va|] eqn:Ev; [|discriminate].
        eapply error_lands; [exact M1|exact M2| |exact H]. split; [lia|]. apply Hgood.
        apply version_in in Ev as (n & v' & Hin). unfold attributes_of in El.
        destruct (find_child st (tok st a) "Attributes") as [at_|] eqn:Ef; [|injection El as <-; destruct Hin].
        apply child_in in Ef. eapply pairs_in in El; [|exact Hin].
        eapply (forest_closed h st Hfo) in Ef; [|exact Ha]. eapply (forest_closed h st Hfo) in El; [lia|exact Ef].
      + eapply error_lands; [exact M1|exact M2| |exact H]. split; [lia|].
        destruct (find_child st1 (tok st1 a) "EndOfScopeHeader") as [q|] eqn:Ef.
        * cbn [re]. apply Hgood. apply child_in in Ef. rewrite Hkids in Ef.
          eapply (forest_closed h st Hfo) in Ef; [lia|exact Ha].
        * apply Hgood. lia.
    - destruct (re (tk_mr (tok st a)) <? slen (p_src P)).
      + destruct (src_slice P _ _); [|discriminate]. unfold error_token in H. eapply error_lands; [exact Hl|exact Hk| |exact H]. exact Hc.
      + injection H as <- <-. auto.
    - destruct (find_child st (tok st a) "AdextopaScope").
      + injection H as <- <-. auto.
      + destruct (find_child st (tok st a) "PatternScope").
        * injection H as <- <-. auto.
        * eapply error_lands; eauto.
  Qed.
  Lemma map_err_lands f e cc s h st lo start tight r st' : (forall k, f <> MapUser k) ->
    low h st -> known s st -> lo <= rs (c_off cc) <= L -> start <= L -> map_err E P f e cc s st = Ret r st' ->
    low h st' /\ known s st' /\ lands lo start tight st' r.
  Proof.
    intros Hf Hl Hk Hc Hs H.
    destruct f, e; cbn [map_err] in H; try (now elim (Hf k));
      try (injection H as <- <-; cbn [lands lands_x]; repeat split; auto; lia).
    - destruct (error_string E P _ _); [|discriminate]. injection H as <- <-. cbn [lands]. auto.
    - unfold error_token in H. eapply error_lands; [exact Hl|exact Hk| |exact H]. exact Hc.
  Qed.

  (* ---------- one level ---------- *)

  Section Step.
    Variables (rec : recT) (fuel : nat).
    Hypothesis Hsound : forall h, sound h rec.
    Hypothesis Hland : landing rec.
    Hypothesis Hlook : looking rec.

    Lemma inner_lands back tight x cc s st r st' : onward back tight x -> keeps_names x -> known s st ->
      rs (c_off cc) <= L -> re (c_off cc) = L -> rec x cc s st = Ret r st' ->
      low (heap_size st) st' /\ known s st' /\ lands (low_of back (rs (c_off cc))) (rs (c_off cc)) tight st' r /\
      forest (heap_size st) st' /\ (forall a, In a (result_tokens r) -> (heap_size st <= a < heap_size st')%nat).
    Proof.
      intros H1 H2 H3 H4 H5 H. pose proof (Hsound _ _ _ _ _ _ _ (le_n _) (forest_top st) H) as (P1 & P2 & P3).
      apply (Hland back tight) in H as (A1 & A2 & A3); auto.
    Qed.

    Lemma proxy_lands lo start tight st a : lands lo start true st (Ok (SToken a)) -> lands lo start tight st (Ok (SProxy a)).
    Proof. intros [H1 H2]. split; auto. Qed.

    Ltac enter :=
      match goal with
      | H : context [before_exec ?m ?s ?st0], Hn : SpecGuard.keeps_names _ ?m, Hk : SpecGuard.known _ ?s ?st0 |- _ =>
          rewrite <- ?(before_size m s st0);
          let Hk1 := fresh "Hk1" in let st := fresh "st" in
          pose proof (known_before m s st0 Hn Hk) as Hk1; set (st := before_exec m s st0) in *; clearbody st
      end.

    Lemma program_lands back tight ps i c s st f r st' : (forall x, In x ps -> pat_ok back tight i x) -> known s st ->
      rs (c_off c) <= L -> re (c_off c) = L -> exec_program f E P rec ps i c s st = Ret r st' ->
      low (heap_size st) st' /\ known s st' /\ lands (low_of back (rs (c_off c))) (rs (c_off c)) tight st' r.
    Proof.
      intros Hps Hk H1 H2 H. unfold exec_program in H.
      eapply (iterate_lands rec back tight (clone_with_name c (pi_name i)) s (next_addr st) st i) in H; eauto.
      eapply start_J; eauto. cbn. lia.
    Qed.

    Lemma step_landing : landing (step fuel E P rec).
    Proof.
      intros back tight m c s st0 r st' Ho. revert c s st0 r st'.
      induction Ho as [back tight m Hm|back tight ps i Hi Hps|back tight ps i Hi Hps IH|back tight x Hx IH|back tight x Hx IH
        |x Hx IH|back tight x f Hf1 Hf2 Hx IH|back tight x Hx IH|back tight x n b Hx IH|back tight x n b Hx IH|n name b Hb
        |back tight x name b Hx IH|back tight x n b Hx IH|back tight x Hx IH|back tight x d Hx IH|tight x Hx IH|back x Hx IH];
        intros c s st0 r st' Hn Hk Hcs Hce H.
      16: { apply IH in H as (A1 & A2 & A3); auto. split; [exact A1|]. split; [exact A2|].
            eapply lands_lower; [|exact A3]. cbn [low_of]. lia. }
      16: { apply IH in H as (A1 & A2 & A3); auto. split; [exact A1|]. split; [exact A2|]. eapply lands_loose; eauto. }
      all: unfold step in H.
      all: enter.
      all: cbn [m_name] in H.
      - (* simple *)
        pose proof (low_le back (rs (c_off c))) as Hlo.
        inversion Hm; subst m; cbn [m_name] in H.
        + destruct (fetch_value st s f) as [[v|m1]|]; try discriminate.
          * destruct (matches_str _ _ _) as [[r0|]|] eqn:Em; try discriminate; (destruct (dbg E P _ 10); [|discriminate]);
              injection H as <- <-.
            -- apply leaf_lands; auto; [apply low_top|]. apply str_inside in Em. cbn in *. lia.
            -- split; [apply low_top|]. split; [exact Hk1|exact Logic.I].
          * injection H as <- <-. split; [apply low_top|]. split; [exact Hk1|exact Logic.I].
        + destruct (matches_regexp _ _ _) as [[r0|]|] eqn:Em; try discriminate.
          * apply re_inside in Em; auto. cbn [c_off clone_with_name] in Em.
            destruct (rs r0 =? re r0).
            -- destruct (dbg E P _ 10); [|discriminate]. injection H as <- <-. split; [apply low_top|]. split; [exact Hk1|].
               cbn. lia.
            -- injection H as <- <-. apply leaf_lands; auto; [apply low_top|]. cbn in *. lia.
          * destruct (dbg E P _ 10); [|discriminate]. injection H as <- <-. split; [apply low_top|]. split; [exact Hk1|exact Logic.I].
        + apply sequence_lands in H as [[-> [e ->]]|(t & -> & -> & Ht1 & Ht2)].
          * split; [apply low_top|]. split; [exact Hk1|exact Logic.I].
          * apply leaf_lands; auto; [apply low_top|lia].
        + injection H as <- <-. split; [apply low_top|]. split; [exact Hk1|]. cbn. lia.
        + destruct (error_string E P _ _); [|discriminate]. injection H as <- <-. split; [apply low_top|]. split; [exact Hk1|exact Logic.I].
        + unfold error_token in H. eapply error_lands; [apply low_top|exact Hk1| |exact H]. cbn [re]. lia.
        + injection H as <- <-. split; [apply low_top|]. split; [exact Hk1|exact Logic.I].
        + injection H as <- <-. split; [apply (low_heap _ st); [reflexivity|apply low_top]|].
          split; [apply known_set; [discriminate|exact Hk1]|]. cbn. lia.
        + injection H as <- <-. split; [apply low_top|]. split; [exact Hk1|]. cbn. lia.
        + cbn in H. injection H as <- <-. apply leaf_lands; auto; [apply low_top|]. cbn. lia.
        + destruct (debug_range E P _ 10); [|discriminate]. injection H as <- <-. split; [apply low_top|]. split; [exact Hk1|]. cbn. lia.
      - (* a program *)
        apply (program_lands back tight ps i c s st fuel); auto. intros x Hx. split; [now apply (part_names _ _ Hn)|].
        rewrite Hi. now apply Hps.
      - apply (program_lands back tight ps i c s st fuel); auto. intros x Hx. split; [now apply (part_names _ _ Hn)|].
        rewrite Hi. now apply Hps.
      - (* not *)
        destruct (rec x _ s st) as [r1 st1|p|] eqn:Er; try discriminate.
        apply (inner_lands back tight) in Er as (A1 & A2 & A3 & _ & _); auto; [|apply (part_names _ _ Hn); now left].
        destruct r1 as [[a|a|z|nm p|nm p| |]|[|e]]; try (injection H as <- <-; split; [exact A1|]; split; [exact A2|]);
          try exact Logic.I; try exact A3.
        + destruct (Z.eqb_spec z 0); injection H as <- <-; (split; [exact A1|]; split; [exact A2|]); [exact A3|exact Logic.I].
        + cbn. lia.
      - (* optional *)
        destruct (rec x _ s st) as [r1 st1|p|] eqn:Er; try discriminate.
        apply (inner_lands back tight) in Er as (A1 & A2 & A3 & _ & _); auto; [|apply (part_names _ _ Hn); now left].
        destruct r1 as [y|[|e]]; injection H as <- <-; (split; [exact A1|]; split; [exact A2|]); auto. cbn. lia.
      - (* discard *)
        destruct (rec x _ s st) as [r1 st1|p|] eqn:Er; try discriminate.
        apply (inner_lands false false) in Er as (A1 & A2 & A3 & A4 & A5); auto; [|apply (part_names _ _ Hn); now left].
        cbn [c_off clone_with_name low_of] in A3 |- *.
        assert (Hsk : forall a y st2, In a (result_tokens r1) -> rs (c_off c) <= stop_of st1 a ->
          skip_token E P (rs (c_off c)) a st1 = Ret y st2 ->
          low (heap_size st) st2 /\ known s st2 /\ lands_x (rs (c_off c)) (rs (c_off c)) false st2 y).
        { intros a y st2 Ha Hle Hy. assert (HL : stop_of st1 a <= L) by (apply A1; apply A5 in Ha; lia).
          apply (skip_lands (heap_size st) s) in Hy as (B1 & B2 & [(z & -> & Hz)|(b & -> & Hb)]); auto;
            (split; [exact B1|]; split; [exact B2|]); cbn [lands_x]; [lia|]. split; [lia|discriminate]. }
        destruct r1 as [[a|a|z|nm p|nm p| |]|e]; cbn [discard_result] in H; cbn [lands lands_x] in A3;
          try (injection H as <- <-; split; [exact A1|]; split; [exact A2|]; exact A3).
        + destruct (skip_token E P _ a st1) as [y st2|p|] eqn:Ey; try discriminate. injection H as <- <-.
          eapply Hsk; [now left|lia|exact Ey].
        + destruct (skip_token E P _ a st1) as [y st2|p|] eqn:Ey; try discriminate. injection H as <- <-.
          eapply Hsk; [now left|lia|exact Ey].
        + destruct (discard_payload E P _ p st1) as [y st2|q|] eqn:Ey; try discriminate. injection H as <- <-.
          destruct p as [a|a|z|nm' p|nm' p| |]; cbn [discard_payload lands_x] in Ey, A3; try discriminate;
            try (injection Ey as <- <-; split; [exact A1|]; split; [exact A2|]; exact A3).
          * cbn [lands lands_x]. eapply Hsk; [now left|lia|exact Ey].
          * cbn [lands lands_x]. eapply Hsk; [now left|lia|exact Ey].
        + destruct A3.
      - (* map *)
        destruct (rec x _ s st) as [r1 st1|p|] eqn:Er; try discriminate.
        apply (inner_lands back tight) in Er as (A1 & A2 & A3 & A4 & A5); auto; [|apply (part_names _ _ Hn); now left].
        pose proof (low_le back (rs (c_off c))) as Hlo.
        destruct r1 as [[a|a|z|nm p|nm p| |]|e]; try (injection H as <- <-; split; [exact A1|]; split; [exact A2|]; exact A3).
        + eapply (map_lands f a _ s (heap_size st)); [exact Hf1|congruence|exact A1|exact A2|exact A4|apply A5; now left| |exact Hcs|exact A3|exact H].
          cbn. lia.
        + eapply (map_lands f a _ s (heap_size st)); [exact Hf1|congruence|exact A1|exact A2|exact A4|apply A5; now left| |exact Hcs| |exact H].
          * cbn. lia.
          * destruct A3 as [A3 A6]. split; auto.
        + eapply map_err_lands; [exact Hf1|exact A1|exact A2| |exact Hcs|exact H]. cbn. lia.
      - (* map: the head of a script *)
        destruct (rec x _ s st) as [r1 st1|p|] eqn:Er; try discriminate.
        apply (inner_lands back tight) in Er as (A1 & A2 & A3 & A4 & A5); auto; [|apply (part_names _ _ Hn); now left].
        cbn [c_off clone_with_name low_of] in *. apply (lands_lower _ 0) in A3; [|lia].
        destruct r1 as [[a|a|z|nm p|nm p| |]|e]; try (injection H as <- <-; split; [exact A1|]; split; [exact A2|]; exact A3).
        + eapply (map_lands MapAdextopaScope a _ s (heap_size st)); [discriminate|reflexivity|exact A1|exact A2|exact A4|apply A5; now left| |exact Hcs|exact A3|exact H].
          cbn. lia.
        + eapply (map_lands MapAdextopaScope a _ s (heap_size st)); [discriminate|reflexivity|exact A1|exact A2|exact A4|apply A5; now left| |exact Hcs| |exact H].
          * cbn. lia.
          * destruct A3 as [A3 A6]. split; auto.
      - (* pin *)
        cbn [fetch_value] in H. unfold pin_context in H. cbn in H.
        eapply (inner_lands back tight) in H as (A1 & A2 & A3 & _ & _); auto; apply (part_names _ _ Hn); now left.
      - (* store *)
        destruct (rec x _ s st) as [r1 st1|p|] eqn:Er; try discriminate.
        apply (inner_lands back tight) in Er as (A1 & A2 & A3 & _ & _); auto; [|apply (part_names _ _ Hn); now left].
        destruct r1 as [[a|a|z|nm p|nm p| |]|e]; injection H as <- <-; auto.
        split; [apply (low_heap _ st1); [reflexivity|exact A1]|]. split; [apply known_set; [discriminate|exact A2]|exact A3].
      - (* ref *)
        cbn [fetch_value] in H. destruct (sc_get st s n) as [[a|v|m1]|] eqn:Eg;
          try (injection H as <- <-; split; [apply low_top|]; split; [exact Hk1|exact Logic.I]).
        destruct (body n) as [b0|] eqn:Eb; [|congruence]. assert (m1 = b0) by (eapply Hk1; eauto). subst b0.
        destruct (Hbody _ _ Eb) as [Ho Hkn].
        eapply (inner_lands false false) in H as (A1 & A2 & A3 & _ & _); auto.
      - (* a given matcher *)
        cbn [fetch_value] in H.
        eapply (inner_lands back tight) in H as (A1 & A2 & A3 & _ & _); auto; apply (part_names _ _ Hn); now left.
      - (* proxy *)
        destruct (rec x _ s st) as [r1 st1|p|] eqn:Er; try discriminate.
        apply (inner_lands back true) in Er as (A1 & A2 & A3 & _ & _); auto; [|apply (part_names _ _ Hn); now left].
        destruct r1 as [[a|a|z|nm p|nm p| |]|e];
          try (injection H as <- <-; split; [exact A1|]; split; [exact A2|]; exact A3).
        + injection H as <- <-. split; [exact A1|]. split; [exact A2|]. now apply proxy_lands.
        + assert (A3' := lands_loose _ _ tight _ _ A3).
          destruct p as [a|a|z|nm' p|nm' p| |]; injection H as <- <-; (split; [exact A1|]; split; [exact A2|]); try exact A3'.
          exact (proxy_lands (low_of back (rs (c_off c))) (rs (c_off c)) tight st1 a A3).
        + destruct A3.
      - (* expand *)
        destruct (rec x _ s st) as [r1 st1|p|] eqn:Er; try discriminate.
        apply (inner_lands back tight) in Er as (A1 & A2 & A3 & A4 & A5); auto; [|apply (part_names _ _ Hn); now left].
        destruct r1 as [[a|a|z|nm p|nm p| |]|e];
          try (injection H as <- <-; split; [exact A1|]; split; [exact A2|]; exact A3); injection H as <- <-.
        + destruct A3 as [A3 _]. split; [apply low_alloc; [exact A1|apply A3]|]. split; [now apply (known_scopes s st1)|].
          cbn [lands lands_x]. rewrite (proj1 (alloc_new _ _)), (proj2 (alloc_new _ _)).
          cbn [tk_mr tk_kids set_kids std_token2]. split; [exact A3|]. intros k [<-|[]].
          unfold stop_of. rewrite tok_alloc_old; [apply A3|]. apply (A5 a). now left.
        + unfold modify. split; [apply set_low; [exact A1|reflexivity|]; apply A5; now left|].
          split; [now apply (known_scopes s st1)|]. eapply lands_same; [|exact A3]. apply same_tok; reflexivity.
      - (* debug *)
        destruct (debug_range E P _ 10); [|discriminate].
        eapply (inner_lands back tight) in H as (A1 & A2 & A3 & _ & _); auto; apply (part_names _ _ Hn); now left.
    Qed.

    Lemma step_looking : looking (step fuel E P rec).
    Proof.
      intros m c s st0 r st' [Hm|Hm] Hn Hk H; unfold step in H.
      - inversion Hm; subst m; enter; cbn [m_name] in H.
        + destruct (fetch_value st s f) as [[v|m1]|]; try discriminate.
          * destruct (matches_str _ _ _) as [[r0|]|] eqn:Em; try discriminate; (destruct (dbg E P _ 10); [|discriminate]);
              injection H as <- <-.
            -- apply str_inside in Em. split; [apply low_alloc; [apply low_top|cbn in *; lia]|].
               split; [now apply (known_scopes s st)|]. rewrite (proj1 (alloc_new _ _)). cbn in *. lia.
            -- split; [apply low_top|auto].
          * injection H as <- <-. split; [apply low_top|split; [exact Hk1|exact Logic.I]].
        + destruct (matches_regexp _ _ _) as [[r0|]|] eqn:Em; try discriminate.
          * apply re_inside in Em; auto. destruct (rs r0 =? re r0).
            -- destruct (dbg E P _ 10); [|discriminate]. injection H as <- <-. split; [apply low_top|auto].
            -- injection H as <- <-. split; [apply low_alloc; [apply low_top|cbn in *; lia]|].
               split; [now apply (known_scopes s st)|]. rewrite (proj1 (alloc_new _ _)). cbn in *. lia.
          * destruct (dbg E P _ 10); [|discriminate]. injection H as <- <-. split; [apply low_top|auto].
        + apply sequence_lands in H as [[-> [e ->]]|(t & -> & -> & Ht1 & Ht2)].
          * split; [apply low_top|auto].
          * split; [apply low_alloc; [apply low_top|lia]|]. split; [now apply (known_scopes s st)|].
            rewrite (proj1 (alloc_new _ _)). lia.
        + destruct (rec x _ s st) as [r1 st1|p|] eqn:Er; try discriminate.
          apply Hlook in Er as (A1 & A2 & A3); auto; [|apply (part_names _ _ Hn); now left].
          destruct r1 as [[a|a|z|nm p|nm p| |]|e]; try (now elim A3).
          * cbn [map_ok] in H. destruct (error_string E P _ _); [|discriminate]. injection H as <- <-. auto.
          * injection H as <- <-. auto.
          * destruct e; cbn [map_err] in H; injection H as <- <-; auto.
        + destruct (rec x _ s st) as [r1 st1|p|] eqn:Er; try discriminate.
          apply Hlook in Er as (A1 & A2 & A3); auto; [|apply (part_names _ _ Hn); now left].
          destruct r1 as [[a|a|z|nm p|nm p| |]|e]; try (now elim A3).
          * cbn [map_ok] in H. unfold error_token_at in H. destruct (error_string E P _ _); [|discriminate].
            injection H as <- <-. split; [apply low_alloc; [exact A1|exact A3]|]. split; [now apply (known_scopes s st1)|].
            rewrite (proj1 (alloc_new _ _)). exact A3.
          * injection H as <- <-. auto.
          * destruct e; cbn [map_err] in H; injection H as <- <-; auto.
      - destruct Hm as (x & off & n & b & -> & Hx). enter. cbn [m_name] in H.
        destruct (fetch_value st s off) as [[v|m1]|]; try discriminate.
        + destruct (pin_context _ _ _) as [c1|]; [|discriminate]. apply Hlook in H; auto. apply (part_names _ _ Hn). now left.
        + injection H as <- <-. split; [apply low_top|auto].
    Qed.

    (* ---------- what follows for the parts ---------- *)

    Lemma onward_inv back tight m : onward back tight m ->
      match m with
      | MProgram ps i => forall x, In x ps ->
          if pi_stop i then onward back tight x else onward back false x \/ (tight = false /\ aside x)
      | MDiscard x => onward false false x
      | MProxy x _ _ => onward back true x
      | MStore (SPMatcher x) _ _ => onward back tight x
      | MMap x _ => back = false -> onward back tight x
      | _ => True
      end.
    Proof.
      induction 1 as [back tight m Hm|back tight ps i Hi Hps|back tight ps i Hi Hps IH|back tight x Hx IH|back tight x Hx IH
        |x Hx IH|back tight x f Hf1 Hf2 Hx IH|back tight x Hx IH|back tight x n b Hx IH|back tight x n b Hx IH|n name b Hb
        |back tight x name b Hx IH|back tight x n b Hx IH|back tight x Hx IH|back tight x d Hx IH|tight x Hx IH|back x Hx IH]; auto.
      - destruct Hm; auto.
      - rewrite Hi. exact Hps.
      - rewrite Hi. exact Hps.
      - discriminate.
      - destruct x; auto.
        + intros x Hin. specialize (IH x Hin). destruct (pi_stop _); [now apply on_back|].
          destruct IH as [IH|IH]; [left; now apply on_back|auto].
        + discriminate.
        + destruct p; auto. now apply on_back.
        + now apply on_back.
      - destruct x; auto.
        + intros x Hin. specialize (IH x Hin). destruct (pi_stop _); [now apply on_loose|].
          destruct IH as [IH|[IH _]]; [auto|discriminate].
        + intros Hb. apply on_loose. auto.
        + destruct p; auto. now apply on_loose.
    Qed.

    Definition leaping0 (r0 : recT) : Prop :=
      forall tight m c s st r st', moves m -> onward false tight m -> keeps_names m -> known s st ->
        rs (c_off c) <= L -> re (c_off c) = L -> r0 m c s st = Ret r st' -> moved (rs (c_off c)) st' r.
    Definition leaving0 (r0 : recT) : Prop :=
      forall back tight m c s st r st', leaves m -> onward back tight m -> keeps_names m -> known s st ->
        rs (c_off c) <= L -> re (c_off c) = L -> r0 m c s st = Ret r st' -> quits r.
    Hypothesis Hleap : leaping0 rec.
    Hypothesis Hleave : leaving0 rec.

    Lemma step_leaving : leaving0 (step fuel E P rec).
    Proof.
      intros back tight m c s st0 r st' Hm Ho Hn Hk Hcs Hce H. unfold step in H. apply onward_inv in Ho.
      inversion Hm as [n|msg|ps i x Hst Hit Hin Hx|x Hx|x n b Hx]; subst m; enter; cbn [m_name] in H.
      - injection H as <- <-. exact Logic.I.
      - destruct (error_string E P _ _); [|discriminate]. injection H as <- <-. exact Logic.I.
      - unfold exec_program, iterations in H. rewrite Hit in H.
        assert (Hpo : forall x, In x ps -> pat_ok back tight i x).
        { intros y Hy. split; [now apply (part_names _ _ Hn)|now apply Ho]. }
        eapply (iterate_quits rec back tight (clone_with_name c (pi_name i)) s (next_addr st) st i) in H; eauto.
        + exists x. split; [exact Hin|]. intros cc st1 r1 st2 H1 H2 H3 H4. specialize (Ho x Hin). rewrite Hst in Ho.
          destruct Ho as [Ho|[_ Ho]].
          * eapply (Hleave back false); eauto. now apply (part_names _ _ Hn).
          * exfalso. destruct Ho as (y & off & n & b & -> & _). inversion Hx.
        + eapply start_J; eauto. cbn. lia.
      - destruct (rec x _ s st) as [r1 st1|p|] eqn:Er; try discriminate.
        eapply (Hleave false false) in Er; eauto; [|apply (part_names _ _ Hn); now left].
        destruct r1 as [[a|a|z|nm p|nm p| |]|e]; destruct Er; cbn [discard_result] in H.
        + destruct (discard_payload E P _ p st1); try discriminate. injection H as <- <-. exact Logic.I.
        + injection H as <- <-. exact Logic.I.
      - destruct (rec x _ s st) as [r1 st1|p|] eqn:Er; try discriminate.
        eapply (Hleave back true) in Er; eauto; [|apply (part_names _ _ Hn); now left].
        destruct r1 as [[a|a|z|nm p|nm p| |]|e]; destruct Er.
        + destruct p; injection H as <- <-; exact Logic.I.
        + injection H as <- <-. exact Logic.I.
    Qed.

    Lemma quits_moved from st r : quits r -> moved from st r.
    Proof. destruct r as [[]|]; cbn; auto; intros []. Qed.

    Lemma modify_moved from st a g x : tk_mr (g (tok st a)) = tk_mr (tok st a) -> tk_kind (g (tok st a)) = tk_kind (tok st a) ->
      (x = SToken a) -> moved from st (Ok x) -> moved from (modify st a g) (Ok x).
    Proof.
      intros H1 H2 ->. cbn [moved]. unfold stop_of, modify, should_discard.
      destruct (Nat.lt_ge_cases a (heap_size st)) as [Hl|Hl].
      - rewrite tok_set_same by exact Hl. now rewrite H1, H2.
      - now rewrite tok_set_dead.
    Qed.

    Lemma step_leaping : leaping0 (step fuel E P rec).
    Proof.
      intros tight m c s st0 r st' Hm Ho Hn Hk Hcs Hce H.
      destruct (Hm) as [f n b|f n b Hf|f g h n b|x Hx|ps i x Hst Hit Hin Hc Hx|ps i Hst Hit Hx|x Hx|x n b Hx|x l Hx|x n Hx|x Hx|x Hx].
      4: { apply quits_moved. eapply step_leaving; eauto. }
      all: unfold step in H; apply onward_inv in Ho; enter; cbn [m_name] in H.
      - destruct (fetch_value st s f) as [[v|m1]|]; try discriminate; [|injection H as <- <-; exact Logic.I].
        destruct (matches_str _ _ _) as [[r0|]|] eqn:Em; try discriminate; (destruct (dbg E P _ 10); [|discriminate]);
          injection H as <- <-; [|exact Logic.I].
        apply str_inside in Em. cbn [moved]. rewrite (proj1 (alloc_new _ _)), tok_alloc_new. cbn in *. split; [lia|reflexivity].
      - destruct (matches_regexp _ _ _) as [[r0|]|] eqn:Em; try discriminate.
        + unfold matches_regexp in Em. destruct (src_slice P _ _) as [w|]; [|discriminate].
          destruct (f w) as [[ms me]|] eqn:Efw; [|discriminate]. cbn [c_off clone_with_name] in Em.
          destruct (N.eqb_spec (ms + rs (c_off c)) (rs (c_off c))) as [E0|E0]; [|discriminate]. injection Em as <-.
          assert (ms = 0) by lia. subst ms. apply Hf in Efw. cbn [rs re] in H.
          destruct (N.eqb_spec (0 + rs (c_off c)) (me + rs (c_off c))); [lia|]. injection H as <- <-.
          cbn [moved]. rewrite (proj1 (alloc_new _ _)), tok_alloc_new. cbn. split; [lia|reflexivity].
        + destruct (dbg E P _ 10); [|discriminate]. injection H as <- <-. exact Logic.I.
      - unfold exec_sequence in H. destruct (fetch_value st s f) as [[sp|]|]; try discriminate;
          [|injection H as <- <-; exact Logic.I].
        destruct (slen sp =? 0); [discriminate|].
        destruct (fetch_value st s g) as [[ep|]|]; try discriminate; [|injection H as <- <-; exact Logic.I].
        destruct (slen ep =? 0); [discriminate|].
        destruct (fetch_value st s h) as [[esc|]|]; try discriminate; [|injection H as <- <-; exact Logic.I].
        destruct (matches_str _ _ _) as [[r0|]|] eqn:Em; try discriminate.
        + destruct (seq_scan _ _ _ _ _ _ _ _) as [[j v| |]|] eqn:Es; try discriminate.
          * destruct (dbg E P _ _); [|discriminate]. injection H as <- <-. cbn [moved].
            rewrite (proj1 (alloc_new _ _)), tok_alloc_new. cbn. split; [|reflexivity].
            apply str_inside in Em. apply scan_inside in Es. cbn [c_off clone_with_name] in Em. lia.
          * destruct (dbg E P _ 10); [|discriminate]. injection H as <- <-. exact Logic.I.
        + destruct (dbg E P _ 10); [|discriminate]. injection H as <- <-. exact Logic.I.
      - unfold exec_program, iterations in H. rewrite Hit in H.
        assert (Hpo : forall x, In x ps -> pat_ok false tight i x).
        { intros y Hy. split; [now apply (part_names _ _ Hn)|now apply Ho]. }
        eapply (iterate_moves rec false tight (clone_with_name c (pi_name i)) s (next_addr st) st i) in H; eauto.
        + exists x. split; [exact Hin|]. split; [exact Hc|]. intros cc st1 r1 st2 H1 H2 H3 H4.
          specialize (Ho x Hin). rewrite Hst in Ho. destruct Ho as [Ho|[_ Ho]].
          * apply (Hleap false x cc s st1 r1 st2 Hx Ho); auto. now apply (part_names _ _ Hn).
          * exfalso. destruct Ho as (y & off & n & b & -> & _). discriminate.
        + eapply start_J; eauto. cbn. lia.
      - unfold exec_program, iterations in H. rewrite Hit in H.
        eapply (switch_moves rec false tight (clone_with_name c (pi_name i)) s (next_addr st) st i) in H; eauto.
        + intros y Hy. specialize (Ho y Hy). split; [split; [now apply (part_names _ _ Hn)|exact Ho]|].
          rewrite Hst in Ho. intros cc st1 r1 st2 H1 H2 H3 H4. apply (Hleap tight y cc s st1 r1 st2 (Hx y Hy) Ho); auto. now apply (part_names _ _ Hn).
        + eapply start_J; eauto. cbn. lia.
      - destruct (rec x _ s st) as [r1 st1|p|] eqn:Er; try discriminate. pose proof Er as Er0.
        eapply (Hleap false) in Er; eauto; [|apply (part_names _ _ Hn); now left].
        apply (inner_lands false false) in Er0 as (A1 & A2 & A3 & A4 & A5); auto; [|apply (part_names _ _ Hn); now left].
        cbn [c_off clone_with_name] in Er. cbn [c_off clone_with_name low_of] in A3.
        destruct r1 as [[a|a|z|nm p|nm p| |]|e]; cbn [discard_result] in H; cbn [lands lands_x] in A3;
          try (injection H as <- <-; exact Er); try destruct Er.
        + destruct (skip_token E P _ a st1) as [y st2|p|] eqn:Ey; try discriminate. injection H as <- <-.
          pose proof Ey as Ey0.
          destruct (skip_lands (heap_size st) s _ _ _ _ _ A1 A2 A4 (A5 a (or_introl eq_refl)) (proj1 (proj1 A3)) Ey)
            as (B1 & B2 & [(z & -> & Hz)|(b & -> & Hb)]); [cbn [moved]; lia|].
          cbn [moved]. split; [lia|]. unfold skip_token in Ey0. destruct (error_tokens _ st1 a) as [l|]; [|discriminate].
          destruct l as [|e l]; [destruct (or_die _ _); discriminate|]. injection Ey0 as <- <-.
          rewrite tok_alloc_new. unfold should_discard.
          pose proof (add_errors_kind P st1 (e :: l) (std_token P "Error" (mkR (rs (c_off c)) (re (tk_mr (tok st1 a)))))) as Hkd.
          cbn [tk_kind std_token] in Hkd. exact (f_equal (fun k => match k with KStandard => false | KPin => true end) Hkd).
        + destruct (discard_payload E P _ p st1); try discriminate. injection H as <- <-. exact Logic.I.
      - destruct (rec x _ s st) as [r1 st1|p|] eqn:Er; try discriminate.
        eapply (Hleap tight) in Er; eauto; [|apply (part_names _ _ Hn); now left].
        destruct r1 as [[a|a|z|nm p|nm p| |]|e]; injection H as <- <-; exact Er.
      - destruct (rec x _ s st) as [r1 st1|p|] eqn:Er; try discriminate.
        eapply (Hleap tight) in Er; eauto; [|apply (part_names _ _ Hn); now left].
        destruct r1 as [[a|a|z|nm p|nm p| |]|e]; try (injection H as <- <-; exact Er); try destruct Er.
        injection H as <- <-. apply modify_moved; auto; [apply missing_mr|apply add_missing_kind|now split].
      - destruct (rec x _ s st) as [r1 st1|p|] eqn:Er; try discriminate.
        eapply (Hleap tight) in Er; eauto; [|apply (part_names _ _ Hn); now left].
        destruct r1 as [[a|a|z|nm p|nm p| |]|e]; try (injection H as <- <-; exact Er); try destruct Er.
        injection H as <- <-. apply modify_moved; auto. now split.
      - destruct (rec x _ s st) as [r1 st1|p|] eqn:Er; try discriminate.
        eapply (Hleap tight) in Er; eauto; [|apply (part_names _ _ Hn); now left].
        destruct r1 as [[a|a|z|nm p|nm p| |]|e]; try (injection H as <- <-; exact Er); try destruct Er.
        injection H as <- <-. apply modify_moved; auto. now split.
      - destruct (rec x _ s st) as [r1 st1|p|] eqn:Er; try discriminate.
        eapply (Hleap tight) in Er; eauto; [|apply (part_names _ _ Hn); now left].
        destruct r1 as [[a|a|z|nm p|nm p| |]|e]; try (injection H as <- <-; exact Er); try destruct Er.
        cbn [map_ok] in H. destruct (attributes_of st1 a) as [l|]; [|discriminate].
        injection H as <- <-. apply modify_moved; auto; [apply attrs_mr|apply set_attrs_kind|now split].
    Qed.
  End Step.

  Lemma exec_landing n : landing (exec n E P) /\ looking (exec n E P) /\ leaping0 (exec n E P) /\ leaving0 (exec n E P).
  Proof.
    induction n as [|n (H1 & H2 & H3 & H4)]; [repeat split; intros; discriminate|].
    pose proof (exec_sound E P HE n) as Hs.
    split; [now apply step_landing|]. split; [now apply step_looking|]. split; [now apply step_leaping|now apply step_leaving].
  Qed.
End Landing.
