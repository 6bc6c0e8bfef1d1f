(* Proofs about the pure methods of ParserContext (C01-C06). *)
From Verif Require Export Facts Spec.
From Coq Require Import Sorted.
Open Scope list_scope.
Open Scope N_scope.

(* ---------- slices ---------- *)

Lemma is_cont_iff x : is_cont x = true <-> continuation x.
Proof. unfold is_cont, continuation. lia. Qed.

Lemma is_boundary_iff s a : is_boundary s a = true <-> char_boundary s a.
Proof.
  unfold char_boundary. destruct (N.eqb_spec a 0) as [->|Ha].
  { split; [auto|reflexivity]. }
  destruct (N.le_gt_cases a (slen s)) as [L|L].
  - destruct (split_at_N a s L) as (pre & post & -> & <-).
    rewrite is_boundary_app. split; intros H.
    + right. exists pre, post. do 2 (split; [reflexivity|]).
      destruct post as [|c post]; [exact I|]. rewrite <- is_cont_iff.
      destruct pre as [|x pre]; [rewrite slen_nil in Ha; lia|].
      destruct (is_cont c); easy.
    + destruct H as [H|(pre' & post' & E & L' & H)]; [lia|].
      apply app_inj_len in E as [-> ->]; [|auto].
      destruct pre' as [|x pre']; [reflexivity|]. destruct post' as [|c post']; [reflexivity|].
      rewrite <- is_cont_iff in H; destruct (is_cont c); [exfalso; now apply H|reflexivity].
  - split.
    + unfold is_boundary. destruct (N.eqb_spec a 0); [lia|].
      apply N.compare_gt_iff in L. rewrite L. easy.
    + intros [H|(pre & post & -> & <- & _)]; [lia|]. rewrite slen_app in L. lia.
Qed.

Lemma slice_iff s a b w :
  slice s a b = Some w <-> window s a b w /\ char_boundary s a /\ char_boundary s b.
Proof.
  rewrite <- !is_boundary_iff. unfold window. split.
  - intros H. apply slice_some in H as (pre & post & E & L1 & L2 & B1 & B2).
    split; [|auto]. exists pre, post. rewrite slen_app. auto.
  - intros [(pre & post & -> & <- & <-) [B1 B2]]. rewrite slen_app in *.
    now apply slice_intro.
Qed.

Lemma window_exists s a b : a <= b -> b <= slen s -> exists w, window s a b w.
Proof.
  intros H1 H2. destruct (split_at_N a s) as (pre & r & -> & L); [lia|].
  rewrite slen_app in H2.
  destruct (split_at_N (b - a) r) as (w & post & -> & L2); [lia|].
  exists w, pre, post. rewrite slen_app. repeat split; lia.
Qed.

Lemma window_unique s a b w w' : window s a b w -> window s a b w' -> w = w'.
Proof.
  intros (p & q & E & L & L2) (p' & q' & E' & L' & L2'). subst s. rewrite slen_app in *.
  apply app_inj_len in E' as [-> E']; [|lia]. apply app_inj_len in E' as [-> _]; [reflexivity|lia].
Qed.

Lemma window_len s a b w : window s a b w -> a <= b /\ b <= slen s /\ slen w = b - a.
Proof. intros (p & q & -> & <- & <-). rewrite !slen_app. lia. Qed.

Lemma slice_none s a b : slice s a b = None <-> ~ sliceable s (mkR a b).
Proof.
  unfold sliceable; cbn [rs re]. split.
  - intros H (H1 & H2 & H3 & H4). destruct (window_exists s a b H1 H2) as [w Hw].
    assert (slice s a b = Some w) by (apply slice_iff; auto). congruence.
  - intros H. destruct (slice s a b) as [w|] eqn:E; [|reflexivity].
    exfalso; apply H. apply slice_iff in E as (W & B1 & B2).
    apply window_len in W. repeat split; try lia; auto.
Qed.

Lemma sliceable_slice s r : sliceable s r -> exists w, slice s (rs r) (re r) = Some w /\ window s (rs r) (re r) w.
Proof.
  intros (H1 & H2 & H3 & H4). destruct (window_exists s _ _ H1 H2) as [w Hw].
  exists w. rewrite slice_iff. auto.
Qed.

(* ---------- C01 ---------- *)

Lemma matches_str_some P c pat r :
  matches_str P c pat = Val (Some r) <->
  sliceable (p_src P) (c_off c) /\ pat <> [] /\
  (exists rest, window (p_src P) (rs (c_off c)) (re (c_off c)) (pat ++ rest)) /\
  rs r = rs (c_off c) /\ re r = rs (c_off c) + slen pat.
Proof.
  unfold matches_str, src_slice, clone_with_len.
  destruct (N.eqb_spec (slen pat) 0) as [H0|H0]; rewrite slen_0 in H0.
  { split; [easy|intros (_ & H & _); easy]. }
  destruct (slice _ _ _) as [w|] eqn:Hs; cbn.
  - assert (Hs' := Hs). apply slice_iff in Hs' as (W & B1 & B2).
    destruct (starts_with pat w) eqn:Hp.
    + apply starts_with_iff in Hp as [t ->]. split.
      * intros E. injection E as <-. cbn. apply window_len in W as W'. unfold sliceable.
        repeat split; auto; try lia. eauto.
      * intros (_ & _ & _ & H1 & H2). destruct r as [a b]. cbn in *. subst. reflexivity.
    + split; [easy|]. intros (_ & _ & [t W'] & _).
      rewrite (window_unique _ _ _ _ _ W W') in Hp. rewrite starts_with_app in Hp. easy.
  - split; [easy|]. intros (Hv & _). apply slice_none in Hs. now destruct (c_off c).
Qed.

Lemma matches_str_none P c pat :
  matches_str P c pat = Val None <->
  pat = [] \/
  (sliceable (p_src P) (c_off c) /\
   ~ exists rest, window (p_src P) (rs (c_off c)) (re (c_off c)) (pat ++ rest)).
Proof.
  unfold matches_str, src_slice, clone_with_len.
  destruct (N.eqb_spec (slen pat) 0) as [H0|H0]; rewrite slen_0 in H0.
  { split; auto. }
  destruct (slice _ _ _) as [w|] eqn:Hs; cbn.
  - assert (Hs' := Hs). apply slice_iff in Hs' as (W & B1 & B2).
    assert (sliceable (p_src P) (c_off c)) as Hv.
    { apply window_len in W. unfold sliceable; repeat split; auto; lia. }
    destruct (starts_with pat w) eqn:Hp.
    + apply starts_with_iff in Hp as [t ->]. split; [easy|].
      intros [H|[_ H]]; [easy|]. exfalso; eauto.
    + split; [|auto]. intros _. right. split; [exact Hv|]. intros [t W'].
      rewrite (window_unique _ _ _ _ _ W W') in Hp. rewrite starts_with_app in Hp. easy.
  - apply slice_none in Hs. split; [easy|]. intros [H|[H _]]; [easy|]. now destruct (c_off c).
Qed.

Lemma matches_str_die P c pat p :
  matches_str P c pat = Die p <->
  p = PSlice /\ pat <> [] /\ ~ sliceable (p_src P) (c_off c).
Proof.
  unfold matches_str, src_slice, clone_with_len.
  destruct (N.eqb_spec (slen pat) 0) as [H0|H0]; rewrite slen_0 in H0.
  { split; [easy|intros (_ & H & _); easy]. }
  destruct (slice _ _ _) as [w|] eqn:Hs; cbn.
  - apply slice_iff in Hs as (W & B1 & B2). apply window_len in W.
    destruct (starts_with pat w); (split; [easy|]); intros (_ & _ & H); exfalso; apply H;
      unfold sliceable; repeat split; auto; lia.
  - apply slice_none in Hs. split.
    + intros H; injection H as <-. destruct (c_off c); auto.
    + intros (-> & _). reflexivity.
Qed.

(* ---------- C02 ---------- *)

Lemma matches_regexp_spec P c f w :
  slice (p_src P) (rs (c_off c)) (re (c_off c)) = Some w ->
  matches_regexp P c f =
  Val (match f w with
       | Some (0, n) => Some (mkR (rs (c_off c)) (n + rs (c_off c)))
       | _ => None
       end).
Proof.
  intros H. unfold matches_regexp, src_slice. rewrite H. cbn.
  destruct (f w) as [[a b]|]; [|reflexivity].
  destruct a as [|a]; cbn [negb].
  - rewrite N.add_0_l, N.eqb_refl. reflexivity.
  - destruct (N.eqb_spec (N.pos a + rs (c_off c)) (rs (c_off c))); [lia|reflexivity].
Qed.

(* ---------- C03: lines ---------- *)

(* indices that end a line, computed directly on indices *)
Definition ends_lineb (s : str) (i : nat) : bool :=
  match nth_error s i with
  | Some x => Ascii.eqb x LF
              || (Ascii.eqb x CR && negb (match nth_error s (S i) with
                                          | Some y => Ascii.eqb y LF
                                          | None => false
                                          end))
  | None => false
  end.

Lemma ends_lineb_iff s i : ends_lineb s i = true <-> ends_line s i.
Proof.
  unfold ends_lineb, ends_line. destruct (nth_error s i) as [x|]; [|intuition congruence].
  rewrite orb_true_iff, andb_true_iff, negb_true_iff, !Ascii.eqb_eq.
  destruct (nth_error s (S i)) as [y|].
  - rewrite Ascii.eqb_neq. intuition congruence.
  - intuition congruence.
Qed.

Definition break_list (s : str) : list nat := filter (ends_lineb s) (seq 0 (List.length s)).

Lemma filter_map_comm {A B} (f : A -> B) (p : B -> bool) l :
  filter p (map f l) = map f (filter (fun x => p (f x)) l).
Proof. induction l as [|x l IH]; cbn; [reflexivity|]. destruct (p (f x)); cbn; now rewrite IH. Qed.

Lemma break_list_cons x s :
  break_list (x :: s) =
  (if ends_lineb (x :: s) 0 then [O] else []) ++ map S (break_list s).
Proof.
  unfold break_list. cbn [List.length seq]. rewrite <- seq_shift. cbn [filter].
  rewrite filter_map_comm.
  replace (filter (fun i => ends_lineb (x :: s) (S i)) (seq 0 (List.length s)))
    with (filter (ends_lineb s) (seq 0 (List.length s))) by (apply filter_ext; reflexivity).
  destruct (ends_lineb (x :: s) 0); reflexivity.
Qed.

Lemma map_break_shift pos l :
  map (fun i => pos + N.of_nat i + 1) (map S l) = map (fun i => (pos + 1) + N.of_nat i + 1) l.
Proof. rewrite map_map. apply map_ext. intros; lia. Qed.

Lemma LF_CR : Ascii.eqb CR LF = false.
Proof. reflexivity. Qed.

Lemma newline_ends_spec : forall n s pos, (List.length s <= n)%nat ->
  newline_ends pos s = map (fun i => pos + N.of_nat i + 1) (break_list s).
Proof.
  induction n as [|n IH]; intros s pos Hn.
  { destruct s; [reflexivity|cbn in Hn; lia]. }
  destruct s as [|x s]; [reflexivity|]. cbn [List.length] in Hn.
  rewrite break_list_cons, map_app, map_break_shift. cbn [newline_ends].
  unfold ends_lineb at 1. cbn [nth_error].
  destruct (Ascii.eqb x LF) eqn:E1; cbn [orb].
  { rewrite IH by lia. cbn [map app]. f_equal. lia. }
  destruct (Ascii.eqb x CR) eqn:E2; cbn [andb].
  2:{ rewrite IH by lia. reflexivity. }
  destruct s as [|y s]; [cbn; f_equal; lia|].
  cbn [nth_error]. destruct (Ascii.eqb y LF) eqn:E3; cbn [negb].
  - cbn [List.length] in Hn. rewrite IH by lia. cbn [map app].
    rewrite break_list_cons, map_app, map_break_shift. unfold ends_lineb at 1. cbn [nth_error].
    rewrite E3. cbn [orb map app]. f_equal; [lia|]. apply map_ext; intros; lia.
  - rewrite IH by (cbn [List.length] in *; lia). cbn [map app]. f_equal. lia.
Qed.

Lemma break_list_in s i : In i (break_list s) <-> ends_line s i.
Proof.
  unfold break_list. rewrite filter_In, ends_lineb_iff, in_seq. split; [tauto|].
  intros H. split; [|exact H]. assert (i < List.length s)%nat; [|lia].
  apply nth_error_Some. destruct H as [H|[H _]]; rewrite H; congruence.
Qed.

Lemma StronglySorted_filter {A} (R : A -> A -> Prop) f l :
  StronglySorted R l -> StronglySorted R (filter f l).
Proof.
  induction 1 as [|x l Hl IH Hx]; cbn; [constructor|].
  destruct (f x); [|exact IH]. constructor; [exact IH|].
  rewrite Forall_forall in *. intros y Hy. apply filter_In in Hy as [Hy _]. auto.
Qed.

Lemma seq_sorted n : forall k, StronglySorted lt (seq k n).
Proof.
  induction n as [|n IH]; intros k; cbn; constructor; [apply IH|].
  rewrite Forall_forall. intros x Hx. apply in_seq in Hx. lia.
Qed.

Lemma break_list_ends s : line_ends s (break_list s).
Proof.
  split; [apply break_list_in|]. apply StronglySorted_filter, seq_sorted.
Qed.

Lemma sorted_ext (l l' : list nat) :
  StronglySorted lt l -> StronglySorted lt l' -> (forall i, In i l <-> In i l') -> l = l'.
Proof.
  intros H; revert l'; induction H as [|x l Hl IH Hx]; intros l' H' E.
  - destruct l' as [|y l']; [reflexivity|]. exfalso. apply (E y). now left.
  - destruct H' as [|y l' Hl' Hy]; [exfalso; apply (E x); now left|].
    rewrite Forall_forall in Hx, Hy.
    assert (x = y) as ->.
    { destruct (proj1 (E x) (or_introl eq_refl)) as [->|H1]; [reflexivity|].
      destruct (proj2 (E y) (or_introl eq_refl)) as [->|H2]; [reflexivity|].
      specialize (Hx _ H2); specialize (Hy _ H1); lia. }
    f_equal. apply IH; [exact Hl'|]. intros i. split; intros Hi.
    + destruct (proj1 (E i) (or_intror Hi)) as [->|]; [|assumption]. specialize (Hx _ Hi); lia.
    + destruct (proj2 (E i) (or_intror Hi)) as [->|]; [|assumption]. specialize (Hy _ Hi); lia.
Qed.

Lemma line_no_iff s n : line_no s n <-> n = N.of_nat (List.length (break_list s)) + 1.
Proof.
  split.
  - intros (l & [H1 H2] & ->).
    replace l with (break_list s); [reflexivity|].
    destruct (break_list_ends s) as [H3 H4]. apply sorted_ext; auto.
    intros i. rewrite H1, H3. tauto.
  - intros ->. exists (break_list s). split; [apply break_list_ends|reflexivity].
Qed.

Lemma count_newlines_spec s : count_newlines s = N.of_nat (List.length (break_list s)).
Proof.
  unfold count_newlines. rewrite (newline_ends_spec (List.length s)) by lia. now rewrite map_length.
Qed.

Lemma window_0 s a b w : window s 0 a b -> window s 0 a w -> b = w.
Proof. apply window_unique. Qed.

Lemma get_lines_spec P r :
  sliceable (p_src P) (mkR 0 (rs r)) -> sliceable (p_src P) (mkR 0 (re r)) ->
  exists a b la lb,
    window (p_src P) 0 (rs r) a /\ window (p_src P) 0 (re r) b /\
    line_no a la /\ line_no b lb /\ get_lines P r = Val (la, lb).
Proof.
  intros Ha Hb. destruct (sliceable_slice _ _ Ha) as (a & Ea & Wa).
  destruct (sliceable_slice _ _ Hb) as (b & Eb & Wb). cbn [rs re] in *.
  exists a, b, (N.of_nat (List.length (break_list a)) + 1),
    (N.of_nat (List.length (break_list b)) + 1).
  repeat split; auto; try (apply line_no_iff; reflexivity).
  unfold get_lines, src_slice. rewrite Ea, Eb. cbn. now rewrite !count_newlines_spec.
Qed.

(* a longer prefix has at least as many line ends *)
Lemma breaks_prefix : forall n a t, (List.length a <= n)%nat ->
  (List.length (break_list a) <= List.length (break_list (a ++ t)))%nat.
Proof.
  induction n as [|n IH]; intros a t Hn.
  { destruct a; [cbn; lia|cbn in Hn; lia]. }
  destruct a as [|x a]; [cbn; lia|]. cbn [List.length] in Hn. cbn [app].
  rewrite !break_list_cons, !app_length, !map_length.
  unfold ends_lineb. cbn [nth_error].
  destruct (Ascii.eqb x LF); cbn [orb].
  { specialize (IH a t ltac:(lia)). cbn [List.length]; lia. }
  destruct (Ascii.eqb x CR); cbn [andb].
  2:{ specialize (IH a t ltac:(lia)). cbn [List.length]; lia. }
  destruct a as [|y a].
  - cbn [app]. destruct t as [|z t]; [cbn; lia|]. cbn [nth_error].
    change (break_list []) with (@nil nat).
    destruct (Ascii.eqb z LF) eqn:E; cbn [negb List.length]; [|lia].
    rewrite break_list_cons. unfold ends_lineb. cbn [nth_error]. rewrite E. cbn [orb app List.length]. lia.
  - cbn [app nth_error]. specialize (IH (y :: a) t ltac:(lia)). cbn [app] in IH.
    destruct (Ascii.eqb y LF); cbn [negb List.length]; lia.
Qed.

Lemma window_prefix s a b u v : a <= b -> window s 0 a u -> window s 0 b v -> exists t, v = u ++ t.
Proof.
  intros H (p & q & E & L & L2) (p' & q' & E' & L' & L2').
  apply slen_0 in L, L'. subst p p' s. cbn [app] in *.
  apply app_eq_app in E' as (l & [[E1 E2]|[E1 E2]]); subst.
  - rewrite slen_app in *. assert (l = []) as -> by (apply slen_0; lia).
    exists []. now rewrite !app_nil_r.
  - eauto.
Qed.

Lemma get_lines_ordered P r x y :
  rs r <= re r -> get_lines P r = Val (x, y) -> x <= y.
Proof.
  intros H. unfold get_lines, src_slice.
  destruct (slice _ 0 (rs r)) as [a|] eqn:Ea; cbn; [|easy].
  destruct (slice _ 0 (re r)) as [b|] eqn:Eb; cbn; [|easy].
  intros E; injection E as <- <-. rewrite !count_newlines_spec.
  apply slice_iff in Ea as [Wa _], Eb as [Wb _].
  destruct (window_prefix _ _ _ _ _ H Wa Wb) as [t ->].
  pose proof (breaks_prefix (List.length a) a t ltac:(lia)). lia.
Qed.

(* ---------- C04: columns ---------- *)

(* largest element of l that is <= p, above d *)
Lemma columns_loop_spec r : forall l ln fc lc,
  rs r <= re r -> StronglySorted N.lt l -> (forall e, In e l -> ln < e <= re r) ->
  ln <= rs r \/ fc <> 0 ->
  exists ln' fc',
    columns_loop r l ln fc lc = (ln', fc', lc) /\
    (ln' = ln /\ l = [] \/ In ln' l) /\ (forall e, In e l -> e <= ln') /\ ln <= ln' /\
    (fc <> 0 -> fc' = fc) /\
    (fc = 0 ->
       (fc' = 0 /\ ln' <= rs r) \/
       (rs r < ln' /\ exists k, fc' = (rs r - k) + 1 /\ k <= rs r /\ (k = ln \/ In k l)
                    /\ forall e, In e l -> e <= rs r -> e <= k)).
Proof.
  induction l as [|e l IH]; intros ln fc lc Hr Hs He Hln; cbn [columns_loop].
  - exists ln, fc. split; [reflexivity|]. split; [auto|]. split; [easy|]. split; [lia|].
    split; [auto|]. intros ->. left. split; [reflexivity|]. destruct Hln; [lia|congruence].
  - inversion Hs as [|e' l' Hs' Hlt]; subst. rewrite Forall_forall in Hlt.
    assert (He0 := He e (or_introl eq_refl)).
    destruct (N.ltb_spec (re r) e); [lia|].
    set (fc1 := if (fc =? 0) && (rs r <? e) then rs r - ln + 1 else fc).
    destruct (IH e fc1 lc) as (ln' & fc' & E1 & E2 & E3 & E4 & E5 & E6); auto.
    { intros x Hx. specialize (Hlt x Hx). specialize (He x (or_intror Hx)). lia. }
    { unfold fc1. destruct (N.eqb_spec fc 0); cbn [andb]; [|right; auto].
      destruct (N.ltb_spec (rs r) e); [right; lia|left; lia]. }
    exists ln', fc'. split; [exact E1|].
    split. { right. destruct E2 as [[-> _]|E2]; [now left|now right]. }
    split. { intros x [<-|Hx]; [lia|auto]. }
    split; [lia|]. split.
    + intros Hfc. rewrite E5; unfold fc1; destruct (N.eqb_spec fc 0); try easy.
    + intros ->. unfold fc1 in *. cbn [N.eqb andb] in *.
      destruct (N.ltb_spec (rs r) e) as [Hlt2|Hge].
      * right. rewrite E5 by lia. split; [lia|]. exists ln.
        destruct Hln; [|congruence]. repeat split; auto.
        intros x [<-|Hx] Hle; [lia|]. specialize (Hlt x Hx); lia.
      * destruct (E6 eq_refl) as [[H1 H2]|(H1 & k & H2 & H3 & H4 & H5)]; [left; auto|].
        right. split; [exact H1|]. exists k. repeat split; auto.
        -- destruct H4 as [->|H4]; right; [now left|now right].
        -- intros x [<-|Hx] Hle; [|auto]. destruct H4 as [->|H4]; [lia|]. specialize (Hlt _ H4); lia.
Qed.

Lemma map_sorted (f : nat -> N) l :
  (forall x y, (x < y)%nat -> f x < f y) -> StronglySorted lt l -> StronglySorted N.lt (map f l).
Proof.
  intros Hf. induction 1 as [|x l Hl IH Hx]; cbn; constructor; auto.
  rewrite Forall_forall in *. intros y Hy. apply in_map_iff in Hy as (z & <- & Hz). auto.
Qed.

Lemma newline_ends_facts s :
  StronglySorted N.lt (newline_ends 0 s) /\
  (forall e, In e (newline_ends 0 s) <-> exists i, ends_line s i /\ e = N.of_nat i + 1).
Proof.
  rewrite (newline_ends_spec (List.length s)) by lia. split.
  - apply map_sorted; [intros; lia|]. apply break_list_ends.
  - intros e. rewrite in_map_iff. split.
    + intros (i & <- & Hi). exists i. rewrite <- break_list_in. split; [exact Hi|lia].
    + intros (i & Hi & ->). exists i. rewrite break_list_in. split; [lia|exact Hi].
Qed.

Lemma ends_line_lt s i : ends_line s i -> N.of_nat i < slen s.
Proof.
  intros H. rewrite slen_length.
  assert (i < List.length s)%nat; [|lia].
  apply nth_error_Some. destruct H as [H|[H _]]; rewrite H; congruence.
Qed.

Lemma get_columns_spec E P r :
  rs r <= re r -> sliceable (p_src P) (mkR 0 (re r)) -> re r < usize_max ->
  exists b ls le,
    window (p_src P) 0 (re r) b /\ line_start b (rs r) ls /\ line_start b (re r) le /\
    get_columns E P r = Val (rs r - ls + 1, N.max (rs r - ls + 1) (re r - le + 1)).
Proof.
  intros Hr Hs Hm. destruct (sliceable_slice _ _ Hs) as (b & Eb & Wb). cbn [rs re] in *.
  assert (slen b = re r) as Lb by (apply window_len in Wb; lia).
  destruct (newline_ends_facts b) as [Ss Si].
  destruct (columns_loop_spec r (newline_ends 0 b) 0 0 0 Hr Ss) as (ln & fc & E1 & E2 & E3 & E4 & _ & E6).
  { intros e He. apply Si in He as (i & Hi & ->). apply ends_line_lt in Hi. lia. }
  { left; lia. }
  specialize (E6 eq_refl).
  set (k := if rs r <? ln then rs r + 1 - fc else ln).
  assert (Hk : line_start b (rs r) k /\ (rs r < ln -> fc = rs r - k + 1) /\ (ln <= rs r -> fc = 0 /\ k = ln)).
  { unfold k. destruct E6 as [[-> H]|(H & k' & -> & Hk1 & Hk2 & Hk3)].
    - destruct (N.ltb_spec (rs r) ln); [lia|]. split; [|split; [lia|auto]].
      split; [lia|]. split.
      + destruct E2 as [[-> _]|E2]; [now left|]. right. now apply Si.
      + intros i Hi Hle. apply E3, Si. eauto.
    - destruct (N.ltb_spec (rs r) ln); [|lia]. replace (rs r + 1 - (rs r - k' + 1)) with k' by lia.
      split; [|split; [auto|lia]]. split; [lia|]. split.
      + destruct Hk2 as [->|Hk2]; [now left|]. right. now apply Si.
      + intros i Hi Hle. apply Hk3; [|exact Hle]. apply Si. eauto. }
  destruct Hk as (Hk & Hk1 & Hk2).
  assert (Hln : line_start b (re r) ln /\ ln <= re r).
  { assert (ln <= re r).
    { destruct E2 as [[-> _]|E2]; [lia|]. apply Si in E2 as (i & Hi & ->). apply ends_line_lt in Hi. lia. }
    split; [|assumption]. split; [assumption|]. split.
    - destruct E2 as [[-> _]|E2]; [now left|]. right. now apply Si.
    - intros i Hi Hle. apply E3, Si. eauto. }
  destruct Hln as [Hln Hln'].
  exists b, k, ln. do 3 (split; [assumption|]).
  unfold get_columns, src_slice. rewrite Eb. cbn [or_die]. rewrite E1.
  assert (Hadd : forall x, x <= re r -> usize_add (e_checks E) x 1 = Some (x + 1)).
  { intros x Hx. unfold usize_add. destruct (N.leb_spec (x + 1) usize_max); [reflexivity|lia]. }
  assert (Hif : forall x, (if ln =? 0 then x else x - ln) = x - ln).
  { intros x. destruct (N.eqb_spec ln 0) as [->|]; lia. }
  rewrite !Hif. rewrite (Hadd (re r - ln)) by lia. cbn [N.eqb or_die].
  assert (Hfc : (if fc =? 0 then or_die POverflow (usize_add (e_checks E) (rs r - ln) 1) else Val fc)
                = Val (rs r - k + 1)).
  { destruct (N.lt_ge_cases (rs r) ln) as [H|H].
    - rewrite (Hk1 H). destruct (N.eqb_spec (rs r - k + 1) 0); [lia|reflexivity].
    - destruct (Hk2 H) as [-> ->]. cbn [N.eqb]. rewrite Hadd by lia. reflexivity. }
  rewrite Hfc. f_equal. f_equal.
  destruct (N.ltb_spec (re r - ln + 1) (rs r - k + 1)); lia.
Qed.

(* ---------- C02, relationally ---------- *)

Lemma sliceable_iff P c :
  sliceable (p_src P) (c_off c) <->
  exists w, slice (p_src P) (rs (c_off c)) (re (c_off c)) = Some w.
Proof.
  split.
  - intros H. apply sliceable_slice in H as (w & H & _). eauto.
  - intros [w H]. destruct (c_off c) as [a b]. cbn in *.
    assert (~ ~ sliceable (p_src P) (mkR a b)) as N.
    { intros X. apply slice_none in X. congruence. }
    apply slice_iff in H as (W & B1 & B2). apply window_len in W.
    unfold sliceable; cbn. repeat split; auto; lia.
Qed.

Lemma matches_regexp_some P c f r :
  matches_regexp P c f = Val (Some r) <->
  sliceable (p_src P) (c_off c) /\
  exists w n, window (p_src P) (rs (c_off c)) (re (c_off c)) w /\ f w = Some (0, n) /\
              rs r = rs (c_off c) /\ re r = rs (c_off c) + n.
Proof.
  split.
  - intros H. destruct (slice (p_src P) (rs (c_off c)) (re (c_off c))) as [w|] eqn:Hs.
    + rewrite (matches_regexp_spec _ _ _ _ Hs) in H. split; [apply sliceable_iff; eauto|].
      apply slice_iff in Hs as [W _]. destruct (f w) as [[[|a] b]|] eqn:Ef; try discriminate.
      injection H as <-. exists w, b. cbn. repeat split; auto. lia.
    + unfold matches_regexp, src_slice in H. rewrite Hs in H. discriminate.
  - intros [Hs (w & n & W & Ef & H1 & H2)]. apply sliceable_iff in Hs as [w' Hs].
    assert (w' = w) as -> by (apply slice_iff in Hs as [W' _]; eapply window_unique; eauto).
    rewrite (matches_regexp_spec _ _ _ _ Hs), Ef. destruct r as [a b]; cbn in *. subst.
    do 3 f_equal. lia.
Qed.

Lemma matches_regexp_none P c f :
  matches_regexp P c f = Val None <->
  sliceable (p_src P) (c_off c) /\
  forall w, window (p_src P) (rs (c_off c)) (re (c_off c)) w -> forall n, f w <> Some (0, n).
Proof.
  split.
  - intros H. destruct (slice (p_src P) (rs (c_off c)) (re (c_off c))) as [w|] eqn:Hs.
    + rewrite (matches_regexp_spec _ _ _ _ Hs) in H. split; [apply sliceable_iff; eauto|].
      intros w' W' n Hn. apply slice_iff in Hs as [W _].
      rewrite (window_unique _ _ _ _ _ W W') in H. rewrite Hn in H. discriminate.
    + unfold matches_regexp, src_slice in H. rewrite Hs in H. discriminate.
  - intros [Hs Hf]. apply sliceable_iff in Hs as [w Hs].
    rewrite (matches_regexp_spec _ _ _ _ Hs). apply slice_iff in Hs as [W _].
    specialize (Hf w W). destruct (f w) as [[[|a] b]|]; try reflexivity.
    exfalso. now apply (Hf b).
Qed.

Lemma matches_regexp_die P c f p :
  matches_regexp P c f = Die p <-> p = PSlice /\ ~ sliceable (p_src P) (c_off c).
Proof.
  destruct (slice (p_src P) (rs (c_off c)) (re (c_off c))) as [w|] eqn:Hs.
  - rewrite (matches_regexp_spec _ _ _ _ Hs). split; [easy|].
    intros [_ H]. exfalso; apply H, sliceable_iff; eauto.
  - unfold matches_regexp, src_slice. rewrite Hs. cbn. apply slice_none in Hs. split.
    + intros H; injection H as <-. destruct (c_off c); auto.
    + intros [-> _]; reflexivity.
Qed.

Lemma matches_regexp_inside P c f r :
  finder_ok f -> matches_regexp P c f = Val (Some r) ->
  rs r = rs (c_off c) /\ rs r <= re r /\ re r <= re (c_off c).
Proof.
  intros Hf H. apply matches_regexp_some in H as (_ & w & n & W & Ef & H1 & H2).
  apply Hf in Ef. apply window_len in W. lia.
Qed.

Lemma matches_str_inside P c pat r :
  matches_str P c pat = Val (Some r) ->
  rs r = rs (c_off c) /\ rs r < re r /\ re r <= re (c_off c).
Proof.
  intros H. apply matches_str_some in H as (_ & Hn & [t W] & H1 & H2).
  apply window_len in W. rewrite slen_app in W. apply slen_pos in Hn. lia.
Qed.
