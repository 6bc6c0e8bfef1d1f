(* Error texts (C05) and token texts (C06). *)
From Verif Require Export DecimalProofs.
Open Scope string_scope.
Open Scope list_scope.
Open Scope N_scope.

Lemma sliceable_prefix s r : sliceable s r -> sliceable s (mkR 0 (rs r)) /\ sliceable s (mkR 0 (re r)).
Proof.
  unfold sliceable; cbn [rs re]. intros (H1 & H2 & H3 & H4).
  repeat split; auto; try lia; now left.
Qed.

Lemma error_string_spec E P msg r :
  sliceable (p_src P) r -> re r < usize_max ->
  exists a b la lb ls le lines cols,
    window (p_src P) 0 (rs r) a /\ window (p_src P) 0 (re r) b /\
    line_no a la /\ line_no b lb /\
    line_start b (rs r) ls /\ line_start b (re r) le /\
    span_text la lb lines /\
    span_text (rs r - ls + 1) (N.max (rs r - ls + 1) (re r - le + 1)) cols /\
    error_string E P msg r =
      Val (lit "Error: " ++ p_file P ++ lit "@[" ++ lines ++ lit ":" ++ cols ++ lit "]: " ++ msg).
Proof.
  intros Hs Hm. destruct (sliceable_prefix _ _ Hs) as [Ha Hb].
  destruct (get_lines_spec P r Ha Hb) as (a & b & la & lb & Wa & Wb & La & Lb & EL).
  destruct (get_columns_spec E P r) as (b' & ls & le & Wb' & Ls & Le & EC); auto.
  { apply Hs. }
  assert (b' = b) as -> by (eapply window_unique; eauto).
  exists a, b, la, lb, ls, le, (span_str (la, lb)),
    (span_str (rs r - ls + 1, N.max (rs r - ls + 1) (re r - le + 1))).
  repeat (split; [first [assumption|apply span_str_spec]|]).
  unfold error_string. rewrite EL, EC. reflexivity.
Qed.

(* an error text can always be produced for such a range *)
Lemma error_string_val E P msg r :
  sliceable (p_src P) r -> re r < usize_max -> exists t, error_string E P msg r = Val t.
Proof.
  intros H1 H2. destruct (error_string_spec E P msg r H1 H2) as (? & ? & ? & ? & ? & ? & ? & ? & H).
  eexists. apply H.
Qed.

(* and it fails exactly when one of the prefixes can not be sliced *)
Lemma error_string_die E P msg r :
  ~ sliceable (p_src P) (mkR 0 (rs r)) \/ ~ sliceable (p_src P) (mkR 0 (re r)) ->
  error_string E P msg r = Die PSlice.
Proof.
  intros H. unfold error_string, get_lines, src_slice.
  destruct (slice _ 0 (rs r)) as [a|] eqn:Ea; cbn.
  - destruct (slice _ 0 (re r)) as [b|] eqn:Eb; cbn; [|reflexivity].
    exfalso. destruct H as [H|H]; rewrite <- slice_none in H; congruence.
  - reflexivity.
Qed.

(* ---------- C06 ---------- *)

Lemma ascii_not_cont x : N_of_ascii x < 128 -> is_cont x = false.
Proof. unfold is_cont. lia. Qed.

Lemma take_chars_ascii s : ascii_only s -> forall n, take_chars n s = firstn (N.to_nat n) s.
Proof.
  intros Hs. induction s as [|x s IH]; intros n; cbn [take_chars].
  - now rewrite firstn_nil.
  - rewrite ascii_not_cont by (apply Hs; now left).
    destruct (N.eqb_spec n 0) as [->|Hn]; [reflexivity|].
    rewrite IH by (intros y Hy; apply Hs; now right).
    replace (N.to_nat n) with (S (N.to_nat (n - 1))) by lia. reflexivity.
Qed.

Lemma drop_chars_ascii s : ascii_only s -> forall n, drop_chars n s = skipn (N.to_nat n) s.
Proof.
  intros Hs. induction s as [|x s IH]; intros n; cbn [drop_chars].
  - now rewrite skipn_nil.
  - rewrite ascii_not_cont by (apply Hs; now left).
    destruct (N.eqb_spec n 0) as [->|Hn]; [reflexivity|].
    rewrite IH by (intros y Hy; apply Hs; now right).
    replace (N.to_nat n) with (S (N.to_nat (n - 1))) by lia. reflexivity.
Qed.

Lemma ascii_skipn s n : ascii_only s -> ascii_only (skipn n s).
Proof. intros H x Hx. apply H. rewrite <- (firstn_skipn n s). apply in_or_app. now right. Qed.

Lemma char_substring_ascii s a b : ascii_only s -> char_substring s a b = sub s a b.
Proof.
  intros Hs. unfold char_substring, sub. destruct (N.leb_spec b a).
  - replace (N.to_nat (b - a)) with O by lia. reflexivity.
  - rewrite drop_chars_ascii by assumption. now rewrite take_chars_ascii by now apply ascii_skipn.
Qed.

Lemma range_text_ascii P r w :
  ascii_only (p_src P) -> window (p_src P) (rs r) (re r) w -> range_text P r = w.
Proof.
  intros Ha (pre & post & E & L1 & L2). unfold range_text.
  rewrite char_substring_ascii by assumption. rewrite E, <- L1, <- L2, slen_app. apply sub_app.
Qed.

(* ASCII sources: every offset is a boundary *)
Lemma ascii_boundary s a : ascii_only s -> a <= slen s -> char_boundary s a.
Proof.
  intros Hs H. destruct (split_at_N a s H) as (pre & post & -> & L).
  right. exists pre, post. split; [reflexivity|]. split; [exact L|].
  destruct post as [|x post]; [exact I|]. unfold continuation.
  assert (N_of_ascii x < 128) by (apply Hs, in_or_app; right; now left). lia.
Qed.

Lemma ascii_sliceable s r : ascii_only s -> rs r <= re r -> re r <= slen s -> sliceable s r.
Proof. intros Hs H1 H2. unfold sliceable. repeat split; auto; apply ascii_boundary; auto; lia. Qed.
