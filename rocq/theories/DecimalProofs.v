(* Decimal formatting and parsing (C05, C23, C40). *)
From Coq Require Import Decimal DecimalFacts DecimalPos DecimalN.
From Verif Require Export ContextProofs.
Open Scope list_scope.
Open Scope N_scope.

Lemma of_uint_acc_value u : forall p,
  N.pos (Pos.of_uint_acc u p) = digits_value (N.pos p) (uint_str u).
Proof.
  induction u; intros p; cbn [Pos.of_uint_acc uint_str digits_value]; [reflexivity|..];
    rewrite IHu; f_equal;
    match goal with |- context [N_of_ascii ?c] =>
      let v := eval vm_compute in (N_of_ascii c) in change (N_of_ascii c) with v end;
    clear; cbn -[Pos.mul Pos.add N.mul N.add]; try lia.
Qed.

Lemma of_uint_value u : N.of_uint u = digits_value 0 (uint_str u).
Proof.
  unfold N.of_uint. induction u; cbn [Pos.of_uint uint_str digits_value]; [reflexivity| |..];
    try (rewrite of_uint_acc_value; reflexivity).
  rewrite IHu. reflexivity.
Qed.

Lemma uint_str_digits u x : In x (uint_str u) -> is_digit x.
Proof.
  unfold is_digit. induction u; cbn [uint_str In]; [easy|..];
    (intros [<-|H]; [cbn; lia|auto]).
Qed.

Lemma unorm_hd u : hd_error (uint_str (unorm u)) = Some "0"%char -> uint_str (unorm u) = ["0"%char].
Proof.
  induction u; unfold unorm in *; cbn [nzhead]; try (cbn; congruence); auto.
Qed.

Lemma unorm_nonempty u : uint_str (unorm u) <> [].
Proof. unfold unorm. destruct (nzhead u); cbn; congruence. Qed.

Lemma dec_unorm n : exists u, dec n = uint_str (unorm u).
Proof.
  exists (N.to_uint n). unfold dec. rewrite <- (Unsigned.to_of (N.to_uint n)).
  now rewrite Unsigned.of_to.
Qed.

Lemma dec_decimal n : decimal n (dec n).
Proof.
  destruct (dec_unorm n) as [u Hu]. unfold decimal. repeat split.
  - rewrite Hu. apply unorm_nonempty.
  - unfold dec in *. eapply uint_str_digits; eauto.
  - unfold dec in *. eapply uint_str_digits; eauto.
  - unfold dec. rewrite <- of_uint_value. apply Unsigned.of_to.
  - rewrite Hu. apply unorm_hd.
Qed.

(* ---- uniqueness of decimal representations ---- *)

Lemma digits_value_app a b : forall acc, digits_value acc (a ++ b) = digits_value (digits_value acc a) b.
Proof. induction a as [|x a IH]; intros acc; cbn; auto. Qed.

Lemma digits_value_bounds s : (forall x, In x s -> is_digit x) ->
  forall acc, acc * 10 ^ slen s <= digits_value acc s < (acc + 1) * 10 ^ slen s.
Proof.
  induction s as [|x s IH]; intros Hd acc; cbn [digits_value].
  - rewrite slen_nil. cbn. lia.
  - rewrite slen_cons. assert (is_digit x) as Hx by (apply Hd; now left). unfold is_digit in Hx.
    specialize (IH (fun y Hy => Hd y (or_intror Hy)) (acc * 10 + (N_of_ascii x - 48))).
    rewrite N.pow_add_r. change (10 ^ 1) with 10.
    assert (0 < 10 ^ slen s) by (apply N.neq_0_lt_0, N.pow_nonzero; lia).
    set (k := 10 ^ slen s) in *. nia.
Qed.

Lemma digit_inj x y : is_digit x -> is_digit y -> N_of_ascii x - 48 = N_of_ascii y - 48 -> x = y.
Proof.
  unfold is_digit. intros. rewrite <- (ascii_N_embedding x), <- (ascii_N_embedding y). f_equal. lia.
Qed.

Lemma digits_value_inj a : forall b acc acc',
  List.length a = List.length b ->
  (forall x, In x a -> is_digit x) -> (forall x, In x b -> is_digit x) ->
  digits_value acc a = digits_value acc' b -> acc = acc' /\ a = b.
Proof.
  induction a as [|x a IH]; intros [|y b] acc acc' L Ha Hb H; cbn in *; try lia; auto.
  apply IH in H as [H ->]; auto.
  assert (is_digit x) as Hx by auto. assert (is_digit y) as Hy by auto.
  unfold is_digit in Hx, Hy.
  assert (acc = acc') by lia. subst acc'. split; [reflexivity|]. f_equal.
  apply digit_inj; auto; unfold is_digit; lia.
Qed.

Lemma decimal_unique n s t : decimal n s -> decimal n t -> s = t.
Proof.
  intros (Ns & Ds & Vs & Zs) (Nt & Dt & Vt & Zt).
  (* the representation of a non-zero number does not start with 0 and fixes the length *)
  assert (Hlow : forall s, s <> [] -> (forall x, In x s -> is_digit x) ->
             hd_error s <> Some "0"%char -> 10 ^ (slen s - 1) <= digits_value 0 s).
  { intros [|x r] Hn Hd Hz; [easy|]. cbn [digits_value]. rewrite slen_cons.
    replace (1 + slen r - 1) with (slen r) by lia.
    assert (is_digit x) as Hx by (apply Hd; now left).
    assert (N_of_ascii x <> 48).
    { intros E. apply Hz. cbn. f_equal. rewrite <- (ascii_N_embedding x), E. reflexivity. }
    unfold is_digit in Hx.
    destruct (digits_value_bounds r (fun y Hy => Hd y (or_intror Hy)) (0 * 10 + (N_of_ascii x - 48))) as [B _].
    assert (0 < 10 ^ slen r) by (apply N.neq_0_lt_0, N.pow_nonzero; lia).
    set (k := 10 ^ slen r) in *. nia. }
  assert (Hup : forall s, (forall x, In x s -> is_digit x) -> digits_value 0 s < 10 ^ slen s).
  { intros r Hr. destruct (digits_value_bounds r Hr 0) as [_ B]. lia. }
  destruct (hd_error s) as [x|] eqn:Es; [|destruct s; easy].
  destruct (hd_error t) as [y|] eqn:Et; [|destruct t; easy].
  destruct (Ascii.eqb_spec x "0") as [->|Hx]; destruct (Ascii.eqb_spec y "0") as [->|Hy].
  - rewrite Zs, Zt; reflexivity.
  - rewrite Zs in Vs by reflexivity. cbn in Vs.
    specialize (Hlow t Nt Dt ltac:(congruence)).
    assert (0 < 10 ^ (slen t - 1)) by (apply N.neq_0_lt_0, N.pow_nonzero; lia). lia.
  - rewrite Zt in Vt by reflexivity. cbn in Vt.
    specialize (Hlow s Ns Ds ltac:(congruence)).
    assert (0 < 10 ^ (slen s - 1)) by (apply N.neq_0_lt_0, N.pow_nonzero; lia). lia.
  - assert (Ls := Hlow s Ns Ds ltac:(congruence)). assert (Lt := Hlow t Nt Dt ltac:(congruence)).
    assert (Us := Hup s Ds). assert (Ut := Hup t Dt).
    assert (slen s = slen t).
    { destruct (N.lt_trichotomy (slen s) (slen t)) as [H|[H|H]]; [exfalso|exact H|exfalso].
      - assert (10 ^ slen s <= 10 ^ (slen t - 1)) by (apply N.pow_le_mono_r; lia). lia.
      - assert (10 ^ slen t <= 10 ^ (slen s - 1)) by (apply N.pow_le_mono_r; lia). lia. }
    rewrite !slen_length in H. eapply digits_value_inj with (acc := 0) (acc' := 0); auto; lia.
Qed.

Lemma span_str_spec a b : span_text a b (span_str (a, b)).
Proof.
  unfold span_text, span_str; cbn [fst snd]. destruct (a =? b); [apply dec_decimal|].
  exists (dec a), (dec b). split; [apply dec_decimal|]. split; [apply dec_decimal|reflexivity].
Qed.

(* ---- parsing ---- *)

Lemma digit_iff x d : digit x = Some d <-> is_digit x /\ d = N_of_ascii x - 48.
Proof.
  unfold digit, is_digit. destruct (_ && _) eqn:H; split; intros H'; try easy.
  - injection H' as <-. lia.
  - destruct H' as [_ ->]. reflexivity.
  - lia.
Qed.

Lemma digits_value_mono s acc : acc <= digits_value acc s.
Proof. revert acc; induction s as [|x s IH]; intros acc; cbn; [lia|]. specialize (IH (acc * 10 + (N_of_ascii x - 48))). lia. Qed.

Lemma parse_digits_spec s : forall acc n,
  acc <= usize_max ->
  (parse_digits acc s = Some n <->
   (forall x, In x s -> is_digit x) /\ digits_value acc s = n /\ n <= usize_max).
Proof.
  induction s as [|x s IH]; intros acc n Ha; cbn [parse_digits digits_value].
  - split; [intros H; injection H as <-; repeat split; auto; easy|intros (_ & -> & _); reflexivity].
  - destruct (digit x) as [d|] eqn:Ed.
    + apply digit_iff in Ed as [Hx ->].
      destruct (N.leb_spec (acc * 10 + (N_of_ascii x - 48)) usize_max) as [H|H].
      * rewrite IH by assumption. split; intros (H1 & H2 & H3); (split; [|auto]).
        -- intros y [<-|Hy]; auto.
        -- intros y Hy. apply H1. now right.
      * split; [easy|]. intros (_ & <- & H').
        pose proof (digits_value_mono s (acc * 10 + (N_of_ascii x - 48))). lia.
    + split; [easy|]. intros (H & _). specialize (H x (or_introl eq_refl)).
      assert (digit x = Some (N_of_ascii x - 48)) by (apply digit_iff; auto). congruence.
Qed.

(* a string of digits is read as its value, if that fits *)
Lemma parse_usize_digits s n :
  s <> [] -> (forall x, In x s -> is_digit x) -> digits_value 0 s = n -> n <= usize_max ->
  parse_usize s = Some n.
Proof.
  intros Hn Hd Hv Hm. unfold parse_usize. destruct s as [|x s]; [easy|].
  destruct (Ascii.eqb_spec x "+") as [->|_].
  - exfalso. specialize (Hd _ (or_introl eq_refl)). unfold is_digit in Hd. cbn in Hd. lia.
  - apply parse_digits_spec; auto. unfold usize_max; lia.
Qed.

Lemma parse_usize_dec n : n <= usize_max -> parse_usize (dec n) = Some n.
Proof.
  intros H. destruct (dec_decimal n) as (H1 & H2 & H3 & _). now apply parse_usize_digits.
Qed.
