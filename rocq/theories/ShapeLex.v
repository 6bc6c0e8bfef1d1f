(* What the regular expressions and strings of the grammar of scripts take. *)
From Verif Require Import LexProofs ScriptBuild Spec SpecScript Utf8Proofs SpecSyntax SpecLex.
Open Scope string_scope.
Open Scope list_scope.
Open Scope N_scope.

(* ---------- regular expressions ---------- *)

Lemma run_split c (t : str) : exists u r, t = u ++ r /\ all_in c u /\ starts_not c r.
Proof.
  induction t as [|x t (u & r & -> & H1 & H2)]; [exists [], []; repeat split; constructor|].
  destruct (c (N_of_ascii x)) eqn:Ec.
  - exists (x :: u), r. split; [reflexivity|]. split; [now constructor|exact H2].
  - exists [], (x :: u ++ r). split; [reflexivity|]. split; [constructor|exact Ec].
Qed.
Lemma find_zero r t n : ascii_only t -> re_find r t = Some (0, n) -> match_alts r (chars t) = Some n.
Proof.
  intros Ha H. destruct (match_alts r (chars t)) as [m|] eqn:Em.
  - rewrite (find_here r t m Ha Em) in H. injection H as ->. reflexivity.
  - exfalso. exact (find_not r t Ha Em n H).
Qed.
Lemma same_split (w post u r : str) : w ++ post = u ++ r -> slen w = slen u -> w = u /\ post = r.
Proof. intros H1 H2. apply app_inj_len; auto. Qed.
Lemma take_star c w post : ascii_only (w ++ post) -> re_find [[Star c]] (w ++ post) = Some (0, slen w) -> all_in c w /\ starts_not c post.
Proof.
  intros Ha H. apply find_zero in H; [|exact Ha]. destruct (run_split c (w ++ post)) as (u & r & He & H1 & H2). rewrite He in H.
  rewrite (alt_one _ _ _ (star_end c u r H1 H2)) in H. injection H as H. destruct (same_split w post u r He (eq_sym H)) as [-> ->]. auto.
Qed.
Lemma one_inv d i t n : match_items (One d :: i) (chars t) = Some n -> exists x t' m, t = x :: t' /\ d (N_of_ascii x) = true /\ match_items i (chars t') = Some m /\ n = 1 + m.
Proof.
  destruct t as [|x t']; [discriminate|]. cbn [chars map match_items]. destruct (d (N_of_ascii x)) eqn:Ed; [|discriminate]. fold (chars t').
  destruct (match_items i (chars t')) as [m|] eqn:Em; [|discriminate]. cbn. intros H. injection H as <-. exists x, t', m. auto.
Qed.
Lemma alt_inv i s n : match_alts [i] s = Some n -> match_items i s = Some n.
Proof. cbn. destruct (match_items i s); [auto|discriminate]. Qed.
Lemma take_one_star d c w post : ascii_only (w ++ post) -> re_find [[One d; Star c]] (w ++ post) = Some (0, slen w) ->
  exists x t, w = x :: t /\ d (N_of_ascii x) = true /\ all_in c t /\ starts_not c post.
Proof.
  intros Ha H. apply find_zero in H; [|exact Ha]. apply alt_inv in H. apply one_inv in H as (x & t & m & He & Hd & Hm & Hn).
  destruct w as [|y w]; [rewrite slen_nil in Hn; lia|]. cbn [app] in He. injection He as -> He. rewrite slen_cons in Hn.
  destruct (run_split c t) as (u & r & Ht & H1 & H2). rewrite Ht in Hm. rewrite (star_end c u r H1 H2) in Hm. injection Hm as Hm.
  rewrite Ht in He. destruct (same_split w post u r He) as [-> ->]; [lia|]. exists x, u. auto.
Qed.
Lemma take_one_one d c w post : ascii_only (w ++ post) -> re_find [[One d; One c]] (w ++ post) = Some (0, slen w) ->
  exists x y, w = [x; y] /\ d (N_of_ascii x) = true /\ c (N_of_ascii y) = true.
Proof.
  intros Ha H. apply find_zero in H; [|exact Ha]. apply alt_inv in H. apply one_inv in H as (x & t & m & He & Hd & Hm & Hn).
  apply one_inv in Hm as (y & t' & m' & -> & Hc & Hm & ->). cbn in Hm. injection Hm as <-.
  change ([x; y] ++ t') with ([x; y] ++ t') in He. destruct (same_split w post [x; y] t') as [-> _]; [exact He|rewrite Hn, !slen_cons, slen_nil; lia|].
  exists x, y. auto.
Qed.

(* ---------- characters ---------- *)

Lemma rng_out a b x : rng a b x = true -> N_of_ascii a <= x <= N_of_ascii b.
Proof. unfold rng. intros H. apply andb_prop in H as [H1 H2]. apply N.leb_le in H1, H2. auto. Qed.
Lemma ch_out a b : ch a (N_of_ascii b) = true -> b = a.
Proof. unfold ch. intros H. apply N.eqb_eq in H. rewrite <- (ascii_N_embedding a), <- (ascii_N_embedding b). now rewrite H. Qed.
Lemma small_out b x (d e : bool) : x < 128 -> (if x <? 128 then d else e) = b -> d = b.
Proof. intros H. destruct (N.ltb_spec x 128); [auto|lia]. Qed.
Lemma id_start_out x : id_start (N_of_ascii x) = true -> id_first x.
Proof.
  unfold id_start, id_first, letter, code. intros H. rewrite !orb_true_iff in H. destruct H as [[[H|H]|H]|H].
  - left. left. now apply rng_out.
  - left. right. now apply rng_out.
  - right. left. now apply ch_out.
  - right. right. now apply ch_out.
Qed.
Lemma id_char_out x : id_start (N_of_ascii x) || rng "0" "9" (N_of_ascii x) = true -> id_more x.
Proof. intros H. apply orb_prop in H as [H|H]; [left; now apply id_start_out|right; now apply rng_out]. Qed.
Lemma digit_out E x : N_of_ascii x < 128 -> cdigit E (N_of_ascii x) = true -> digit_char x.
Proof. intros Hx H. apply small_out in H; [|exact Hx]. now apply rng_out. Qed.
Lemma attr_out E x : N_of_ascii x < 128 -> attr_char E (N_of_ascii x) = true -> attr_more x.
Proof.
  unfold attr_char, attr_more, letter. intros Hx H. rewrite !orb_true_iff in H. destruct H as [[H|H]|H].
  - apply small_out in H; [|exact Hx]. rewrite !orb_true_iff in H. destruct H as [[[H|H]|H]|H].
    + right. left. now apply rng_out.
    + left. left. now apply rng_out.
    + left. right. now apply rng_out.
    + right. right. right. now apply ch_out.
  - right. right. left. now apply ch_out.
  - right. right. right. now apply ch_out.
Qed.
Lemma all_out (c : N -> bool) (Q : ascii -> Prop) (w : str) : ascii_only w -> (forall x, N_of_ascii x < 128 -> c (N_of_ascii x) = true -> Q x) ->
  all_in c w -> Forall Q w.
Proof. unfold all_in. rewrite !Forall_forall. intros Ha H H1 x Hx. apply H; [now apply Ha|now apply H1]. Qed.
Lemma stops_out (c : N -> bool) (Q : ascii -> Prop) w : (forall x, Q x -> c (N_of_ascii x) = true) -> starts_not c w -> stops Q w.
Proof. destruct w as [|x w]; cbn; [auto|]. intros H H1 H2. apply H in H2. congruence. Qed.
Lemma ascii_left (a b : str) : ascii_only (a ++ b) -> ascii_only a.
Proof. intros H x Hx. apply H. apply in_or_app. now left. Qed.
Lemma not_space E x : N_of_ascii x < 128 -> cspace E (N_of_ascii x) = false -> ~ blank_char x.
Proof.
  intros H Hc Hb. unfold cspace in Hc. apply N.ltb_lt in H. rewrite H in Hc. unfold blank_char, code in Hb.
  apply orb_false_iff in Hc as [H2 H1]. apply N.eqb_neq in H2. apply andb_false_iff in H1 as [H1|H1]; apply N.leb_gt in H1; lia.
Qed.
Lemma space_out E x : N_of_ascii x < 128 -> cspace E (N_of_ascii x) = true -> blank_char x.
Proof.
  intros H Hc. unfold cspace in Hc. apply N.ltb_lt in H. rewrite H in Hc. unfold blank_char, code.
  apply orb_true_iff in Hc as [H1|H1]; [apply N.eqb_eq in H1; lia|]. apply andb_prop in H1 as [H1 H2]. apply N.leb_le in H1, H2. lia.
Qed.
Lemma take_unquoted E w post : ascii_only (w ++ post) -> re_unquoted E (w ++ post) = Some (0, slen w) -> unquoted w post.
Proof.
  intros Ha H. apply take_one_star in H as (x & t & -> & H1 & H2 & H3); [|exact Ha].
  assert (Hone : forall y, In y ((x :: t) ++ post) -> negb (ch "'" (N_of_ascii y)) && negb (cspace E (N_of_ascii y)) = true -> y <> "'"%char /\ ~ blank_char y).
  { intros y Hy Hc. apply andb_prop in Hc as [C1 C2]. apply negb_true_iff in C1, C2. split; [intros ->; discriminate|]. apply (not_space E); auto. }
  split; [discriminate|]. split.
  - constructor; [apply Hone; [now left|exact H1]|]. apply Forall_forall. intros y Hy. apply Hone; [right; apply in_or_app; now left|].
    unfold all_in in H2. rewrite Forall_forall in H2. exact (H2 y Hy).
  - destruct post as [|y post]; [exact Logic.I|]. cbn [starts_not] in H3. apply andb_false_iff in H3 as [H3|H3]; apply negb_false_iff in H3.
    + left. now apply ch_out.
    + right. apply (space_out E); [|exact H3]. apply Ha. apply in_or_app. right. now left.
Qed.

(* ---------- the leaves ---------- *)

Section Leaves.
  Variable E : env.
  (* what [f] finds are tokens called [n] *)
  Definition finds (f : finder) (n : str) : Prop := forall w post, ascii_only (w ++ post) -> f (w ++ post) = Some (0, slen w) -> 0 < slen w ->
    lexeme n w w post.
  Lemma some_of (w : str) : 0 < slen w -> w <> [].
  Proof. intros H ->. rewrite slen_nil in H. lia. Qed.

  Lemma finds_identifier n : named ["Identifier"; "ImportName"; "ImportAsName"] n -> finds re_identifier n.
  Proof.
    intros Hn w post Ha H _. pose proof (ascii_left _ _ Ha) as Hw. apply take_one_star in H as (x & t & -> & H1 & H2 & H3); [|exact Ha].
    apply lx_identifier; [exact Hn| |].
    - exists x, t. split; [reflexivity|]. split; [now apply id_start_out|]. refine (all_out _ _ _ _ _ H2); [intros y Hy; apply Hw; now right|]. intros y _. apply id_char_out.
    - refine (stops_out _ _ _ _ H3). intros y Hy. exact (id_char_in y Hy).
  Qed.
  Lemma finds_digits n : named ["Minimum"; "Maximum"] n -> finds (re_digits E) n.
  Proof.
    intros Hn w post Ha H H0. pose proof (ascii_left _ _ Ha) as Hw. apply take_one_star in H as (x & t & -> & H1 & H2 & H3); [|exact Ha].
    apply lx_digits; [exact Hn|discriminate| |].
    - eapply all_out with (c := cdigit E); [exact Hw|intros y; apply digit_out|]. constructor; [exact H1|exact H2].
    - refine (stops_out _ _ _ _ H3). intros y. apply digit_in.
  Qed.
  Lemma finds_attr : finds (re_attr_name E) (lit "Name").
  Proof.
    intros w post Ha H H0. pose proof (ascii_left _ _ Ha) as Hw. apply take_one_star in H as (x & t & -> & H1 & H2 & H3); [|exact Ha].
    apply lx_attribute; [discriminate| |].
    - eapply all_out with (c := attr_char E); [exact Hw|intros y; apply attr_out|]. constructor; [exact H1|exact H2].
    - refine (stops_out _ _ _ _ H3). intros y. apply attr_char_in.
  Qed.
  Lemma finds_comment : finds re_comment (lit "Comment").
  Proof.
    intros w post Ha H H0. pose proof (ascii_left _ _ Ha) as Hw. apply take_one_star in H as (x & t & -> & H1 & H2 & H3); [|exact Ha].
    apply ch_out in H1. subst x. apply (lx_comment t post).
    - refine (all_out _ _ _ _ _ H2); [intros y Hy; apply Hw; now right|]. intros y _ Hy.
      apply andb_prop in Hy as [Y1 Y2]. apply negb_true_iff in Y1, Y2. apply N.eqb_neq in Y1, Y2. split; assumption.
    - refine (stops_out _ _ _ _ H3). intros y [Y1 Y2]. apply N.eqb_neq in Y1, Y2. unfold code in *. rewrite Y1, Y2. reflexivity.
  Qed.
  Lemma finds_flags : finds re_flags (lit "Flags").
  Proof.
    intros w post Ha H H0. pose proof (ascii_left _ _ Ha) as Hw. apply take_star in H as [H1 H2]; [|exact Ha].
    apply lx_flags; [now apply some_of| |].
    - refine (all_out _ _ _ Hw _ H1). intros y _ Hy. rewrite !orb_true_iff in Hy. cbn. destruct Hy as [[[Hy|Hy]|Hy]|Hy]; apply ch_out in Hy; subst; auto.
    - refine (stops_out _ _ _ _ H2). intros y Hy. cbn in Hy. repeat destruct Hy as [<-|Hy]; try reflexivity. destruct Hy.
  Qed.
  Lemma finds_part : finds re_part (lit "Part").
  Proof.
    intros w post Ha H H0. pose proof (ascii_left _ _ Ha) as Hw. apply take_star in H as [H1 H2]; [|exact Ha].
    apply lx_plain; [now apply some_of| |].
    - refine (all_out _ _ _ Hw _ H1). intros y _ Hy. apply andb_prop in Hy as [Hy Y3]. apply andb_prop in Hy as [Y1 Y2].
      repeat split; intros ->; discriminate.
    - refine (stops_out _ _ _ _ H2). intros y (Y1 & Y2 & Y3). rewrite !ch_false by congruence. reflexivity.
  Qed.
  Lemma finds_escape : finds re_escape (lit "Part").
  Proof.
    intros w post Ha H H0. apply take_one_one in H as (x & y & -> & H1 & H2); [|exact Ha].
    apply ch_out in H1. subst x. apply lx_escape. apply negb_true_iff, N.eqb_neq in H2. exact H2.
  Qed.
End Leaves.

(* ---------- strings ---------- *)

Lemma scans_literal close text raw v : scans [close] (lit "\") text raw v -> literal_text close v raw.
Proof.
  induction 1 as [t|x t raw v _ _ _ IH|x t raw v H1 H2 _ IH]; [constructor|exact (lt_escape close x v raw IH)|].
  apply lt_char; [| |exact IH].
  - intros ->. apply H1. exists t. reflexivity.
  - intros ->. apply H2; [discriminate|]. exists t. reflexivity.
Qed.
