(* Fetching stored values and pinning (C23). *)
From Verif Require Export DepthProofs.
Open Scope string_scope.
Open Scope list_scope.
Open Scope N_scope.

(* ---------- splitting at dots ---------- *)

Lemma starts_dot_no x s sep : x <> "."%char -> starts_with ("."%char :: sep) (x :: s) = false.
Proof.
  intros H. cbn [starts_with]. destruct (Ascii.eqb_spec "." x); [congruence|reflexivity].
Qed.
Lemma split_go_skip sep a : no_dot a -> forall cur s,
  split_go ("."%char :: sep) 0 cur (a ++ s) = split_go ("."%char :: sep) 0 (cur ++ a) s.
Proof.
  induction a as [|x a IH]; intros Ha cur s; [now rewrite app_nil_r|].
  cbn [app split_go]. rewrite starts_dot_no by (intros ->; apply Ha; now left).
  rewrite IH by (intros H; apply Ha; now right). now rewrite <- app_assoc.
Qed.
Lemma split_none sep a : no_dot a -> split ("."%char :: sep) a = [a].
Proof.
  intros Ha. unfold split. rewrite <- (app_nil_r a) at 1. rewrite split_go_skip by exact Ha. reflexivity.
Qed.
Lemma split_dot a s : no_dot a -> split "." (a ++ lit "." ++ s) = a :: split "." s.
Proof.
  intros Ha. unfold split. change (lit ".") with ["."%char]. rewrite split_go_skip by exact Ha. reflexivity.
Qed.
Lemma split_dots a s : no_dot a -> split ".." (a ++ lit ".." ++ s) = a :: split ".." s.
Proof.
  intros Ha. unfold split. change (lit "..") with ["."%char; "."%char].
  rewrite split_go_skip by exact Ha. reflexivity.
Qed.
Lemma split_go_some sep s : forall k cur, split_go sep k cur s <> [].
Proof.
  induction s as [|x s IH]; intros k cur; cbn [split_go]; [discriminate|].
  destruct k; [|apply IH]. destruct (starts_with _ _); [discriminate|apply IH].
Qed.
(* a text without dots has one part, others have more *)
Lemma split_go_single sep s : forall cur p, split_go ("."%char :: sep) 0 cur s = [p] ->
  sep = [] -> p = cur ++ s /\ no_dot s.
Proof.
  induction s as [|x s IH]; intros cur p H Hs; cbn [split_go] in H.
  - injection H as <-. now rewrite app_nil_r.
  - destruct (starts_with ("."%char :: sep) (x :: s)) eqn:Ex.
    + injection H as _ H. exfalso. eapply split_go_some; eauto.
    + destruct (IH _ _ H Hs) as [-> Hn]. split; [now rewrite <- app_assoc|].
      intros [->|Hin]; [|contradiction]. subst sep. cbn in Ex. discriminate.
Qed.

(* ---------- the values of a token ---------- *)

Lemma fetches_no_dot t sub v : fetches t sub v -> no_dot sub.
Proof. destruct 1; intros Hin; vm_compute in Hin; repeat (destruct Hin as [Hin|Hin]; [discriminate|]); contradiction. Qed.

Lemma fetch_token_ok t name sub v : fetches t sub v -> fetch_token t name sub = Val v.
Proof.
  destruct 1; unfold fetch_token;
    repeat (match goal with |- context [str_eqb ?x ?y] =>
              let b := eval vm_compute in (str_eqb x y) in change (str_eqb x y) with b end; cbn iota);
    try reflexivity;
    repeat match goal with H : decimal ?n ?v |- _ =>
      rewrite (decimal_unique n v (dec n) H (dec_decimal n)); clear H end; reflexivity.
Qed.
Lemma fetch_token_total t name sub : (exists v, fetches t sub v) \/
  fetch_token t name sub = Die (bad_ref name "Don't know how to fetch this value on a Token reference").
Proof.
  unfold fetch_token.
  repeat (match goal with |- context [str_eqb ?x ?y] => destruct (str_eqb x y) eqn:Ex end;
          [apply str_eqb_eq in Ex; subst sub; left; eexists;
           first [constructor; apply dec_decimal|constructor]|clear Ex]).
  now right.
Qed.

Lemma fetch_says st s f txt : says st s f txt -> fetch_value st s f = Val (GStr txt).
Proof.
  destruct 1 as [txt|n txt Hn Hg|n a sub txt Hn Hg Hf]; cbn [fetch_value]; [reflexivity|..].
  - change (lit ".") with ["."%char]. rewrite split_none by exact Hn. cbn [hd]. now rewrite Hg.
  - rewrite split_dot by exact Hn. cbn [hd]. rewrite Hg.
    change (lit ".") with ["."%char] at 1. rewrite split_none by (eapply fetches_no_dot; eauto).
    rewrite (fetch_token_ok _ _ _ _ Hf). reflexivity.
Qed.

(* the rest of what can be asked about a token panics *)
Lemma fetch_bare st s n a : no_dot n -> sc_get st s n = Some (VToken a) ->
  fetch_value st s (FFetch n) = Die (bad_ref n "Don't know how to fetch this value on a Token reference").
Proof.
  intros Hn Hg. cbn [fetch_value]. change (lit ".") with ["."%char]. rewrite split_none by exact Hn. cbn [hd].
  now rewrite Hg.
Qed.
Lemma fetch_other st s n a sub : no_dot n -> sc_get st s n = Some (VToken a) ->
  (forall v, ~ fetches (tok st a) sub v) ->
  fetch_value st s (FFetch (n ++ lit "." ++ sub))
  = Die (bad_ref (n ++ lit "." ++ sub) "Don't know how to fetch this value on a Token reference").
Proof.
  intros Hn Hg Hf. cbn [fetch_value]. rewrite split_dot by exact Hn. cbn [hd]. rewrite Hg.
  destruct (split "." sub) as [|p [|q l]] eqn:Es; try reflexivity.
  apply split_go_single in Es; [|reflexivity]. destruct Es as [-> _]. cbn [app].
  destruct (fetch_token_total (tok st a) (n ++ lit "." ++ sub) sub) as [[v Hv]|Hd]; [|now rewrite Hd].
  exfalso. eapply Hf; eauto.
Qed.
Lemma fetch_string_path st s n v rest : no_dot n -> sc_get st s n = Some (VString v) ->
  fetch_value st s (FFetch (n ++ lit "." ++ rest))
  = Die (bad_ref (n ++ lit "." ++ rest) "Don't know how to fetch this value on a String reference").
Proof.
  intros Hn Hg. cbn [fetch_value]. rewrite split_dot by exact Hn. cbn [hd]. rewrite Hg.
  destruct (split "." rest) eqn:Es; [|reflexivity].
  exfalso. eapply split_go_some; exact Es.
Qed.
Lemma fetch_unbound st s n rest : no_dot n -> sc_get st s n = None ->
  fetch_value st s (FFetch n) = Die (bad_ref n "Not found") /\
  fetch_value st s (FFetch (n ++ lit "." ++ rest)) = Die (bad_ref (n ++ lit "." ++ rest) "Not found").
Proof.
  intros Hn Hg. cbn [fetch_value]. split.
  - change (lit ".") with ["."%char]. rewrite split_none by exact Hn. cbn [hd]. now rewrite Hg.
  - rewrite split_dot by exact Hn. cbn [hd]. now rewrite Hg.
Qed.

(* ---------- offsets ---------- *)

Lemma digit_code x : is_digit x -> x <> "+"%char /\ x <> "-"%char /\ x <> "."%char.
Proof. unfold is_digit. intros H. repeat split; intros ->; cbn in H; lia. Qed.
Lemma numeral_parse n s : numeral n s -> parse_usize s = Some n.
Proof. intros (A & B & C & D). now apply parse_usize_digits. Qed.
Lemma numeral_parse_plus n s : numeral n s -> parse_usize ("+"%char :: s) = Some n.
Proof.
  intros (A & B & C & D). unfold parse_usize. cbn [Ascii.eqb Bool.eqb].
  destruct s as [|x s]; [congruence|]. change (Ascii.eqb "+" "+") with true. cbn iota.
  apply parse_digits_spec; [cbv; discriminate|auto].
Qed.
Lemma parse_numeral s n : parse_usize s = Some n ->
  numeral n s \/ exists s', s = "+"%char :: s' /\ numeral n s'.
Proof.
  unfold parse_usize. destruct s as [|x s]; [discriminate|].
  destruct (Ascii.eqb_spec x "+") as [->|_].
  - destruct s as [|y s]; [discriminate|]. intros H. apply parse_digits_spec in H; [|cbv; discriminate].
    right. eexists. split; [reflexivity|]. destruct H as (A & B & C). split; [discriminate|auto].
  - intros H. apply parse_digits_spec in H; [|cbv; discriminate]. left.
    destruct H as (A & B & C). split; [discriminate|auto].
Qed.

Lemma empty_iff s : is_empty_offset s = true <-> In s [[]; lit "+"; lit "-"; lit "+0"; lit "-0"].
Proof.
  unfold is_empty_offset. rewrite !Bool.orb_true_iff, !str_eqb_eq. cbn [In].
  change (lit "") with (@nil ascii). intuition congruence.
Qed.


Lemma slice_first x s p : slice (x :: s) 0 1 = Some p -> p = [x].
Proof.
  intros H. apply slice_some in H. destruct H as (pre & post & Hs & Hp & Hl & _).
  destruct pre; [|rewrite slen_cons in Hp; lia]. rewrite slen_nil in Hl.
  destruct p as [|y [|z p]]; rewrite ?slen_cons, ?slen_nil in Hl; try lia.
  cbn in Hs. congruence.
Qed.
Lemma slice_first_ok x s : (forall y, hd_error s = Some y -> is_cont y = false) -> slice (x :: s) 0 1 = Some [x].
Proof.
  intros H. unfold slice. replace (0 <=? 1) with true by reflexivity.
  assert (Hl : 1 <=? slen (x :: s) = true) by (rewrite slen_cons; lia). rewrite Hl.
  cbn [andb]. change (is_boundary (x :: s) 0) with true. cbn [andb].
  assert (Hb : is_boundary (x :: s) 1 = true).
  { unfold is_boundary. cbn [N.eqb]. destruct s as [|y s]; [reflexivity|].
    assert (Hc : N.compare 1 (slen (x :: y :: s)) = Lt) by (apply N.compare_lt_iff; rewrite !slen_cons; lia).
    rewrite Hc. change (N.to_nat 1) with 1%nat. cbn [nth_error]. now rewrite H. }
  rewrite Hb. reflexivity.
Qed.
Lemma digit_not_cont x : is_digit x -> is_cont x = false.
Proof. unfold is_digit, is_cont. lia. Qed.
Lemma numeral_hd n s y : numeral n s -> hd_error s = Some y -> is_digit y.
Proof. intros (_ & H & _) Hy. apply H. destruct s; [discriminate|]. injection Hy as ->. now left. Qed.

Lemma parse_offset_ok E base dflt s n : offset_to base dflt s n -> parse_offset E base dflt s = Val n.
Proof.
  intros H. unfold parse_offset. destruct H as [s Hs|s k Hk|s k Hk H0 Hm|s k Hk Hm|s k Hk H0 Hm|s k Hk Hm].
    + apply empty_iff in Hs. now rewrite Hs.
    + destruct s as [|x s]; [destruct Hk; congruence|].
      assert (Hx : is_digit x) by (apply Hk; now left). destruct (digit_code x Hx) as (X1 & X2 & _).
      replace (is_empty_offset (x :: s)) with false.
      2:{ symmetry. destruct (is_empty_offset (x :: s)) eqn:Ee; [|reflexivity]. apply empty_iff in Ee.
          cbn [In] in Ee. destruct Ee as [Ee|[Ee|[Ee|[Ee|[Ee|[]]]]]]; cbn in Ee; congruence. }
      rewrite slice_first_ok.
      2:{ intros y Hy. apply digit_not_cont. destruct Hk as (_ & Hk & _). apply Hk. right.
          destruct s; [discriminate|]. injection Hy as ->. now left. }
      cbn [or_die]. change (lit "+") with ["+"%char]. change (lit "-") with ["-"%char].
      cbn [str_eqb]. destruct (Ascii.eqb_spec x "+"); [congruence|]. destruct (Ascii.eqb_spec x "-"); [congruence|].
      cbn [andb orb]. now rewrite (numeral_parse _ _ Hk).
    + replace (is_empty_offset ("+"%char :: s)) with false.
      2:{ symmetry. destruct (is_empty_offset ("+"%char :: s)) eqn:Ee; [|reflexivity]. apply empty_iff in Ee.
          destruct Hk as (Hk & _).
          cbn [In] in Ee. destruct Ee as [Ee|[Ee|[Ee|[Ee|[Ee|[]]]]]]; cbn in Ee; try congruence;
          injection Ee as <-; exfalso; now apply H0. }
      rewrite slice_first_ok by (intros y Hy; apply digit_not_cont; eapply numeral_hd; eauto).
      cbn [or_die tl]. change (str_eqb _ (lit "-")) with false. change (str_eqb _ (lit "+")) with true. cbn [orb].
      rewrite (numeral_parse _ _ Hk). unfold usize_add. destruct (N.leb_spec (base + k) usize_max); [reflexivity|lia].
    + replace (is_empty_offset ("+"%char :: "+"%char :: s)) with false by reflexivity.
      rewrite slice_first_ok by (intros y Hy; injection Hy as <-; reflexivity).
      cbn [or_die tl]. change (str_eqb _ (lit "-")) with false. change (str_eqb _ (lit "+")) with true. cbn [orb].
      rewrite (numeral_parse_plus _ _ Hk). unfold usize_add. destruct (N.leb_spec (base + k) usize_max); [reflexivity|lia].
    + replace (is_empty_offset ("-"%char :: s)) with false.
      2:{ symmetry. destruct (is_empty_offset ("-"%char :: s)) eqn:Ee; [|reflexivity]. apply empty_iff in Ee.
          destruct Hk as (Hk & _).
          cbn [In] in Ee. destruct Ee as [Ee|[Ee|[Ee|[Ee|[Ee|[]]]]]]; cbn in Ee; try congruence;
          injection Ee as <-; exfalso; now apply H0. }
      rewrite slice_first_ok by (intros y Hy; apply digit_not_cont; eapply numeral_hd; eauto).
      cbn [or_die tl]. change (str_eqb _ (lit "-")) with true. change (str_eqb _ (lit "+")) with false. cbn [orb].
      rewrite (numeral_parse _ _ Hk). unfold usize_sub. destruct (N.leb_spec k base); [reflexivity|lia].
    + replace (is_empty_offset ("-"%char :: "+"%char :: s)) with false by reflexivity.
      rewrite slice_first_ok by (intros y Hy; injection Hy as <-; reflexivity).
      cbn [or_die tl]. change (str_eqb _ (lit "-")) with true. change (str_eqb _ (lit "+")) with false. cbn [orb].
      rewrite (numeral_parse_plus _ _ Hk). unfold usize_sub. destruct (N.leb_spec k base); [reflexivity|lia].
Qed.
Lemma parse_offset_iff E base dflt s n : e_checks E = true ->
  parse_offset E base dflt s = Val n <-> offset_to base dflt s n.
Proof.
  intros HE. split; [|apply parse_offset_ok]. unfold parse_offset.
  - destruct (is_empty_offset s) eqn:Ee.
    { intros H. injection H as <-. apply of_same. now apply empty_iff. }
    destruct s as [|x s]; [discriminate|].
    destruct (slice (x :: s) 0 1) as [p|] eqn:Ep; [|discriminate]. apply slice_first in Ep as ->.
    cbn [or_die]. change (lit "+") with ["+"%char]. change (lit "-") with ["-"%char].
    assert (Hne : forall y, str_eqb [x] [y] = Ascii.eqb x y).
    { intros y. cbn. now rewrite Bool.andb_true_r. }
    rewrite !Hne. cbn [tl].
    destruct (Ascii.eqb_spec x "+") as [->|Hp]; [|destruct (Ascii.eqb_spec x "-") as [->|Hm]]; cbn [orb].
    + destruct (parse_usize s) as [k|] eqn:Ek; [|discriminate]. rewrite HE. unfold usize_add.
      destruct (N.leb_spec (base + k) usize_max); [|discriminate].
      intros H'. injection H' as <-.
      destruct (parse_numeral _ _ Ek) as [Hk|(s' & -> & Hk)]; [|now apply of_forward_plus].
      apply of_forward; [exact Hk| |assumption]. intros ->. discriminate Ee.
    + destruct (parse_usize s) as [k|] eqn:Ek; [|discriminate]. rewrite HE. unfold usize_sub.
      destruct (N.leb_spec k base); [|discriminate].
      intros H'. injection H' as <-.
      destruct (parse_numeral _ _ Ek) as [Hk|(s' & -> & Hk)]; [|now apply of_back_plus].
      apply of_back; [exact Hk| |assumption]. intros ->. discriminate Ee.
    + destruct (parse_usize (x :: s)) as [k|] eqn:Ek; [|discriminate]. intros H'. injection H' as <-.
      destruct (parse_numeral _ _ Ek) as [Hk|(s' & Hs & Hk)]; [now apply of_absolute|congruence].
Qed.

Lemma offset_no_dot base dflt s n : offset_to base dflt s n -> no_dot s.
Proof.
  assert (Hn : forall k s, numeral k s -> no_dot s).
  { intros k s0 (_ & Hd & _) Hin. apply Hd in Hin. unfold is_digit in Hin. cbn in Hin. lia. }
  destruct 1 as [s Hs|s k Hk|s k Hk H0 Hm|s k Hk Hm|s k Hk H0 Hm|s k Hk Hm]; intros Hin.
  - cbn [In] in Hs. destruct Hs as [<-|[<-|[<-|[<-|[<-|[]]]]]]; cbn in Hin; intuition discriminate.
  - eapply Hn; eauto.
  - destruct Hin as [Hin|Hin]; [discriminate|eapply Hn; eauto].
  - destruct Hin as [Hin|[Hin|Hin]]; [discriminate|discriminate|eapply Hn; eauto].
  - destruct Hin as [Hin|Hin]; [discriminate|eapply Hn; eauto].
  - destruct Hin as [Hin|[Hin|Hin]]; [discriminate|discriminate|eapply Hn; eauto].
Qed.

Lemma pin_context_pins E c txt r : pins (c_off c) txt r ->
  pin_context E c txt = Val (mkCtx (c_debug c) (c_scope c) (c_stack c) r (c_name c)).
Proof.
  intros H. unfold pin_context. destruct H as [txt n Hn|a b n m Hn Hm].
  - change (lit "..") with ["."%char; "."%char]. rewrite split_none by (eapply offset_no_dot; eauto). cbn [hd].
    rewrite (parse_offset_ok E _ _ _ _ Hn). reflexivity.
  - rewrite split_dots by (eapply offset_no_dot; eauto). cbn [hd].
    change (lit "..") with ["."%char; "."%char]. rewrite split_none by (eapply offset_no_dot; eauto).
    rewrite (parse_offset_ok E _ _ _ _ Hn). cbn iota.
    cbn [with_start c_off rs re]. rewrite (parse_offset_ok E _ _ _ _ Hm). reflexivity.
Qed.

(* ---------- Pin ---------- *)

Lemma pin_unfold E P om off name custom c s st n :
  exec (S n) E P (MPin om off name custom) c s st
  = let st := before_exec (MPin om off name custom) s st in
    let! g := fetch_value st s off in
      match g with
      | GMatcher _ =>
          Ret (Err (FError (mkPE "`Pin` matcher received another matcher as an offset... this makes no sense... aborting..." None))) st
      | GStr v =>
          let! c1 := pin_context E (clone_with_name c name) v in
          match om with
          | Some m1 => exec n E P m1 c1 s st
          | None => Ret (Ok (SToken (next_addr st))) (alloc st (pin_token P name (c_off c1)))
          end
      end.
Proof. reflexivity. Qed.

Lemma pin_runs_inside E P m off name custom c s st txt r :
  let self := MPin (Some m) off name custom in
  let st0 := mkSt (st_heap st) (scopes_after st s custom name self) in
  says st0 s off txt -> pins (c_off c) txt r ->
  same_outcomes E P self c s st m (mkCtx (c_debug c) (c_scope c) (c_stack c) r name) s st0.
Proof.
  intros self st0 Hs Hp.
  assert (Hb : before_exec self s st = st0) by apply before_state.
  assert (U : forall n, exec (S n) E P self c s st
                        = exec n E P m (mkCtx (c_debug c) (c_scope c) (c_stack c) r name) s st0).
  { intros n. unfold self at 1. rewrite pin_unfold. fold self. rewrite Hb. cbn zeta.
    rewrite (fetch_says _ _ _ _ Hs). 
    rewrite (pin_context_pins E (clone_with_name c name) txt r Hp). reflexivity. }
  intros [r0 st'|p|]; cbn [Does].
  - now apply runs_tail.
  - now apply panics_tail.
  - now apply diverges_tail.
Qed.

Lemma pin_alone E P off name custom c s st txt r :
  let self := MPin None off name custom in
  let st0 := mkSt (st_heap st) (scopes_after st s custom name self) in
  says st0 s off txt -> pins (c_off c) txt r ->
  exists t, Runs E P self c s st (Ok (SToken (List.length (st_heap st)))) (mkSt (st_heap st ++ [t]) (st_scopes st0)) /\
    pin_token_is t name r.
Proof.
  intros self st0 Hs Hp.
  assert (Hb : before_exec self s st = st0) by apply before_state.
  exists (pin_token P name r). split; [|repeat split; reflexivity].
  exists 1%nat. unfold self. rewrite pin_unfold. fold self. rewrite Hb. cbn zeta.
  rewrite (fetch_says _ _ _ _ Hs). 
  rewrite (pin_context_pins E (clone_with_name c name) txt r Hp). reflexivity.
Qed.

(* ---------- a stored token ---------- *)

Lemma store_fetch E P m name c s st a st' :
  Runs E P (MStore (SPMatcher m) name true) c s st (Ok (SToken a)) st' -> valid_scope st' s ->
  sc_get st' s name = Some (VToken a).
Proof.
  intros H Hv.
  apply (runs_bind _ _ _ _ _ _ _ _ _ _ _ (store_unfold E P m name true c s st)) in H.
  destruct H as (r0 & st1 & _ & Hk). destruct r0 as [[b|b|z|n p|n p| |]|e]; cbn [store_k] in Hk; try discriminate.
  injection Hk as -> <-. unfold valid_scope, sc_set in Hv. rewrite set_stack_len in Hv. now apply get_set_same.
Qed.
Lemma range_pins st a n r : no_dot n -> rs (tk_mr (tok st a)) <= usize_max -> re (tk_mr (tok st a)) <= usize_max ->
  forall s, sc_get st s n = Some (VToken a) ->
  exists txt, says st s (FFetch (n ++ lit "." ++ lit "range")) txt /\ pins r txt (tk_mr (tok st a)).
Proof.
  intros Hn H1 H2 s Hg. exists (dec (rs (tk_mr (tok st a))) ++ lit ".." ++ dec (re (tk_mr (tok st a)))). split.
  - eapply says_token; eauto. constructor; apply dec_decimal.
  - assert (Hd : forall k, k <= usize_max -> numeral k (dec k)).
    { intros k Hk. destruct (dec_decimal k) as (A & B & C & _). split; [exact A|]. split; [exact B|]. split; [exact C|exact Hk]. }
    destruct (tk_mr (tok st a)) as [x y]. apply pin_both; apply of_absolute; auto.
Qed.
Lemma captured_range_pins st a n r : no_dot n -> rs (tk_cr (tok st a)) <= usize_max -> re (tk_cr (tok st a)) <= usize_max ->
  forall s, sc_get st s n = Some (VToken a) ->
  exists txt, says st s (FFetch (n ++ lit "." ++ lit "captured_range")) txt /\ pins r txt (tk_cr (tok st a)).
Proof.
  intros Hn H1 H2 s Hg. exists (dec (rs (tk_cr (tok st a))) ++ lit ".." ++ dec (re (tk_cr (tok st a)))). split.
  - eapply says_token; eauto. constructor; apply dec_decimal.
  - assert (Hd : forall k, k <= usize_max -> numeral k (dec k)).
    { intros k Hk. destruct (dec_decimal k) as (A & B & C & _). split; [exact A|]. split; [exact B|]. split; [exact C|exact Hk]. }
    destruct (tk_cr (tok st a)) as [x y]. apply pin_both; apply of_absolute; auto.
Qed.

(* pinning at the range of a stored token *)
Lemma pin_stored E P m n name custom c s st a :
  let off := FFetch (n ++ lit "." ++ lit "range") in
  let self := MPin (Some m) off name custom in
  let st0 := mkSt (st_heap st) (scopes_after st s custom name self) in
  no_dot n -> n <> name ->
  rs (tk_mr (tok st a)) <= usize_max -> re (tk_mr (tok st a)) <= usize_max ->
  sc_get st s n = Some (VToken a) ->
  same_outcomes E P self c s st m (mkCtx (c_debug c) (c_scope c) (c_stack c) (tk_mr (tok st a)) name) s st0.
Proof.
  intros off self st0 Hn Hne H1 H2 Hg.
  assert (Hg0 : sc_get st0 s n = Some (VToken a)).
  { rewrite <- Hg. unfold st0, scopes_after. destruct custom; [|reflexivity].
    etransitivity; [|apply (get_set_other st s name (VMatcher self)); right; congruence]. reflexivity. }
  destruct (range_pins st0 a n (c_off c) Hn H1 H2 s Hg0) as (txt & Hs & Hp).
  eapply pin_runs_inside; eauto.
Qed.
