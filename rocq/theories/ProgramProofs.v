(* Programs and loops: the executor follows the relations [pass], [leads_to]
   and [loops] of Spec.v. *)
From Verif Require Export ScopeProofs.
Open Scope string_scope.
Open Scope list_scope.
Open Scope N_scope.

(* the local state of an execution that has collected these pieces *)
Definition pst_of (done : list piece) (off : N) : pst :=
  mkPst off (all_kids done) (hull (all_cr done)) (hull (all_mr done)).

Lemma lowest_app l l' : lowest (l ++ l') = N.min (lowest l) (lowest l').
Proof.
  unfold lowest. induction l as [|r l IH]; cbn [app fold_right].
  - assert (fold_right (fun r n => N.min (rs r) n) usize_max l' <= usize_max); [|lia].
    induction l'; cbn; lia.
  - rewrite IH. lia.
Qed.
Lemma highest_app l l' : highest (l ++ l') = N.max (highest l) (highest l').
Proof. unfold highest. induction l as [|r l IH]; cbn [app fold_right]; [lia|]. rewrite IH. lia. Qed.
Lemma lowest_le l : lowest l <= usize_max.
Proof. unfold lowest. induction l; cbn; lia. Qed.

Lemma contain_hull l r : contain (hull l) r = hull (l ++ [r]).
Proof.
  unfold contain, hull. cbn [rs re]. rewrite lowest_app, highest_app.
  pose proof (lowest_le l) as H.
  replace (lowest [r]) with (N.min (rs r) usize_max) by reflexivity.
  replace (highest [r]) with (N.max (re r) 0) by reflexivity.
  f_equal.
  - destruct (N.ltb_spec (rs r) (lowest l)); lia.
  - destruct (N.ltb_spec (highest l) (re r)); lia.
Qed.

Lemma all_kids_app l l' : all_kids (l ++ l') = all_kids l ++ all_kids l'.
Proof. apply flat_map_app. Qed.
Lemma all_cr_app l l' : all_cr (l ++ l') = all_cr l ++ all_cr l'.
Proof. apply flat_map_app. Qed.
Lemma all_mr_app l l' : all_mr (l ++ l') = all_mr l ++ all_mr l'.
Proof. apply flat_map_app. Qed.

Lemma pst_of_nil off : pst_of [] off = init_pst off.
Proof. reflexivity. Qed.

Lemma add_token_spec P pt a fwd u done off st :
  let t := adopted P pt (lowest (all_mr done)) (tok st a) in
  add_token P pt a fwd u (pst_of done off) st
  = if negb (is_error (tok st a)) && fwd && u && (re (tk_mr (tok st a)) =? off) then Pan PNotForward
    else Ret (pst_of (done ++ [token_piece a u t]) (if u then re (tk_mr t) else off)) (set_tok st a t).
Proof.
  intros t. unfold add_token. cbn [pst_of ps_off ps_kids ps_cr ps_mr hull rs].
  destruct (_ && _ && _ && _); [reflexivity|].
  unfold t, adopted. cbn [tk_mr set_parent].
  set (t1 := if is_error (tok st a) && (rs (tk_mr (tok st a)) =? re (tk_mr (tok st a))) then _ else _).
  unfold pst_of. rewrite all_kids_app, all_cr_app, all_mr_app.
  fold (hull (all_mr done)).
  destruct u; cbn [token_piece all_kids all_cr all_mr flat_map app pc_kids pc_cr pc_mr tk_cr tk_mr set_parent].
  - now rewrite !contain_hull.
  - now rewrite !app_nil_r.
Qed.

Lemma standard_iff t : should_discard t = false <-> tk_kind t = KStandard.
Proof. unfold should_discard. destruct (tk_kind t); split; congruence. Qed.
Lemma pin_iff t : should_discard t = true <-> tk_kind t = KPin.
Proof. unfold should_discard. destruct (tk_kind t); split; congruence. Qed.

Lemma adopted_kind P pt lo t : tk_kind (adopted P pt lo t) = tk_kind t.
Proof. unfold adopted. now destruct (_ && _). Qed.
Lemma tok_set_same st a t : (a < List.length (st_heap st))%nat -> tok (set_tok st a t) a = t.
Proof. intros H. unfold tok, set_tok. cbn. now apply nth_upd_same. Qed.
Lemma tok_set_other st a b t : a <> b -> tok (set_tok st a t) b = tok st b.
Proof. intros H. unfold tok, set_tok. cbn. now apply nth_upd_other. Qed.
Lemma tok_set_dead st a b t : (List.length (st_heap st) <= a)%nat -> tok (set_tok st a t) b = tok st b.
Proof. intros H. unfold tok, set_tok. cbn. now rewrite upd_overflow. Qed.

(* setting a token to one of the same kind keeps all kinds *)
Lemma kind_set st a t x : tk_kind t = tk_kind (tok st a) ->
  tk_kind (tok (set_tok st a t) x) = tk_kind (tok st x).
Proof.
  intros H. destruct (Nat.eq_dec a x) as [<-|Hn].
  - destruct (Nat.lt_ge_cases a (List.length (st_heap st))).
    + now rewrite tok_set_same.
    + now rewrite tok_set_dead.
  - now rewrite tok_set_other.
Qed.

Lemma adopts_kind P pt self u l done off st done' off' st' :
  adopts P pt self u l done off st done' off' st' ->
  forall x, tk_kind (tok st' x) = tk_kind (tok st x).
Proof.
  induction 1 as [|k l done off st done' off' st' Hk H IH|k l done off st t done' off' st' Hk Hn Ht H IH];
    intros x; auto.
  rewrite IH. apply kind_set. subst t. apply adopted_kind.
Qed.

Lemma adopts_extract P pt self u l done off st done' off' st' :
  adopts P pt self u l done off st done' off' st' ->
  extract_children P pt self u l (pst_of done off) st = Ret (pst_of done' off') st'.
Proof.
  induction 1 as [done off st|k l done off st done' off' st' Hk H IH
                 |k l done off st t done' off' st' Hk Hn Ht H IH]; cbn [extract_children]; auto.
  - apply pin_iff in Hk. now rewrite Hk.
  - apply standard_iff in Hk. rewrite Hk. destruct (Nat.eqb_spec k self); [congruence|].
    rewrite add_token_spec, !andb_false_r. cbn [andb]. rewrite <- Ht. exact IH.
Qed.

Lemma adopts_borrow P pt self u l1 l2 done off st done' off' st' :
  tk_kind (tok st self) = KStandard ->
  adopts P pt self u l1 done off st done' off' st' ->
  extract_children P pt self u (l1 ++ self :: l2) (pst_of done off) st = Pan PBorrow.
Proof.
  intros Hs H. induction H as [done off st|k l done off st done' off' st' Hk H IH
                 |k l done off st t done' off' st' Hk Hn Ht H IH]; cbn [extract_children app].
  - apply standard_iff in Hs. rewrite Hs, Nat.eqb_refl. reflexivity.
  - apply pin_iff in Hk. rewrite Hk. auto.
  - apply standard_iff in Hk as Hk'. rewrite Hk'. destruct (Nat.eqb_spec k self); [congruence|].
    rewrite add_token_spec, !andb_false_r. cbn [andb]. rewrite <- Ht. apply IH.
    rewrite kind_set; [exact Hs|]. subst t. apply adopted_kind.
Qed.

Lemma extract_adopts P pt self u l : forall done off st,
  match extract_children P pt self u l (pst_of done off) st with
  | Ret ps st' => exists done' off', ps = pst_of done' off' /\ adopts P pt self u l done off st done' off' st'
  | Pan p => p = PBorrow /\ exists l1 l2 done' off' st', l = l1 ++ self :: l2 /\
               tk_kind (tok st self) = KStandard /\ adopts P pt self u l1 done off st done' off' st'
  | OOF => False
  end.
Proof.
  induction l as [|k l IH]; intros done off st; cbn [extract_children].
  - exists done, off. split; [reflexivity|constructor].
  - destruct (should_discard (tok st k)) eqn:Ek.
    + apply pin_iff in Ek. specialize (IH done off st).
      destruct (extract_children _ _ _ _ _ _ _) as [ps st'|p|]; auto.
      * destruct IH as (d & o & -> & H). exists d, o. split; [reflexivity|]. now apply ad_lookahead.
      * destruct IH as (-> & l1 & l2 & d & o & st' & -> & Hs & H). split; [reflexivity|].
        exists (k :: l1), l2, d, o, st'. repeat split; auto. now apply ad_lookahead.
    + apply standard_iff in Ek. destruct (Nat.eqb_spec k self) as [->|Hn].
      * split; [reflexivity|]. exists [], l, done, off, st. repeat split; auto. constructor.
      * rewrite add_token_spec, !andb_false_r. cbn [andb].
        set (t := adopted P pt (lowest (all_mr done)) (tok st k)).
        specialize (IH (done ++ [token_piece k u t]) (if u then re (tk_mr t) else off) (set_tok st k t)).
        destruct (extract_children _ _ _ _ _ _ _) as [ps st'|p|]; auto.
        -- destruct IH as (d & o & -> & H). exists d, o. split; [reflexivity|]. eapply ad_token; eauto.
        -- destruct IH as (-> & l1 & l2 & d & o & st' & -> & Hs & H). split; [reflexivity|].
           exists (k :: l1), l2, d, o, st'. split; [reflexivity|]. split.
           ++ rewrite kind_set in Hs; [exact Hs|]. apply adopted_kind.
           ++ eapply ad_token; eauto.
Qed.

(* ---------- skips ---------- *)

Lemma usize_mod_Z : Z.of_N usize_mod = 18446744073709551616%Z.
Proof. reflexivity. Qed.

Lemma skip_cases E off z :
  match usize_add (e_checks E) off (as_usize z) with
  | Some n => skips_to E off z n
  | None => e_checks E = true /\ (18446744073709551616 <= Z.of_N off + z mod 18446744073709551616)%Z
  end.
Proof.
  unfold usize_add, as_usize. rewrite usize_mod_Z.
  pose proof (Z.mod_pos_bound z 18446744073709551616 eq_refl) as Hz.
  set (k := (z mod 18446744073709551616)%Z) in *.
  assert (Hk : Z.of_N (Z.to_N k) = k) by (apply Z2N.id; lia).
  destruct (N.leb_spec (off + Z.to_N k) usize_max) as [H|H]; unfold usize_max in H.
  - split; [|intros _; fold k; lia].
    rewrite N2Z.inj_add, Hk. subst k.
    rewrite <- Zplus_mod_idemp_r. symmetry. apply Z.mod_small. lia.
  - destruct (e_checks E) eqn:Ec.
    + split; [reflexivity|]. fold k. lia.
    + split; [|congruence].
      rewrite N2Z.inj_mod, N2Z.inj_add, Hk, usize_mod_Z. subst k.
      now rewrite Zplus_mod_idemp_r.
Qed.

Lemma skips_to_add E off z n : skips_to E off z n ->
  usize_add (e_checks E) off (as_usize z) = Some n.
Proof.
  intros [H1 H2]. pose proof (skip_cases E off z) as H.
  destruct (usize_add _ _ _) as [n'|].
  - destruct H as [H _]. f_equal. apply N2Z.inj. congruence.
  - destruct H as [Hc H]. specialize (H2 Hc). lia.
Qed.
Lemma skips_to_small E off z :
  (0 <= z)%Z -> off + Z.to_N z <= usize_max -> skips_to E off z (off + Z.to_N z).
Proof.
  unfold usize_max. intros Hz H. split.
  - rewrite Z.mod_small; lia.
  - intros _. rewrite Z.mod_small; lia.
Qed.
Lemma overflow_add E off z : e_checks E = true ->
  (18446744073709551616 <= Z.of_N off + z mod 18446744073709551616)%Z ->
  usize_add (e_checks E) off (as_usize z) = None.
Proof.
  intros Hc H. pose proof (skip_cases E off z) as Hs.
  destruct (usize_add _ _ _) as [n'|]; [|reflexivity].
  destruct Hs as [_ Hs]. specialize (Hs Hc). lia.
Qed.

(* ---------- one result ---------- *)

(* what run_patterns does with a token, proxy or skip (program, not switch) *)
Definition collect_one (E : env) (P : parser) (pt : addr) (start : N) (consuming fwd : bool) (x : success)
  (ps : pst) (st : state) : res pst :=
  match x with
  | SToken a => handle_token P pt a fwd consuming ps st
  | SProxy a => handle_extract P pt a consuming ps st
  | SSkip z => if consuming then handle_skip E start z ps st else Ret ps st
  | _ => Ret ps st
  end.

Definition is_thing (x : success) : Prop :=
  match x with SToken _ | SProxy _ | SSkip _ => True | _ => False end.
Definition thing_kind (st : state) (x : success) : Prop :=
  match x with SToken a | SProxy a => tk_kind (tok st a) = KStandard | _ => True end.

Lemma handle_extract_pst P pt a u done off st : tk_kind (tok st a) = KStandard ->
  handle_extract P pt a u (pst_of done off) st
  = extract_children P pt a u (tk_kids (tok st a))
      (pst_of (if u then done ++ [mkPiece [] [tk_cr (tok st a)] [tk_mr (tok st a)]] else done)
              (if u then re (tk_mr (tok st a)) else off)) st.
Proof.
  intros Hk. unfold handle_extract. apply standard_iff in Hk. rewrite Hk.
  destruct u; cbn [andb negb]; [|reflexivity]. f_equal.
  unfold pst_of. cbn [ps_kids ps_cr ps_mr]. rewrite !contain_hull, all_kids_app, all_cr_app, all_mr_app.
  cbn [all_kids all_cr all_mr flat_map app pc_kids pc_cr pc_mr]. now rewrite app_nil_r.
Qed.

Lemma handle_skip_pst E start z done off st n :
  usize_add (e_checks E) off (as_usize z) = Some n ->
  handle_skip E start z (pst_of done off) st = Ret (pst_of (done ++ [mkPiece [] [] [mkR start n]]) n) st.
Proof.
  intros H. unfold handle_skip. cbn [pst_of ps_off]. rewrite H. cbn [or_die].
  unfold pst_of. cbn [ps_kids ps_cr ps_mr]. rewrite contain_hull, all_kids_app, all_cr_app, all_mr_app.
  cbn [all_kids all_cr all_mr flat_map app pc_kids pc_cr pc_mr]. now rewrite !app_nil_r.
Qed.

Lemma collect_contributes E P pt start u fwd x done off st done' off' st' :
  contributes E P pt start u fwd done off st x done' off' st' ->
  collect_one E P pt start u fwd x (pst_of done off) st = Ret (pst_of done' off') st'.
Proof.
  intros H. destruct H as [a t Hk Hf Ht|a done' off' st' Hk H|z n Hu Hz|z Hu]; cbn [collect_one].
  - apply standard_iff in Hk as Hk'. unfold handle_token. rewrite Hk'. cbn [negb]. rewrite andb_true_r.
    rewrite add_token_spec, <- Ht.
    destruct (negb (is_error (tok st a)) && fwd && u && (re (tk_mr (tok st a)) =? off)) eqn:Eb; [|reflexivity].
    exfalso. apply andb_true_iff in Eb as [Eb E4]. apply andb_true_iff in Eb as [Eb E3].
    apply andb_true_iff in Eb as [E1 E2]. apply N.eqb_eq in E4. apply negb_true_iff in E1.
    destruct (Hf E3 E2); congruence.
  - rewrite handle_extract_pst by assumption. now apply adopts_extract.
  - subst u. apply skips_to_add in Hz. now apply handle_skip_pst.
  - now subst u.
Qed.

Lemma collect_breaks_down E P pt start u fwd x done off st p :
  breaks_down E P pt u fwd done off st x p ->
  collect_one E P pt start u fwd x (pst_of done off) st = Pan p.
Proof.
  intros H. destruct H as [a Hk Hu Hf He Ho|a l1 l2 done' off' st' Hk Hl H|z Hu Hc Hz]; cbn [collect_one].
  - apply standard_iff in Hk as Hk'. unfold handle_token. rewrite Hk'. cbn [negb].
    rewrite add_token_spec, He, Hf, Hu, Ho, N.eqb_refl. reflexivity.
  - rewrite handle_extract_pst, Hl by assumption. eapply adopts_borrow; eauto.
  - subst u. unfold handle_skip. cbn [pst_of ps_off]. now rewrite overflow_add.
Qed.

Lemma collect_total E P pt start u fwd x done off st : is_thing x -> thing_kind st x ->
  match collect_one E P pt start u fwd x (pst_of done off) st with
  | Ret ps st' => exists done' off', ps = pst_of done' off' /\
                    contributes E P pt start u fwd done off st x done' off' st'
  | Pan p => breaks_down E P pt u fwd done off st x p
  | OOF => False
  end.
Proof.
  intros Hx Hk. destruct x as [a|a|z|b q|b q| |]; cbn in Hx; try contradiction; cbn [collect_one thing_kind] in *.
  - apply standard_iff in Hk as Hk'. unfold handle_token. rewrite Hk'. cbn [negb]. rewrite andb_true_r.
    rewrite add_token_spec.
    destruct (negb (is_error (tok st a)) && fwd && u && (re (tk_mr (tok st a)) =? off)) eqn:Eb.
    + apply andb_true_iff in Eb as [Eb E4]. apply andb_true_iff in Eb as [Eb E3].
      apply andb_true_iff in Eb as [E1 E2]. apply N.eqb_eq in E4. apply negb_true_iff in E1.
      now apply bd_stuck.
    + eexists _, _. split; [reflexivity|]. apply ct_token; auto.
      intros -> ->. rewrite !andb_true_r in Eb. apply andb_false_iff in Eb as [Eb|Eb].
      * left. now apply negb_false_iff in Eb.
      * right. now apply N.eqb_neq.
  - rewrite handle_extract_pst by assumption.
    pose proof (extract_adopts P pt a u (tk_kids (tok st a))
      (if u then done ++ [mkPiece [] [tk_cr (tok st a)] [tk_mr (tok st a)]] else done)
      (if u then re (tk_mr (tok st a)) else off) st) as H.
    destruct (extract_children _ _ _ _ _ _ _) as [ps st'|p|]; auto.
    + destruct H as (d & o & -> & H). exists d, o. split; [reflexivity|]. now apply ct_proxy.
    + destruct H as (-> & l1 & l2 & d & o & st' & Hl & _ & H). eapply bd_own_child; eauto.
  - destruct u.
    + pose proof (skip_cases E off z) as H. destruct (usize_add (e_checks E) off (as_usize z)) as [n|] eqn:En.
      * rewrite (handle_skip_pst _ _ _ _ _ _ n) by assumption. eexists _, _. split; [reflexivity|]. now apply ct_skip.
      * unfold handle_skip. cbn [pst_of ps_off]. rewrite En. destruct H. now apply bd_overflow.
    + eexists _, _. split; [reflexivity|]. now apply ct_no_skip.
Qed.

(* ---------- closing ---------- *)

Lemma modify_filled P pt done st :
  modify st pt (fun t => set_mr P (hull (all_mr done)) (set_cr P (hull (all_cr done)) (set_kids (all_kids done) t)))
  = set_tok st pt (filled P done (tok st pt)).
Proof. reflexivity. Qed.

Lemma something_dec done : {collected_something done} + {~ collected_something done}.
Proof.
  unfold collected_something.
  destruct (all_kids done) eqn:Ek; [right; intros [H _]; congruence|].
  destruct (N.eq_dec (lowest (all_cr done)) usize_max); [right; intros (_ & H & _); congruence|].
  destruct (N.eq_dec (lowest (all_mr done)) usize_max); [right; intros (_ & _ & H); congruence|].
  left. repeat split; congruence.
Qed.

Definition collected (P : parser) (pt : addr) (done : list piece) (st : state) : res mres :=
  if something_dec done then Ret (Ok (SToken pt)) (set_tok st pt (filled P done (tok st pt)))
  else Ret (Err FFail) st.

Lemma finalize_loose P i pt done off count st :
  finalize P i pt (pst_of done off) count false st = collected P pt done st.
Proof.
  unfold finalize, collected. cbn [pst_of ps_cr ps_mr ps_kids].
  assert (H : (if (rs (hull (all_cr done)) =? usize_max) || (rs (hull (all_mr done)) =? usize_max)
   then Ret (Err FFail) st
   else match all_kids done with
        | [] => Ret (Err FFail) st
        | _ :: _ => Ret (Ok (SToken pt))
            (modify st pt (fun t => set_mr P (hull (all_mr done)) (set_cr P (hull (all_cr done)) (set_kids (all_kids done) t))))
        end) = if something_dec done then Ret (Ok (SToken pt)) (set_tok st pt (filled P done (tok st pt)))
               else Ret (Err FFail) st).
  { cbn [hull rs]. destruct (something_dec done) as [(H1 & H2 & H3)|Hn].
    - destruct (N.eqb_spec (lowest (all_cr done)) usize_max); [congruence|].
      destruct (N.eqb_spec (lowest (all_mr done)) usize_max); [congruence|]. cbn [orb].
      destruct (all_kids done) eqn:Ek; [congruence|]. rewrite <- Ek. now rewrite modify_filled.
    - destruct (N.eqb_spec (lowest (all_cr done)) usize_max); [reflexivity|].
      destruct (N.eqb_spec (lowest (all_mr done)) usize_max); [reflexivity|]. cbn [orb].
      destruct (all_kids done) eqn:Ek; [reflexivity|]. exfalso. apply Hn.
      unfold collected_something. rewrite Ek. repeat split; congruence. }
  destruct (pi_iter i) as [[lo hi]|]; exact H.
Qed.

Lemma finalize_strict_plain P i pt done off count st : pi_iter i = None ->
  finalize P i pt (pst_of done off) count true st = collected P pt done st.
Proof.
  intros Hi. rewrite <- (finalize_loose P i pt done off count st). unfold finalize. now rewrite Hi.
Qed.

Lemma finalize_strict_loop P i pt done off count st lo hi : pi_iter i = Some (lo, hi) ->
  finalize P i pt (pst_of done off) count true st
  = if (lo =? 0) && (count =? 0) && (match all_kids done with [] => true | _ => false end)
    then Ret (Ok (SSkip 0)) st
    else if count <? lo then Ret (Err FFail) st else collected P pt done st.
Proof.
  intros Hi. rewrite <- (finalize_loose P i pt done off count st). unfold finalize. rewrite Hi. reflexivity.
Qed.

Lemma closes_collected P pt done st r st' :
  closes P pt done st r st' <-> collected P pt done st = Ret r st'.
Proof.
  unfold collected. split.
  - intros [Hc|Hc]; destruct (something_dec done); try contradiction; reflexivity.
  - destruct (something_dec done) as [Hc|Hc]; intros H; injection H as <- <-; now constructor.
Qed.
Lemma collected_total P pt done st : exists r st', collected P pt done st = Ret r st'.
Proof. unfold collected. destruct (something_dec done); eauto. Qed.

(* ---------- payloads ---------- *)

Lemma payload_takes E P pt start p done off st done' off' st' :
  takes_payload E P pt start done off st p done' off' st' ->
  handle_payload E P pt start p (pst_of done off) st = Ret (pst_of done' off') st'.
Proof.
  intros H. destruct H as [a t Ht Hk|a t Ht Hk|a done' off' st' H|a done' off' st' Hk H|z done' off' st' H|x Hx];
    cbn [handle_payload].
  - unfold handle_token. apply standard_iff in Hk as Hk'. rewrite Hk'. cbn [negb andb].
    rewrite add_token_spec, !andb_false_r. cbn [andb]. now rewrite <- Ht.
  - unfold handle_token. apply pin_iff in Hk as Hk'. rewrite Hk'. cbn [negb andb].
    rewrite add_token_spec, !andb_false_r. cbn [andb]. now rewrite <- Ht.
  - apply (collect_contributes E P pt start true false (SProxy a)) in H. exact H.
  - unfold handle_extract. apply pin_iff in Hk as Hk'. rewrite Hk'. cbn [negb andb].
    now apply adopts_extract.
  - apply (collect_contributes E P pt start true false (SSkip z)) in H. exact H.
  - destruct x; try contradiction; reflexivity.
Qed.

Lemma payload_breaks E P pt start p done off st q :
  payload_panics E P pt done off st p q ->
  handle_payload E P pt start p (pst_of done off) st = Pan q.
Proof.
  intros [x q' H]. destruct H as [a Hk Hu Hf He Ho|a l1 l2 done' off' st' Hk Hl H|z Hu Hc Hz]; [discriminate| |].
  - cbn [handle_payload]. rewrite handle_extract_pst, Hl by assumption. eapply adopts_borrow; eauto.
  - cbn [handle_payload]. unfold handle_skip. cbn [pst_of ps_off]. now rewrite overflow_add.
Qed.

Lemma payload_total E P pt start p done off st :
  match handle_payload E P pt start p (pst_of done off) st with
  | Ret ps st' => exists done' off', ps = pst_of done' off' /\ takes_payload E P pt start done off st p done' off' st'
  | Pan q => payload_panics E P pt done off st p q
  | OOF => False
  end.
Proof.
  destruct p as [a|a|z|b q|b q| |]; cbn [handle_payload];
    try (eexists _, _; split; [reflexivity|]; now apply tp_other).
  - unfold handle_token. destruct (should_discard (tok st a)) eqn:Ek; cbn [negb andb].
    + apply pin_iff in Ek. rewrite add_token_spec, !andb_false_r. cbn [andb].
      eexists _, _. split; [reflexivity|]. now apply tp_lookahead.
    + apply standard_iff in Ek. rewrite add_token_spec, !andb_false_r. cbn [andb].
      eexists _, _. split; [reflexivity|]. now apply tp_token.
  - destruct (should_discard (tok st a)) eqn:Ek.
    + apply pin_iff in Ek as Ek'. unfold handle_extract. rewrite Ek. cbn [andb negb].
      pose proof (extract_adopts P pt a false (tk_kids (tok st a)) done off st) as H.
      destruct (extract_children _ _ _ _ _ _ _) as [ps st'|q|]; auto.
      * destruct H as (d & o & -> & H). exists d, o. split; [reflexivity|]. now apply tp_proxy_lookahead.
      * destruct H as (_ & l1 & l2 & d & o & st' & _ & Hs & _). congruence.
    + apply standard_iff in Ek.
      pose proof (collect_total E P pt start true false (SProxy a) done off st I Ek) as H.
      cbn [collect_one] in H. destruct (handle_extract _ _ _ _ _ _) as [ps st'|q|]; auto.
      * destruct H as (d & o & -> & H). exists d, o. split; [reflexivity|]. now apply tp_proxy.
      * now constructor.
  - pose proof (collect_total E P pt start true false (SSkip z) done off st I I) as H.
    cbn [collect_one] in H. destruct (handle_skip _ _ _ _ _) as [ps st'|q|]; auto.
    + destruct H as (d & o & -> & H). exists d, o. split; [reflexivity|]. now apply tp_skip.
    + now constructor.
Qed.

(* ---------- a pass over the patterns ---------- *)

Section Pass.
  Variables (E : env) (P : parser) (c : ctx) (i : pinfo) (s : sid) (pt : addr) (count : N).
  Hypothesis Hdebug : c_debug c = 0.
  Hypothesis Hstop : pi_stop i = false.
  Let c1 := clone_with_name c (pi_name i).
  Let start := rs (c_off c).
  Let rp n := run_patterns E P (exec n E P) i c1 s pt start count.

  Lemma pattern_ctx_eq done off :
    push_tok (with_start c1 (ps_off (pst_of done off))) pt = pattern_ctx c (pi_name i) pt off.
  Proof. reflexivity. Qed.

  Lemma run_one n m ms done off st :
    rp n (m :: ms) (pst_of done off) st
    = do r, st1 <- exec n E P m (pattern_ctx c (pi_name i) pt off) s st;
      match r with
      | Err FFail => match pi_iter i with
                     | Some _ => do x, st2 <- collected P pt done st1; Ret (CRet x, pst_of done off) st2
                     | None => Ret (CRet (Err FFail), pst_of done off) st1
                     end
      | Err e => Ret (CRet (Err e), pst_of done off) st1
      | Ok x =>
          match x with
          | SToken a | SProxy a =>
              if should_discard (tok st1 a) then rp n ms (pst_of done off) st1
              else do ps, st2 <- collect_one E P pt start (m_consuming m) (m_consuming m) x (pst_of done off) st1;
                   rp n ms ps st2
          | SSkip _ =>
              do ps, st2 <- collect_one E P pt start (m_consuming m) (m_consuming m) x (pst_of done off) st1;
              rp n ms ps st2
          | _ => Ret (CAct x, pst_of done off) st1
          end
      end.
  Proof.
    unfold rp. cbn [run_patterns]. rewrite pattern_ctx_eq, Hstop.
    destruct (exec n E P m (pattern_ctx c (pi_name i) pt off) s st) as [r st1|p|]; [|reflexivity|reflexivity].
    destruct r as [[a|a|z|b q|b q| |]|[|e]]; try reflexivity.
    - cbn [collect_one]. rewrite andb_false_r. destruct (m_consuming m); reflexivity.
    - rewrite dbg_quiet by exact Hdebug. destruct (pi_iter i); [|reflexivity].
      now rewrite finalize_loose.
    - now rewrite dbg_quiet by exact Hdebug.
  Qed.

  (* a pattern's own "forward" flag is its consuming flag *)
  Lemma contributes_forward u done off st x done' off' st' :
    contributes E P pt start u true done off st x done' off' st' ->
    contributes E P pt start u u done off st x done' off' st'.
  Proof. destruct u; [auto|]. intros H. destruct H; try (constructor; auto; discriminate). Qed.
  Lemma breaks_down_forward u done off st x p :
    breaks_down E P pt u true done off st x p -> breaks_down E P pt u u done off st x p.
  Proof. destruct u; [auto|]. intros H. destruct H; try discriminate. eapply bd_own_child; eauto. Qed.
  Lemma contributes_forward' u done off st x done' off' st' :
    contributes E P pt start u u done off st x done' off' st' ->
    contributes E P pt start u true done off st x done' off' st'.
  Proof. destruct u; [auto|]. intros H. destruct H; try (constructor; auto; discriminate). Qed.
  Lemma breaks_down_forward' u done off st x p :
    breaks_down E P pt u u done off st x p -> breaks_down E P pt u true done off st x p.
  Proof. destruct u; [auto|]. intros H. destruct H; try discriminate. eapply bd_own_child; eauto. Qed.

  (* how [w] shows in the result of run_patterns *)
  Definition shows (w : pass_end) (x : res (ctl * pst)) : Prop :=
    match w with
    | AllDone done off st => x = Ret (CDone, pst_of done off) st
    | Signal y done off st =>
        x = Ret (CAct y, pst_of done off) st /\
        (match y with SBreak _ _ | SContinue _ _ | SNone | SStop => True | _ => False end)
    | NoMatch done st =>
        match pi_iter i with
        | Some _ => exists r st' ps, closes P pt done st r st' /\ x = Ret (CRet r, ps) st'
        | None => exists ps, x = Ret (CRet (Err FFail), ps) st
        end
    | Fatal e st => exists ps, x = Ret (CRet (Err (FError e)), ps) st
    | PassPanics p => x = Pan p
    | PassNever => x = OOF
    end.

  Lemma pass_shows pats done off st w :
    pass E P c (pi_name i) s pt pats done off st w ->
    exists n0, forall n, (n0 <= n)%nat -> shows w (rp n pats (pst_of done off) st).
  Proof.
    induction 1 as [done off st
      |m ms done off st x st1 done' off' st' w Hr Hc Hp IH
      |m ms done off st a st1 w Hr Hk Hp IH
      |m ms done off st x st1 Hr Hx
      |m ms done off st st1 Hr
      |m ms done off st e st1 Hr
      |m ms done off st x st1 p Hr Hb
      |m ms done off st p Hr
      |m ms done off st Hr].
    - exists 0%nat. intros n _. reflexivity.
    - destruct IH as [n1 IH]. destruct (runs_from _ _ _ _ _ _ _ _ Hr) as [n2 Hn2].
      exists (Nat.max n1 n2). intros n Hn. rewrite run_one, Hn2 by lia.
      apply contributes_forward in Hc as Hc'. apply collect_contributes in Hc'.
      destruct Hc; try (rewrite Hc'; apply IH; lia).
      + apply standard_iff in H. rewrite H, Hc'. apply IH; lia.
      + apply standard_iff in H. rewrite H, Hc'. apply IH; lia.
    - destruct IH as [n1 IH]. apply pin_iff in Hk. destruct Hr as [Hr|Hr].
      + destruct (runs_from _ _ _ _ _ _ _ _ Hr) as [n2 Hn2].
        exists (Nat.max n1 n2). intros n Hn. rewrite run_one, Hn2 by lia. rewrite Hk. apply IH; lia.
      + destruct (runs_from _ _ _ _ _ _ _ _ Hr) as [n2 Hn2].
        exists (Nat.max n1 n2). intros n Hn. rewrite run_one, Hn2 by lia. rewrite Hk. apply IH; lia.
    - destruct (runs_from _ _ _ _ _ _ _ _ Hr) as [n2 Hn2].
      exists n2. intros n Hn. rewrite run_one, Hn2 by lia. cbn [shows].
      destruct x; try contradiction; auto.
    - destruct (runs_from _ _ _ _ _ _ _ _ Hr) as [n2 Hn2].
      exists n2. intros n Hn. rewrite run_one, Hn2 by lia. cbn [shows].
      destruct (pi_iter i); [|eauto].
      destruct (collected_total P pt done st1) as (r & st' & Hc). rewrite Hc.
      exists r, st', (pst_of done off). split; [now apply closes_collected|reflexivity].
    - destruct (runs_from _ _ _ _ _ _ _ _ Hr) as [n2 Hn2].
      exists n2. intros n Hn. rewrite run_one, Hn2 by lia. cbn [shows]. eauto.
    - destruct (runs_from _ _ _ _ _ _ _ _ Hr) as [n2 Hn2].
      exists n2. intros n Hn. rewrite run_one, Hn2 by lia. cbn [shows].
      apply breaks_down_forward in Hb as Hb'. apply (collect_breaks_down E P pt start) in Hb'.
      destruct Hb; try (rewrite Hb'; reflexivity).
      + apply standard_iff in H. rewrite H, Hb'. reflexivity.
      + apply standard_iff in H. rewrite H, Hb'. reflexivity.
    - destruct (panics_from _ _ _ _ _ _ _ Hr) as [n2 Hn2].
      exists n2. intros n Hn. rewrite run_one, Hn2 by lia. reflexivity.
    - exists 0%nat. intros n _. rewrite run_one, Hr. reflexivity.
  Qed.

  (* the other direction, for passes that end *)
  Lemma shows_pass n : forall pats done off st,
    rp n pats (pst_of done off) st <> OOF ->
    exists w, pass E P c (pi_name i) s pt pats done off st w /\ w <> PassNever /\
              shows w (rp n pats (pst_of done off) st).
  Proof.
    induction pats as [|m ms IH]; intros done off st Hx.
    - exists (AllDone done off st). split; [constructor|]. split; [discriminate|reflexivity].
    - rewrite run_one in *.
      destruct (exec n E P m (pattern_ctx c (pi_name i) pt off) s st) as [r st1|p|] eqn:Er; [| |congruence].
      2:{ exists (PassPanics p). split; [apply ps_panic; now exists n|]. split; [discriminate|reflexivity]. }
      assert (Hr : Runs E P m (pattern_ctx c (pi_name i) pt off) s st r st1) by now exists n.
      assert (Hthing : forall x, r = Ok x -> is_thing x -> thing_kind st1 x ->
        (do ps, st2 <- collect_one E P pt start (m_consuming m) (m_consuming m) x (pst_of done off) st1;
         rp n ms ps st2) <> OOF ->
        exists w, pass E P c (pi_name i) s pt (m :: ms) done off st w /\ w <> PassNever /\
          shows w (do ps, st2 <- collect_one E P pt start (m_consuming m) (m_consuming m) x (pst_of done off) st1;
                   rp n ms ps st2)).
      { intros x -> Hx1 Hx2 Hne.
        pose proof (collect_total E P pt start (m_consuming m) (m_consuming m) x done off st1 Hx1 Hx2) as Ht.
        destruct (collect_one _ _ _ _ _ _ _ _ _) as [ps st2|p|]; [| |contradiction].
        - destruct Ht as (d & o & -> & Ht). destruct (IH d o st2 Hne) as (w & Hp & Hn & Hs).
          exists w. split; [|auto]. eapply ps_next; eauto. now apply contributes_forward'.
        - exists (PassPanics p). split; [|split; [discriminate|reflexivity]].
          eapply ps_breaks_down; eauto. now apply breaks_down_forward'. }
      destruct r as [[a|a|z|b q|b q| |]|[|e]].
      + destruct (should_discard (tok st1 a)) eqn:Ek.
        * apply pin_iff in Ek. destruct (IH done off st1 Hx) as (w & Hp & Hn & Hs). exists w.
          split; [|auto]. eapply ps_lookahead; eauto.
        * apply standard_iff in Ek. now apply (Hthing (SToken a)).
      + destruct (should_discard (tok st1 a)) eqn:Ek.
        * apply pin_iff in Ek. destruct (IH done off st1 Hx) as (w & Hp & Hn & Hs). exists w.
          split; [|auto]. eapply ps_lookahead; eauto.
        * apply standard_iff in Ek. now apply (Hthing (SProxy a)).
      + now apply (Hthing (SSkip z)).
      + exists (Signal (SBreak b q) done off st1).
        split; [now apply ps_signal|split; [discriminate|split; [reflexivity|exact I]]].
      + exists (Signal (SContinue b q) done off st1).
        split; [now apply ps_signal|split; [discriminate|split; [reflexivity|exact I]]].
      + exists (Signal SNone done off st1).
        split; [now apply ps_signal|split; [discriminate|split; [reflexivity|exact I]]].
      + exists (Signal SStop done off st1).
        split; [now apply ps_signal|split; [discriminate|split; [reflexivity|exact I]]].
      + exists (NoMatch done st1). split; [now apply ps_fail|]. split; [discriminate|]. cbn [shows].
        destruct (pi_iter i); [|eauto].
        destruct (collected_total P pt done st1) as (r & st' & Hc). rewrite Hc.
        exists r, st', (pst_of done off). split; [now apply closes_collected|reflexivity].
      + exists (Fatal e st1). split; [now apply ps_error|]. split; [discriminate|]. cbn [shows]. eauto.
  Qed.
End Pass.

(* ---------- programs ---------- *)

Lemma program_unfold E P pats i c s st n :
  exec (S n) E P (MProgram pats i) c s st
  = iterate n E P (exec n E P) pats i (clone_with_name c (pi_name i)) s (List.length (st_heap st))
      (rs (c_off c)) (iterations i) 0 (pst_of [] (rs (c_off c))) (program_start P pats i s st).
Proof.
  cbn [exec step exec_program]. unfold exec_program. rewrite before_state.
  unfold alloc, next_addr, program_start. cbn [st_heap st_scopes m_custom m_name clone_with_name c_off].
  reflexivity.
Qed.

Lemma does_never E P m c s st n0 :
  (forall n, (n0 <= n)%nat -> exec n E P m c s st = OOF) -> Diverges E P m c s st.
Proof.
  intros H n. destruct (exec_upto E P n (Nat.max n0 n) (Nat.le_max_r _ _) m c s st) as [Hn|Hn]; [exact Hn|].
  rewrite Hn. apply H. apply Nat.le_max_l.
Qed.

(* [o] as the result of a computation *)
Definition res_of (o : outcome) : res mres :=
  match o with Done r st => Ret r st | Panicked p => Pan p | Never => OOF end.

Lemma does_from E P m c s st o n0 :
  (forall n, (n0 <= n)%nat -> exec n E P m c s st = res_of o) -> Does E P m c s st o.
Proof.
  intros H. destruct o as [r st'|p|]; cbn in *.
  - exists n0. now apply H.
  - exists n0. now apply H.
  - now apply (does_never _ _ _ _ _ _ n0).
Qed.
Lemma does_at E P m c s st o : o <> Never ->
  Does E P m c s st o <-> exists n, exec n E P m c s st = res_of o.
Proof. destruct o; cbn; [reflexivity|reflexivity|congruence]. Qed.

Lemma closes_total P pt done st0 : exists r st', closes P pt done st0 r st'.
Proof.
  destruct (collected_total P pt done st0) as (r & st' & H). exists r, st'. now apply closes_collected.
Qed.

Section Program.
  Variables (E : env) (P : parser) (c : ctx) (i : pinfo) (s : sid) (st : state) (pats : list matcher).
  Hypothesis Hdebug : c_debug c = 0.
  Hypothesis Hstop : pi_stop i = false.
  Hypothesis Hiter : pi_iter i = None.
  Let pt := List.length (st_heap st).
  Let start := rs (c_off c).

  (* what follows the only pass of a program *)
  Definition after_pass (x : res (ctl * pst)) : res mres :=
    do y, st <- x;
    let (k, ps) := y in
    match k with
    | CRet r => Ret r st
    | CDone => finalize P i pt ps 1 true st
    | CAct (SBreak n p) =>
        do ps, st <- handle_payload E P pt start p ps st;
        do r, st <- finalize P i pt ps 0 false st;
        match r with Ok x => Ret (Ok (SBreak n x)) st | Err e => Ret (Err e) st end
    | CAct (SContinue n p) =>
        do ps, st <- handle_payload E P pt start p ps st;
        finalize P i pt ps 0 false st
    | CAct SStop => finalize P i pt ps 0 true st
    | CAct _ => Pan PUnreachable
    end.

  Lemma program_one_pass n :
    exec (S (S n)) E P (MProgram pats i) c s st
    = after_pass (run_patterns E P (exec (S n) E P) i (clone_with_name c (pi_name i)) s pt start 0 pats
                    (pst_of [] start) (program_start P pats i s st)).
  Proof.
    rewrite program_unfold. unfold iterations. rewrite Hiter. cbn [iterate N.eqb Pos.eqb].
    fold pt start. unfold after_pass.
    destruct (run_patterns _ _ _ _ _ _ _ _ _ _ _ _) as [[k ps] st1|p|]; try reflexivity.
    destruct k as [|x|r]; try reflexivity.
    - destruct n; reflexivity.
    - destruct x; try reflexivity; rewrite Hstop;
        destruct (handle_payload _ _ _ _ _ _ _) as [ps2 st2|p2|]; try reflexivity;
        unfold is_target; rewrite Hiter; reflexivity.
  Qed.

  Lemma after_pass_leads w x o :
    shows P i pt w x -> leads_to E P pt start w o -> after_pass x = res_of o.
  Proof.
    intros Hs Hl. destruct Hl as
      [done off st0 r st' Hc|done off st0 r st' Hc|done off st0
      |n p done off st0 done' off' st1 x0 st' Ht Hc|n p done off st0 done' off' st1 e st' Ht Hc
      |n p done off st0 done' off' st1 r st' Ht Hc|n p done off st0 q Hq|n p done off st0 q Hq
      |done st0|e st0|p|]; cbn [shows] in Hs; unfold after_pass.
    - subst x. rewrite finalize_strict_plain by assumption. now apply closes_collected.
    - destruct Hs as [-> _]. rewrite finalize_strict_plain by assumption. now apply closes_collected.
    - destruct Hs as [-> _]. reflexivity.
    - destruct Hs as [-> _]. rewrite (payload_takes _ _ _ _ _ _ _ _ _ _ _ Ht), finalize_loose.
      apply closes_collected in Hc. rewrite Hc. reflexivity.
    - destruct Hs as [-> _]. rewrite (payload_takes _ _ _ _ _ _ _ _ _ _ _ Ht), finalize_loose.
      apply closes_collected in Hc. rewrite Hc. reflexivity.
    - destruct Hs as [-> _]. rewrite (payload_takes _ _ _ _ _ _ _ _ _ _ _ Ht), finalize_loose.
      apply closes_collected in Hc. rewrite Hc. reflexivity.
    - destruct Hs as [-> _]. now rewrite (payload_breaks _ _ _ _ _ _ _ _ _ Hq).
    - destruct Hs as [-> _]. now rewrite (payload_breaks _ _ _ _ _ _ _ _ _ Hq).
    - rewrite Hiter in Hs. destruct Hs as [ps ->]. reflexivity.
    - destruct Hs as [ps ->]. reflexivity.
    - now subst x.
    - now subst x.
  Qed.

  (* every way in which a pass ends has a consequence *)
  Lemma leads_total w x : shows P i pt w x -> exists o, leads_to E P pt start w o.
  Proof.
    intros Hs. destruct w as [done off st0|y done off st0|done st0|e st0|p|].
    - destruct (closes_total P pt done st0) as (r & st' & H). eexists. eapply lt_all; eauto.
    - cbn [shows] in Hs. destruct Hs as [_ Hy]. destruct y as [a|a|z|n p|n p| |]; try contradiction.
      + pose proof (payload_total E P pt start p done off st0) as H.
        destruct (handle_payload _ _ _ _ _ _ _) as [ps st1|q|]; [| |contradiction].
        * destruct H as (d & o & _ & H). destruct (closes_total P pt d st1) as (r & st' & Hc).
          destruct r as [x0|e]; eexists; [eapply lt_break|eapply lt_break_fail]; eauto.
        * eexists. eapply lt_payload; eauto.
      + pose proof (payload_total E P pt start p done off st0) as H.
        destruct (handle_payload _ _ _ _ _ _ _) as [ps st1|q|]; [| |contradiction].
        * destruct H as (d & o & _ & H). destruct (closes_total P pt d st1) as (r & st' & Hc).
          eexists; eapply lt_continue; eauto.
        * eexists. eapply lt_payload_continue; eauto.
      + eexists. apply lt_none.
      + destruct (closes_total P pt done st0) as (r & st' & H). eexists. eapply lt_stop; eauto.
    - eexists. apply lt_fail.
    - eexists. apply lt_error.
    - eexists. apply lt_panic.
    - eexists. apply lt_never.
  Qed.

  Lemma program_does w o :
    pass E P c (pi_name i) s pt pats [] start (program_start P pats i s st) w ->
    leads_to E P pt start w o ->
    Does E P (MProgram pats i) c s st o.
  Proof.
    intros Hp Hl.
    destruct (pass_shows E P c i s pt 0 Hdebug Hstop _ _ _ _ _ Hp) as [n0 Hn].
    apply (does_from _ _ _ _ _ _ _ (S (S n0))). intros [|[|n]] Hle; [lia|lia|].
    rewrite program_one_pass. apply (after_pass_leads w); [|exact Hl].
    apply Hn. lia.
  Qed.

  Lemma does_program o : o <> Never ->
    Does E P (MProgram pats i) c s st o ->
    exists w, pass E P c (pi_name i) s pt pats [] start (program_start P pats i s st) w /\
              leads_to E P pt start w o.
  Proof.
    intros Ho H. apply does_at in H; [|exact Ho]. destruct H as [n H].
    assert (Hne : exec n E P (MProgram pats i) c s st <> OOF) by (rewrite H; destruct o; cbn; congruence).
    assert (H2 : exec (S (S n)) E P (MProgram pats i) c s st = res_of o)
      by (rewrite <- H; apply exec_mono; [lia|exact Hne]).
    rewrite program_one_pass in H2.
    destruct (shows_pass E P c i s pt 0 Hdebug Hstop (S n) pats [] start (program_start P pats i s st))
      as (w & Hp & Hn & Hs).
    { intros Hx. fold start pt in H2.
      change (run_patterns E P (exec (S n) E P) i (clone_with_name c (pi_name i)) s pt start 0 pats
                    (pst_of [] start) (program_start P pats i s st)) with
        (run_patterns E P (exec (S n) E P) i (clone_with_name c (pi_name i)) s pt (rs (c_off c)) 0 pats
                    (pst_of [] start) (program_start P pats i s st)) in H2.
      rewrite Hx in H2. cbn in H2. destruct o; cbn in H2; congruence. }
    destruct (leads_total w _ Hs) as [o' Hl].
    exists w. split; [exact Hp|].
    pose proof (after_pass_leads w _ o' Hs Hl) as Ha. fold start in Ha.
    unfold start in H2, Ha. rewrite Ha in H2.
    assert (o' = o) by (destruct o, o'; cbn in H2; congruence). now subst.
  Qed.
End Program.

(* ---------- loops ---------- *)

Section Loop.
  Variables (E : env) (P : parser) (c : ctx) (i : pinfo) (s : sid) (pats : list matcher) (lo hi : N) (pt : addr).
  Hypothesis Hdebug : c_debug c = 0.
  Hypothesis Hstop : pi_stop i = false.
  Hypothesis Hiter : pi_iter i = Some (lo, hi).
  Let start := rs (c_off c).
  Let c1 := clone_with_name c (pi_name i).
  Let it f n := iterate f E P (exec n E P) pats i c1 s pt start.

  Lemma target_iff n : is_target i n = true <-> n = [] \/ n = pi_name i.
  Proof.
    unfold is_target. rewrite Hiter, orb_true_iff, !str_eqb_eq. cbn. intuition.
  Qed.
  Lemma target_not n : is_target i n = false <-> n <> [] /\ n <> pi_name i.
  Proof.
    destruct (is_target i n) eqn:Et.
    - apply target_iff in Et. split; [discriminate|intuition].
    - split; [intros _|reflexivity]. split; intros H; enough (is_target i n = true) by congruence;
        apply target_iff; auto.
  Qed.

  Lemma iterate_one f n left count ps st0 : 0 < left ->
    it (S f) n left count ps st0
    = do x, st <- run_patterns E P (exec n E P) i c1 s pt start count pats ps st0;
      let (k, ps) := x in
      match k with
      | CRet r => Ret r st
      | CDone => it f n (left - 1) (count + 1) ps st
      | CAct (SBreak nm p) =>
          do ps, st <- handle_payload E P pt start p ps st;
          do r, st <- finalize P i pt ps count false st;
          if is_target i nm then Ret r st
          else match r with Ok x => Ret (Ok (SBreak nm x)) st | Err e => Ret (Err e) st end
      | CAct (SContinue nm p) =>
          do ps, st <- handle_payload E P pt start p ps st;
          if is_target i nm then it f n (left - 1) (count + 1) ps st
          else finalize P i pt ps count false st
      | CAct SStop => finalize P i pt ps count true st
      | CAct _ => Pan PUnreachable
      end.
  Proof.
    intros Hl. unfold it. cbn [iterate]. destruct (N.eqb_spec left 0); [lia|].
    destruct (run_patterns _ _ _ _ _ _ _ _ _ _ _ _) as [[k ps1] st1|p|]; try reflexivity.
    destruct k as [|x|r]; try reflexivity. rewrite Hstop. destruct x; reflexivity.
  Qed.

  Lemma iterate_end f n count ps st0 : it f n 0 count ps st0 = finalize P i pt ps count true st0.
  Proof. unfold it. now destruct f. Qed.

  Lemma closes_loose done off count st0 r st' :
    closes P pt done st0 r st' -> finalize P i pt (pst_of done off) count false st0 = Ret r st'.
  Proof. intros H. rewrite finalize_loose. now apply closes_collected. Qed.

  Lemma loops_iterate left count done off st0 o :
    loops E P c i lo s pt pats left count done off st0 o ->
    exists n0, forall f n, (n0 <= f)%nat -> (n0 <= n)%nat ->
      it f n left count (pst_of done off) st0 = res_of o.
  Proof.
    assert (Hpass : forall count pats done off st0 w, pass E P c (pi_name i) s pt pats done off st0 w ->
      exists n0, forall n, (n0 <= n)%nat ->
        shows P i pt w (run_patterns E P (exec n E P) i c1 s pt start count pats (pst_of done off) st0)).
    { intros. now apply (pass_shows E P c i s pt). }
    induction 1 as
      [count done off st0 Hlo Hc Hk|count done off st0 Hlo|count done off st0 r st' Hlo Hz Hc
      |left count done off st0 done' off' st' o Hl Hp H IH
      |left count done off st0 done' st1 r st' Hl Hp Hc
      |left count done off st0 e st1 Hl Hp
      |left count done off st0 p Hl Hp
      |left count done off st0 Hl Hp
      |left count done off st0 done' off' st1 Hl Hp
      |left count done off st0 done' off' st1 o Hl Hp H IH
      |left count done off st0 n p done' off' st1 q Hl Hp Hq
      |left count done off st0 n p done' off' st1 done2 off2 st2 r st' Hl Hp Hn Ht Hc
      |left count done off st0 n p done' off' st1 done2 off2 st2 x st' Hl Hp Hn1 Hn2 Ht Hc
      |left count done off st0 n p done' off' st1 done2 off2 st2 e st' Hl Hp Hn1 Hn2 Ht Hc
      |left count done off st0 n p done' off' st1 done2 off2 st2 o Hl Hp Hn Ht H IH
      |left count done off st0 n p done' off' st1 done2 off2 st2 r st' Hl Hp Hn1 Hn2 Ht Hc].
    - exists 0%nat. intros f n _ _. rewrite iterate_end, (finalize_strict_loop _ _ _ _ _ _ _ _ _ Hiter), Hk.
      subst. reflexivity.
    - exists 0%nat. intros f n _ _. rewrite iterate_end, (finalize_strict_loop _ _ _ _ _ _ _ _ _ Hiter).
      destruct (N.eqb_spec lo 0); [lia|]. cbn [andb]. destruct (N.ltb_spec count lo); [reflexivity|lia].
    - exists 0%nat. intros f n _ _. rewrite iterate_end, (finalize_strict_loop _ _ _ _ _ _ _ _ _ Hiter).
      destruct (N.ltb_spec count lo); [lia|].
      replace (_ && _ && _) with false; [now apply closes_collected|].
      symmetry. destruct (N.eqb_spec lo 0), (N.eqb_spec count 0); cbn [andb]; try reflexivity.
      destruct (all_kids done) eqn:Ek; [|reflexivity]. exfalso. apply Hz. auto.
    - destruct (Hpass count _ _ _ _ _ Hp) as [n1 Hn1]. destruct IH as [n2 IH].
      exists (S (Nat.max n1 n2)). intros [|f] n Hf Hn; [lia|]. rewrite iterate_one by assumption.
      specialize (Hn1 n ltac:(lia)). cbn [shows] in Hn1. rewrite Hn1. apply IH; lia.
    - destruct (Hpass count _ _ _ _ _ Hp) as [n1 Hn1].
      exists (S n1). intros [|f] n Hf Hn; [lia|]. rewrite iterate_one by assumption.
      specialize (Hn1 n ltac:(lia)). cbn [shows] in Hn1. rewrite Hiter in Hn1.
      destruct Hn1 as (r' & st2 & ps & Hc' & ->).
      apply closes_collected in Hc. apply closes_collected in Hc'. cbn. congruence.
    - destruct (Hpass count _ _ _ _ _ Hp) as [n1 Hn1].
      exists (S n1). intros [|f] n Hf Hn; [lia|]. rewrite iterate_one by assumption.
      specialize (Hn1 n ltac:(lia)). cbn [shows] in Hn1. destruct Hn1 as [ps ->]. reflexivity.
    - destruct (Hpass count _ _ _ _ _ Hp) as [n1 Hn1].
      exists (S n1). intros [|f] n Hf Hn; [lia|]. rewrite iterate_one by assumption.
      specialize (Hn1 n ltac:(lia)). cbn [shows] in Hn1. rewrite Hn1. reflexivity.
    - destruct (Hpass count _ _ _ _ _ Hp) as [n1 Hn1].
      exists (S n1). intros [|f] n Hf Hn; [lia|]. rewrite iterate_one by assumption.
      specialize (Hn1 n ltac:(lia)). cbn [shows] in Hn1. rewrite Hn1. reflexivity.
    - destruct (Hpass count _ _ _ _ _ Hp) as [n1 Hn1].
      exists (S n1). intros [|f] n Hf Hn; [lia|]. rewrite iterate_one by assumption.
      specialize (Hn1 n ltac:(lia)). cbn [shows] in Hn1. destruct Hn1 as [-> _]. reflexivity.
    - destruct (Hpass count _ _ _ _ _ Hp) as [n1 Hn1]. destruct IH as [n2 IH].
      exists (S (Nat.max n1 n2)). intros [|f] n Hf Hn; [lia|]. rewrite iterate_one by assumption.
      specialize (Hn1 n ltac:(lia)). cbn [shows] in Hn1. destruct Hn1 as [-> _].
      rewrite <- (IH f n) by lia. now rewrite iterate_end.
    - destruct Hp as [Hp|Hp].
      + destruct (Hpass count _ _ _ _ _ Hp) as [n1 Hn1].
        exists (S n1). intros [|f] n' Hf Hn; [lia|]. rewrite iterate_one by assumption.
        specialize (Hn1 n' ltac:(lia)). cbn [shows] in Hn1. destruct Hn1 as [-> _].
        now rewrite (payload_breaks _ _ _ _ _ _ _ _ _ Hq).
      + destruct (Hpass count _ _ _ _ _ Hp) as [n1 Hn1].
        exists (S n1). intros [|f] n' Hf Hn; [lia|]. rewrite iterate_one by assumption.
        specialize (Hn1 n' ltac:(lia)). cbn [shows] in Hn1. destruct Hn1 as [-> _].
        now rewrite (payload_breaks _ _ _ _ _ _ _ _ _ Hq).
    - destruct (Hpass count _ _ _ _ _ Hp) as [n1 Hn1].
      exists (S n1). intros [|f] n' Hf Hn'; [lia|]. rewrite iterate_one by assumption.
      specialize (Hn1 n' ltac:(lia)). cbn [shows] in Hn1. destruct Hn1 as [-> _].
      fold start in Ht; rewrite (payload_takes _ _ _ _ _ _ _ _ _ _ _ Ht), (closes_loose _ _ _ _ _ _ Hc).
      apply target_iff in Hn. now rewrite Hn.
    - destruct (Hpass count _ _ _ _ _ Hp) as [n1 Hn3].
      exists (S n1). intros [|f] n' Hf Hn'; [lia|]. rewrite iterate_one by assumption.
      specialize (Hn3 n' ltac:(lia)). cbn [shows] in Hn3. destruct Hn3 as [-> _].
      fold start in Ht; rewrite (payload_takes _ _ _ _ _ _ _ _ _ _ _ Ht), (closes_loose _ _ _ _ _ _ Hc).
      assert (Hn : is_target i n = false) by now apply target_not. now rewrite Hn.
    - destruct (Hpass count _ _ _ _ _ Hp) as [n1 Hn3].
      exists (S n1). intros [|f] n' Hf Hn'; [lia|]. rewrite iterate_one by assumption.
      specialize (Hn3 n' ltac:(lia)). cbn [shows] in Hn3. destruct Hn3 as [-> _].
      fold start in Ht; rewrite (payload_takes _ _ _ _ _ _ _ _ _ _ _ Ht), (closes_loose _ _ _ _ _ _ Hc).
      assert (Hn : is_target i n = false) by now apply target_not. now rewrite Hn.
    - destruct (Hpass count _ _ _ _ _ Hp) as [n1 Hn1]. destruct IH as [n2 IH].
      exists (S (Nat.max n1 n2)). intros [|f] n' Hf Hn'; [lia|]. rewrite iterate_one by assumption.
      specialize (Hn1 n' ltac:(lia)). cbn [shows] in Hn1. destruct Hn1 as [-> _].
      fold start in Ht; rewrite (payload_takes _ _ _ _ _ _ _ _ _ _ _ Ht).
      apply target_iff in Hn. rewrite Hn. apply IH; lia.
    - destruct (Hpass count _ _ _ _ _ Hp) as [n1 Hn3].
      exists (S n1). intros [|f] n' Hf Hn'; [lia|]. rewrite iterate_one by assumption.
      specialize (Hn3 n' ltac:(lia)). cbn [shows] in Hn3. destruct Hn3 as [-> _].
      fold start in Ht; rewrite (payload_takes _ _ _ _ _ _ _ _ _ _ _ Ht).
      assert (Hn : is_target i n = false) by now apply target_not. rewrite Hn.
      now apply closes_loose.
  Qed.

  Lemma loops_close count done off st0 :
    exists o, loops E P c i lo s pt pats 0 count done off st0 o /\
              finalize P i pt (pst_of done off) count true st0 = res_of o.
  Proof.
    destruct (N.ltb_spec count lo) as [Hlt|Hge].
    - assert (H : loops E P c i lo s pt pats 0 count done off st0 (Done (Err FFail) st0)) by now apply lp_short.
      exists (Done (Err FFail) st0). split; [exact H|].
      destruct (loops_iterate _ _ _ _ _ _ H) as [n0 Hn]. now rewrite <- (Hn n0 n0), iterate_end by lia.
    - destruct (closes_total P pt done st0) as (r & st' & Hc).
      destruct (N.eq_dec lo 0) as [Hl|Hl], (N.eq_dec count 0) as [Hn0|Hn0], (all_kids done) as [|k ks] eqn:Ek;
      match goal with
      | Hl : lo = 0, Hn0 : count = 0, Ek : all_kids done = [] |- _ =>
          assert (H : loops E P c i lo s pt pats 0 count done off st0 (Done (Ok (SSkip 0)) st0))
            by now apply lp_empty
      | _ =>
          assert (H : loops E P c i lo s pt pats 0 count done off st0 (Done r st'))
            by (apply lp_end; [exact Hge| |exact Hc]; intros (? & ? & ?); congruence)
      end;
      eexists; (split; [exact H|]);
      destruct (loops_iterate _ _ _ _ _ _ H) as [n0 Hn]; rewrite <- (Hn n0 n0), iterate_end by lia; reflexivity.
  Qed.

  Lemma iterate_loops f n : forall left count done off st0,
    it f n left count (pst_of done off) st0 <> OOF ->
    exists o, o <> Never /\ loops E P c i lo s pt pats left count done off st0 o /\
              it f n left count (pst_of done off) st0 = res_of o.
  Proof.
    induction f as [|f IH]; intros left count done off st0 Hne.
    - destruct (N.eq_dec left 0) as [->|Hl].
      + rewrite iterate_end in *. destruct (loops_close count done off st0) as (o & Ho & Hf).
        exists o. repeat split; auto. intros ->. rewrite Hf in Hne. now cbn in Hne.
      + exfalso. apply Hne. unfold it. cbn [iterate]. destruct (N.eqb_spec left 0); [lia|reflexivity].
    - destruct (N.eq_dec left 0) as [->|Hl].
      + rewrite iterate_end in *. destruct (loops_close count done off st0) as (o & Ho & Hf).
        exists o. repeat split; auto. intros ->. rewrite Hf in Hne. now cbn in Hne.
      + assert (Hl' : 0 < left) by lia. rewrite iterate_one in * by assumption.
        destruct (shows_pass E P c i s pt count Hdebug Hstop n pats done off st0) as (w & Hp & Hw & Hs).
        { intros Hx. fold start c1 in Hx. unfold c1, start in *. rewrite Hx in Hne. now apply Hne. }
        fold start c1 in Hs.
        destruct w as [d o st1|y d o st1|d st1|e st1|p|]; cbn [shows] in Hs; try congruence.
        * rewrite Hs in *. destruct (IH _ _ _ _ _ Hne) as (o' & Hn' & Ho' & He).
          exists o'. repeat split; auto. eapply lp_next; eauto.
        * destruct Hs as [Hs Hy]. rewrite Hs in *.
          destruct y as [a|a|z|nm p|nm p| |]; try contradiction.
          -- pose proof (payload_total E P pt start p d o st1) as Ht.
             destruct (handle_payload _ _ _ _ _ _ _) as [ps st2|q|]; [| |contradiction].
             ++ destruct Ht as (d2 & o2 & -> & Ht).
                destruct (closes_total P pt d2 st2) as (r & st' & Hc).
                rewrite (closes_loose _ _ _ _ _ _ Hc).
                destruct (is_target i nm) eqn:Et.
                ** apply target_iff in Et. exists (Done r st'). split; [discriminate|]. split; [|reflexivity].
                   eapply lp_break; eauto.
                ** apply target_not in Et as [Et1 Et2]. destruct r as [x|e].
                   --- exists (Done (Ok (SBreak nm x)) st'). split; [discriminate|]. split; [|reflexivity].
                       eapply lp_break_outer; eauto.
                   --- exists (Done (Err e) st'). split; [discriminate|]. split; [|reflexivity].
                       eapply lp_break_outer_fail; eauto.
             ++ exists (Panicked q). split; [discriminate|]. split; [|reflexivity]. eapply lp_payload; eauto.
          -- pose proof (payload_total E P pt start p d o st1) as Ht.
             destruct (handle_payload _ _ _ _ _ _ _) as [ps st2|q|]; [| |contradiction].
             ++ destruct Ht as (d2 & o2 & -> & Ht).
                destruct (is_target i nm) eqn:Et.
                ** apply target_iff in Et. destruct (IH _ _ _ _ _ Hne) as (o' & Hn' & Ho' & He).
                   exists o'. repeat split; auto. eapply lp_continue; eauto.
                ** apply target_not in Et as [Et1 Et2].
                   destruct (closes_total P pt d2 st2) as (r & st' & Hc).
                   rewrite (closes_loose _ _ _ _ _ _ Hc).
                   exists (Done r st'). split; [discriminate|]. split; [|reflexivity].
                   eapply lp_continue_outer; eauto.
             ++ exists (Panicked q). split; [discriminate|]. split; [|reflexivity]. eapply lp_payload; eauto.
          -- exists (Panicked PUnreachable). split; [discriminate|]. split; [|reflexivity]. eapply lp_none; eauto.
          -- destruct (loops_close count d o st1) as (o' & Ho' & Hf). exists o'. split.
             ++ intros ->. rewrite Hf in Hne. now cbn in Hne.
             ++ split; [|exact Hf]. eapply lp_stop; eauto.
        * rewrite Hiter in Hs. destruct Hs as (r & st' & ps & Hc & Hs). rewrite Hs in *.
          exists (Done r st'). split; [discriminate|]. split; [|reflexivity]. eapply lp_fail; eauto.
        * destruct Hs as [ps Hs]. rewrite Hs.
          exists (Done (Err (FError e)) st1). split; [discriminate|]. split; [|reflexivity]. eapply lp_error; eauto.
        * rewrite Hs. exists (Panicked p). split; [discriminate|]. split; [|reflexivity]. eapply lp_panic; eauto.
  Qed.
End Loop.

Lemma loop_does E P c i s st pats lo hi o :
  c_debug c = 0 -> pi_stop i = false -> pi_iter i = Some (lo, hi) ->
  loops E P c i lo s (List.length (st_heap st)) pats (hi - lo) 0 [] (rs (c_off c)) (program_start P pats i s st) o ->
  Does E P (MProgram pats i) c s st o.
Proof.
  intros Hd Hs Hi H.
  destruct (loops_iterate E P c i s pats lo hi _ Hd Hs Hi _ _ _ _ _ _ H) as [n0 Hn].
  apply (does_from _ _ _ _ _ _ _ (S n0)). intros [|n] Hle; [lia|].
  rewrite program_unfold. unfold iterations. rewrite Hi. apply Hn; lia.
Qed.

Lemma does_loop E P c i s st pats lo hi o :
  c_debug c = 0 -> pi_stop i = false -> pi_iter i = Some (lo, hi) -> o <> Never ->
  Does E P (MProgram pats i) c s st o ->
  loops E P c i lo s (List.length (st_heap st)) pats (hi - lo) 0 [] (rs (c_off c)) (program_start P pats i s st) o.
Proof.
  intros Hd Hs Hi Ho H. apply does_at in H; [|exact Ho]. destruct H as [n H].
  destruct n as [|n]; [destruct o; cbn in H; congruence|].
  rewrite program_unfold in H. unfold iterations in H. rewrite Hi in H.
  destruct (iterate_loops E P c i s pats lo hi (List.length (st_heap st)) Hd Hs Hi n n (hi - lo) 0 []
              (rs (c_off c)) (program_start P pats i s st)) as (o' & Hn & Hl & He).
  { rewrite H. destruct o; cbn; congruence. }
  rewrite H in He. assert (o' = o) by (destruct o, o'; cbn in He; congruence). now subst.
Qed.

(* ---------- switches ---------- *)

Section Switch.
  Variables (E : env) (P : parser) (c : ctx) (i : pinfo) (s : sid) (pt : addr).
  Hypothesis Hdebug : c_debug c = 0.
  Hypothesis Hstop : pi_stop i = true.
  Hypothesis Hoff : rs (c_off c) <= usize_max.
  Let c1 := clone_with_name c (pi_name i).
  Let start := rs (c_off c).

  (* nothing was collected *)
  Definition quiet (ps : pst) : Prop := ps_off ps = start /\ ps_kids ps = [] /\ rs (ps_cr ps) = usize_max.

  Definition after_choice (x : res (ctl * pst)) (o : outcome) : Prop :=
    match x with
    | OOF => o = Never
    | Pan p => o = Panicked p
    | Ret (k, ps) st =>
        match k with
        | CRet r => o = Done r st
        | CDone => quiet ps /\ o = Done (Err FFail) st
        | CAct (SBreak n p) | CAct (SContinue n p) => o = Done (Ok (SBreak n p)) st
        | CAct SStop => quiet ps /\ o = Done (Err FFail) st
        | CAct _ => o = Panicked PUnreachable
        end
    end.

  Lemma zero_skip ps st : quiet ps -> exists ps', handle_skip E start 0 ps st = Ret ps' st /\ quiet ps'.
  Proof.
    intros (H1 & H2 & H3). unfold handle_skip. rewrite H1.
    replace (usize_add (e_checks E) start (as_usize 0)) with (Some start).
    - cbn [or_die]. eexists. split; [reflexivity|]. repeat split; assumption.
    - unfold usize_add, as_usize. rewrite Z.mod_0_l by discriminate. cbn [Z.to_N].
      rewrite N.add_0_r. destruct (N.leb_spec start usize_max); [reflexivity|unfold start in *; lia].
  Qed.

  Lemma chooses_patterns alts st o :
    chooses E P (pattern_ctx c (pi_name i) pt start) s alts st o ->
    exists n0, forall n, (n0 <= n)%nat -> forall ps, quiet ps ->
      after_choice (run_patterns E P (exec n E P) i c1 s pt start 0 alts ps st) o.
  Proof.
    assert (Hctx : forall ps, quiet ps ->
      push_tok (with_start c1 (ps_off ps)) pt = pattern_ctx c (pi_name i) pt start).
    { intros ps [-> _]. reflexivity. }
    assert (Hd : forall ps, dbg E P (with_start c1 (ps_off ps)) 10 = Val tt).
    { intros ps. now apply dbg_quiet. }
    induction 1 as [st|m ms st r st1 o Hr Hp H IH|m ms st r st1 r' Hr Hdec|m ms st st1 Hr|m ms st p Hr|m ms st Hr].
    - exists 0%nat. intros n _ ps Hq. cbn [run_patterns after_choice]. auto.
    - destruct IH as [n1 IH]. destruct (runs_from _ _ _ _ _ _ _ _ Hr) as [n2 Hn2].
      exists (Nat.max n1 n2). intros n Hn ps Hq. cbn [run_patterns]. rewrite (Hctx _ Hq), Hn2 by lia.
      destruct Hp as [->|[->|(a & Hk & [->| ->])]].
      + rewrite Hd, Hstop. apply IH; [lia|exact Hq].
      + cbn [Z.ltb Z.compare andb]. destruct (m_consuming m).
        * destruct (zero_skip ps st1 Hq) as (ps' & -> & Hq'). apply IH; [lia|exact Hq'].
        * apply IH; [lia|exact Hq].
      + apply pin_iff in Hk. rewrite Hk. apply IH; [lia|exact Hq].
      + apply pin_iff in Hk. rewrite Hk. apply IH; [lia|exact Hq].
    - destruct (runs_from _ _ _ _ _ _ _ _ Hr) as [n2 Hn2].
      exists n2. intros n Hn ps Hq. cbn [run_patterns]. rewrite (Hctx _ Hq), Hn2 by lia.
      destruct Hdec as [a Hk|a Hk|z Hz|nm p|nm p| |e].
      + apply standard_iff in Hk. now rewrite Hk, Hstop.
      + apply standard_iff in Hk. now rewrite Hk, Hstop.
      + apply Z.ltb_lt in Hz. now rewrite Hz, Hstop.
      + reflexivity.
      + reflexivity.
      + cbn [after_choice]. auto.
      + rewrite Hd. reflexivity.
    - destruct (runs_from _ _ _ _ _ _ _ _ Hr) as [n2 Hn2].
      exists n2. intros n Hn ps Hq. cbn [run_patterns]. rewrite (Hctx _ Hq), Hn2 by lia. reflexivity.
    - destruct (panics_from _ _ _ _ _ _ _ Hr) as [n2 Hn2].
      exists n2. intros n Hn ps Hq. cbn [run_patterns]. rewrite (Hctx _ Hq), Hn2 by lia. reflexivity.
    - exists 0%nat. intros n _ ps Hq. cbn [run_patterns]. rewrite (Hctx _ Hq), Hr. reflexivity.
  Qed.
End Switch.

Lemma switch_does E P c i s st alts o :
  c_debug c = 0 -> pi_stop i = true -> pi_iter i = None -> rs (c_off c) <= usize_max ->
  chooses E P (pattern_ctx c (pi_name i) (List.length (st_heap st)) (rs (c_off c))) s alts
          (program_start P alts i s st) o ->
  Does E P (MProgram alts i) c s st o.
Proof.
  intros Hd Hs Hi Ho H.
  destruct (chooses_patterns E P c i s (List.length (st_heap st)) Hd Hs Ho _ _ _ H) as [n0 Hn].
  apply (does_from _ _ _ _ _ _ _ (S (S n0))). intros [|[|n]] Hle; [lia|lia|].
  rewrite program_unfold. unfold iterations. rewrite Hi. cbn [iterate N.eqb Pos.eqb].
  assert (Hq : quiet c (pst_of [] (rs (c_off c)))) by (split; [|split]; reflexivity).
  specialize (Hn (S n) ltac:(lia) _ Hq).
  assert (Hf : forall ps count st0, quiet c ps ->
    finalize P i (List.length (st_heap st)) ps count true st0 = Ret (Err FFail) st0).
  { intros ps count st0 (_ & _ & Hc). unfold finalize. rewrite Hi, Hc. reflexivity. }
  destruct (run_patterns _ _ _ _ _ _ _ _ _ _ _ _) as [[k ps] st1|p|]; cbn [after_choice] in Hn.
  - destruct k as [|x|r].
    + destruct Hn as [Hq' ->]. change (1 - 1) with 0. destruct n; cbn [iterate N.eqb]; now rewrite Hf.
    + rewrite Hs. destruct x; try (now rewrite Hn). destruct Hn as [Hq' ->]. now rewrite Hf.
    + now rewrite Hn.
  - now rewrite Hn.
  - now rewrite Hn.
Qed.
