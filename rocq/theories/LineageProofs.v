(* Parents are older than their children (C71). *)
From Verif Require Export PrintProofs TreeProofs.
Open Scope string_scope.
Open Scope list_scope.
Open Scope N_scope.

Lemma lineage_heap h st st' : st_heap st' = st_heap st -> lineage h st -> lineage h st'.
Proof. unfold lineage, heap_size, tok. intros ->. auto. Qed.
Lemma lineage_set h st a t : (forall p, tk_parent t = Some p -> tk_parent (tok st a) = Some p \/ (h <= p < a)%nat) ->
  lineage h st -> lineage h (set_tok st a t).
Proof.
  intros Ht Hl b p Hb Hp. rewrite heap_size_set in Hb. destruct (Nat.eq_dec a b) as [<-|Hn].
  - rewrite tok_set_same in Hp by (unfold heap_size in Hb; lia). destruct (Ht p Hp) as [H|H]; [|exact H].
    exact (Hl a p Hb H).
  - rewrite tok_set_other in Hp by exact Hn. exact (Hl b p Hb Hp).
Qed.
Lemma lineage_keep h st a t : tk_parent t = tk_parent (tok st a) -> lineage h st -> lineage h (set_tok st a t).
Proof. intros H. apply lineage_set. intros p. rewrite H. auto. Qed.
Lemma lineage_alloc h st t : tk_parent t = None -> lineage h st -> lineage h (alloc st t).
Proof.
  intros Ht Hl b p Hb Hp. rewrite heap_size_alloc in Hb.
  destruct (Nat.eq_dec b (heap_size st)) as [->|Hn].
  - change (heap_size st) with (next_addr st) in Hp. rewrite tok_alloc_new in Hp. congruence.
  - rewrite tok_alloc_old in Hp by (unfold heap_size in *; lia). apply (Hl b p); [lia|exact Hp].
Qed.
Lemma lineage_top st : lineage (heap_size st) st.
Proof. intros a p Ha. lia. Qed.

Definition lineal (rec : recT) : Prop :=
  forall h m c s st r st', (h <= heap_size st)%nat -> forest h st -> lineage h st ->
    rec m c s st = Ret r st' -> lineage h st'.

Lemma error_token_at_lineage E P msg r h st x st' : lineage h st ->
  error_token_at E P msg r st = Ret x st' -> lineage h st'.
Proof.
  intros Ho H. unfold error_token_at in H. destruct (error_string E P msg r); [|discriminate].
  injection H as <- <-. now apply lineage_alloc.
Qed.
Lemma add_missing_parent l : forall t, tk_parent (add_missing_attrs l t) = tk_parent t.
Proof.
  unfold add_missing_attrs. induction l as [|kv l IH]; intros t; cbn [fold_left]; [reflexivity|].
  rewrite IH. destruct (get_attr (fst kv) t); reflexivity.
Qed.
Lemma set_attrs_parent l : forall t, tk_parent (set_attrs l t) = tk_parent t.
Proof.
  unfold set_attrs. induction l as [|kv l IH]; intros t; cbn [fold_left]; [reflexivity|]. now rewrite IH.
Qed.
Lemma add_errors_parent P st l : forall t, tk_parent (add_errors P st l t) = tk_parent t.
Proof.
  unfold add_errors. induction l as [|e l IH]; intros t; cbn [fold_left]; [reflexivity|].
  rewrite IH. unfold widen. destruct (_ || _); reflexivity.
Qed.

Lemma map_ok_lineage E P f a c s h st r st' : filial E ->
  (h <= heap_size st)%nat -> forest h st -> lineage h st -> (h <= a < heap_size st)%nat ->
  map_ok E P f a c s st = Ret r st' -> lineage h st'.
Proof.
  intros HE Hh Hf Ho Ha H. unfold modify in H.
  destruct f; cbn [map_ok] in H; unfold modify in H.
  - destruct (HE h st Hh Hf Ho) as (Hok & _). eapply Hok; eauto.
  - destruct (error_string E P _ _); [|discriminate]. injection H as <- <-. exact Ho.
  - injection H as <- <-. exact Ho.
  - eapply error_token_at_lineage; eauto.
  - injection H as <- <-. exact Ho.
  - injection H as <- <-. apply lineage_keep; [apply add_missing_parent|exact Ho].
  - injection H as <- <-. now apply lineage_keep.
  - destruct (attributes_of st a) as [l|]; [|discriminate]. injection H as <- <-.
    apply lineage_keep; [apply set_attrs_parent|exact Ho].
  - injection H as <- <-. now apply lineage_keep.
  - destruct (attributes_of st a) as [l|]; [|discriminate].
    set (st1 := set_tok st a (set_attrs l (tok st a))) in *.
    assert (Hm : lineage h st1) by (apply lineage_keep; [apply set_attrs_parent|exact Ho]).
    destruct (get_attr "version" (tok st1 a)) as [v|].
    + destruct (parse_usize v).
      * injection H as <- <-. exact Hm.
      * destruct (version_attr l); [|discriminate]. eapply error_token_at_lineage; eauto.
    + eapply error_token_at_lineage; eauto.
  - destruct (re (tk_mr (tok st a)) <? slen (p_src P)).
    + destruct (src_slice P _ _); [|discriminate]. unfold error_token in H. eapply error_token_at_lineage; eauto.
    + injection H as <- <-. exact Ho.
  - destruct (find_child st (tok st a) "AdextopaScope").
    + injection H as <- <-. exact Ho.
    + destruct (find_child st (tok st a) "PatternScope").
      * injection H as <- <-. exact Ho.
      * eapply error_token_at_lineage; eauto.
Qed.

Lemma map_err_lineage E P f e c s h st r st' : filial E ->
  (h <= heap_size st)%nat -> forest h st -> lineage h st ->
  map_err E P f e c s st = Ret r st' -> lineage h st'.
Proof.
  intros HE Hh Hf Ho H.
  destruct (HE h st Hh Hf Ho) as (_ & Herr & _ & _).
  destruct f, e; cbn [map_err] in H;
    try (injection H as <- <-; exact Ho);
    try (eapply Herr; now eauto).
  - destruct (error_string E P _ (c_off c)); [|discriminate]. injection H as <- <-. exact Ho.
  - unfold error_token in H. eapply error_token_at_lineage; eauto.
Qed.

Lemma skip_token_lineage E P start a h st x st' : lineage h st ->
  skip_token E P start a st = Ret x st' -> lineage h st'.
Proof.
  intros Ho H. unfold skip_token in H. destruct (error_tokens _ _ _) as [errs|]; [|discriminate].
  assert (Hl : lineage h (alloc st (add_errors P st errs (std_token P "Error" (mkR start (re (tk_mr (tok st a)))))))).
  { apply lineage_alloc; [|exact Ho]. now rewrite add_errors_parent. }
  destruct errs.
  - destruct (isize_sub _ _ _); cbn [or_die] in H; [|discriminate]. injection H as <- <-. exact Hl.
  - injection H as <- <-. exact Hl.
Qed.
Lemma discard_lineage E P start r h st r' st' : lineage h st ->
  discard_result E P start r st = Ret r' st' -> lineage h st'.
Proof.
  intros Ho H.
  assert (Hp : forall p x st1, discard_payload E P start p st = Ret x st1 -> lineage h st1).
  { intros p x st1 H1. destruct p; cbn [discard_payload] in H1; try discriminate;
      try (injection H1 as <- <-; exact Ho); (eapply skip_token_lineage; [exact Ho|exact H1]). }
  destruct r as [x|e]; [|injection H as <- <-; exact Ho].
  destruct x; cbn [discard_result] in H; try (injection H as <- <-; exact Ho).
  - destruct (skip_token E P start a st) as [y st1|p|] eqn:Ey; try discriminate. injection H as <- <-.
    eapply skip_token_lineage; eauto.
  - destruct (skip_token E P start a st) as [y st1|p|] eqn:Ey; try discriminate. injection H as <- <-.
    eapply skip_token_lineage; eauto.
  - destruct (discard_payload E P start x st) as [y st1|p|] eqn:Ey; try discriminate. injection H as <- <-. eauto.
  - destruct (discard_payload E P start x st) as [y st1|p|] eqn:Ey; try discriminate. injection H as <- <-. eauto.
Qed.

Section ProgramLines.
  Variables (E : env) (P : parser) (rec : recT) (h : nat) (pt : addr) (st_s : state).
  Hypothesis Hsound : forall h, sound h rec.
  Hypothesis Hrec : lineal rec.
  Hypothesis Hpt : heap_size st_s = pt.
  Hypothesis Hh : (h <= pt)%nat.
  Hypothesis Hs : forest h st_s.

  Definition lined (st : state) (ps : pst) : Prop := stage pt st_s st ps /\ lineage h st.

  Lemma add_token_lined a fwd u ps st ps' st' : lined st ps -> (S pt <= a < heap_size st)%nat ->
    add_token P pt a fwd u ps st = Ret ps' st' -> lined st' ps' /\ heap_size st' = heap_size st.
  Proof.
    intros [Hst Hl] Ha H. pose proof H as H'. apply (add_token_stage P h pt st_s Hpt Hh) in H' as [Hst' Hsz]; auto.
    split; [|exact Hsz]. split; [exact Hst'|]. unfold add_token in H.
    destruct (_ && _ && _ && _); [discriminate|]. injection H as <- <-.
    apply lineage_set; [|exact Hl]. cbn [tk_parent set_parent]. intros p Hp. injection Hp as <-. right. lia.
  Qed.
  Lemma extract_lined self u l : forall ps st ps' st', lined st ps ->
    (forall a, In a l -> (S pt <= a < heap_size st)%nat) ->
    extract_children P pt self u l ps st = Ret ps' st' -> lined st' ps'.
  Proof.
    induction l as [|k l IH]; intros ps st ps' st' Hst Hl H; cbn [extract_children] in H.
    - injection H as <- <-. exact Hst.
    - destruct (should_discard (tok st k)).
      + eapply IH; [exact Hst| |exact H]. intros; apply Hl; now right.
      + destruct (Nat.eqb k self); [discriminate|].
        destruct (add_token P pt k false u ps st) as [ps1 st1|p|] eqn:Ea; try discriminate.
        destruct (add_token_lined _ _ _ _ _ _ _ Hst (Hl k (or_introl eq_refl)) Ea) as [Hst1 Hsz].
        eapply IH; [exact Hst1| |exact H]. intros a Ha. rewrite Hsz. apply Hl. now right.
  Qed.
  Lemma handle_extract_lined a u ps st ps' st' : lined st ps -> (S pt <= a < heap_size st)%nat ->
    handle_extract P pt a u ps st = Ret ps' st' -> lined st' ps'.
  Proof.
    intros [Hst Hl] Ha H. unfold handle_extract in H. eapply extract_lined; [| |exact H].
    - split; [|exact Hl]. eapply stage_kids; [exact Hst|]. destruct (_ && _); apply Hst.
    - intros k Hk. eapply (forest_closed (S pt) st); [apply Hst|exact Ha|exact Hk].
  Qed.
  Lemma handle_skip_lined start z ps st ps' st' : lined st ps ->
    handle_skip E start z ps st = Ret ps' st' -> lined st' ps'.
  Proof.
    intros [Hst Hl] H. pose proof H as H'. apply (handle_skip_stage E pt st_s) in H'; [|exact Hst].
    unfold handle_skip in H. destruct (or_die _ _); [|discriminate]. injection H as <- <-. split; assumption.
  Qed.
  Lemma handle_payload_lined start p ps st ps' st' : lined st ps ->
    (forall a, In a (success_tokens p) -> (S pt <= a < heap_size st)%nat) ->
    handle_payload E P pt start p ps st = Ret ps' st' -> lined st' ps'.
  Proof.
    intros Hst Hp H. destruct p; cbn [handle_payload] in H; try (injection H as <- <-; exact Hst).
    - unfold handle_token in H. eapply add_token_lined; [exact Hst| |exact H]. apply Hp. now left.
    - eapply handle_extract_lined; [exact Hst| |exact H]. apply Hp. now left.
    - eapply handle_skip_lined; eauto.
  Qed.
  Lemma finalize_lineage i ps count strict st r st' : lineage h st ->
    finalize P i pt ps count strict st = Ret r st' -> lineage h st'.
  Proof.
    intros Hl H.
    assert (Hc : (if (rs (ps_cr ps) =? usize_max) || (rs (ps_mr ps) =? usize_max) then Ret (Err FFail) st
      else match ps_kids ps with
           | [] => Ret (Err FFail) st
           | _ => Ret (Ok (SToken pt))
                    (modify st pt (fun t => set_mr P (ps_mr ps) (set_cr P (ps_cr ps) (set_kids (ps_kids ps) t))))
           end) = Ret r st' -> lineage h st').
    { clear H. intros H. destruct (_ || _); [injection H as <- <-; exact Hl|].
      destruct (ps_kids ps) as [|k ks] eqn:Ek; injection H as <- <-; [exact Hl|].
      unfold modify. now apply lineage_keep. }
    unfold finalize in H. destruct strict; [|now apply Hc].
    destruct (pi_iter i) as [[lo hi]|]; [|now apply Hc].
    destruct (_ && _ && _); [injection H as <- <-; exact Hl|].
    destruct (count <? lo); [injection H as <- <-; exact Hl|]. now apply Hc.
  Qed.

  Lemma rec_lined m c s ps st r st1 : lined st ps -> rec m c s st = Ret r st1 ->
    lined st1 ps /\ forall a, In a (result_tokens r) -> (S pt <= a < heap_size st1)%nat.
  Proof.
    intros [Hst Hl] Er. pose proof Er as Er2. pose proof Hst as (S1 & S2 & _).
    apply (Hsound (S pt)) in Er2 as (P1 & P2 & P3); [|lia|exact S2].
    split; [|exact P3]. split; [eapply stage_below; eauto|].
    eapply Hrec; [| | |exact Er].
    - lia.
    - exact (stage_forest h pt st_s Hpt Hh Hs st ps Hst).
    - exact Hl.
  Qed.

  Definition pass_lined (k : ctl) (ps : pst) (st : state) : Prop :=
    match k with
    | CDone => lined st ps
    | CAct x => lined st ps /\ forall a, In a (success_tokens x) -> (S pt <= a < heap_size st)%nat
    | CRet r => lineage h st
    end.

  Lemma run_patterns_lined i c s start count pats : forall ps st k ps' st', lined st ps ->
    run_patterns E P rec i c s pt start count pats ps st = Ret (k, ps') st' -> pass_lined k ps' st'.
  Proof.
    induction pats as [|m pats IH]; intros ps st k ps' st' Hst H; cbn [run_patterns] in H.
    - injection H as <- <- <-. exact Hst.
    - destruct (rec m _ s st) as [r st1|p|] eqn:Er; try discriminate.
      apply (rec_lined _ _ _ _ _ _ _ Hst) in Er. clear Hst st. destruct Er as [Hst1 Hr].
      pose proof (proj2 Hst1) as Hret.
      destruct r as [[a|a|z|nm p|nm p| |]|e]; cbn [result_tokens success_tokens] in Hr.
      + destruct (should_discard (tok st1 a)); [eapply IH; [|exact H]; assumption|].
        destruct (pi_stop i); [injection H as <- <- <-; exact Hret|].
        unfold handle_token in H.
        destruct (add_token P pt a _ _ ps st1) as [ps2 st2|p|] eqn:Ea; try discriminate.
        apply (add_token_lined _ _ _ _ _ _ _ Hst1 (Hr a (or_introl eq_refl))) in Ea as [Ea _]. eapply IH; [exact Ea|exact H].
      + destruct (should_discard (tok st1 a)); [eapply IH; [|exact H]; assumption|].
        destruct (pi_stop i); [injection H as <- <- <-; exact Hret|].
        destruct (handle_extract P pt a _ ps st1) as [ps2 st2|p|] eqn:Ea; try discriminate.
        apply (handle_extract_lined _ _ _ _ _ _ Hst1 (Hr a (or_introl eq_refl))) in Ea. eapply IH; [exact Ea|exact H].
      + destruct (_ && _); [injection H as <- <- <-; exact Hret|].
        destruct (m_consuming m); [|eapply IH; [|exact H]; assumption].
        destruct (handle_skip E start z ps st1) as [ps2 st2|p|] eqn:Ea; try discriminate.
        apply (handle_skip_lined _ _ _ _ _ _ Hst1) in Ea. eapply IH; [exact Ea|exact H].
      + injection H as <- <- <-. split; assumption.
      + injection H as <- <- <-. split; assumption.
      + injection H as <- <- <-. split; assumption.
      + injection H as <- <- <-. split; assumption.
      + destruct (dbg E P _ 10); [|discriminate]. destruct e.
        * destruct (pi_stop i); [eapply IH; [|exact H]; assumption|]. destruct (pi_iter i).
          -- destruct (finalize P i pt ps count false st1) as [x st2|p0|] eqn:Ef; try discriminate.
             injection H as <- <- <-. cbn. eapply finalize_lineage; eauto.
          -- injection H as <- <- <-. exact Hret.
        * injection H as <- <- <-. exact Hret.
  Qed.

  Lemma iterate_lineage pats i c s start : forall f left count ps st r st', lined st ps ->
    iterate f E P rec pats i c s pt start left count ps st = Ret r st' -> lineage h st'.
  Proof.
    induction f as [|f IH]; intros left count ps st r st' Hst H; cbn [iterate] in H.
    - destruct (left =? 0); [|discriminate]. eapply finalize_lineage; [apply Hst|eauto].
    - destruct (left =? 0); [eapply finalize_lineage; [apply Hst|eauto]|].
      destruct (run_patterns _ _ _ _ _ _ _ _ _ _ _ _) as [[k ps1] st1|p|] eqn:Er; try discriminate.
      apply run_patterns_lined in Er; [|exact Hst]. destruct k as [|x|r0]; cbn [pass_lined] in Er.
      + eapply IH; [|exact H]; assumption.
      + destruct Er as [Er Hx]. pose proof (proj2 Er) as Hret.
        destruct x as [a|a|z|nm p|nm p| |]; try discriminate; cbn [success_tokens] in Hx.
        * destruct (pi_stop i); [injection H as <- <-; exact Hret|].
          destruct (handle_payload E P pt start p ps1 st1) as [ps2 st2|q|] eqn:Eh; try discriminate.
          apply handle_payload_lined in Eh; [|exact Er|exact Hx].
          destruct (finalize P i pt ps2 count false st2) as [y st3|q|] eqn:Ef; try discriminate.
          eapply finalize_lineage in Ef; [|apply Eh].
          destruct (is_target i nm); [injection H as <- <-; exact Ef|].
          destruct y; injection H as <- <-; exact Ef.
        * destruct (pi_stop i); [injection H as <- <-; exact Hret|].
          destruct (handle_payload E P pt start p ps1 st1) as [ps2 st2|q|] eqn:Eh; try discriminate.
          apply handle_payload_lined in Eh; [|exact Er|exact Hx].
          destruct (is_target i nm); [eapply IH; [|exact H]; assumption|]. eapply finalize_lineage; [apply Eh|eauto].
        * eapply finalize_lineage; [apply Er|eauto].
      + injection H as <- <-. exact Er.
  Qed.
End ProgramLines.

(* ---------- all matchers ---------- *)

Lemma step_lineal E P rec fuel : tame E -> filial E -> (forall h, sound h rec) -> lineal rec -> lineal (step fuel E P rec).
Proof.
  intros HT HE Hsound Hrec h m c s st0 r st' Hh0 Hf0 Ho0 H.
  unfold step in H.
  assert (Hh : (h <= heap_size (before_exec m s st0))%nat) by (now rewrite before_size).
  assert (Hf : forest h (before_exec m s st0)) by (eapply forest_heap; [apply before_heap|exact Hf0]).
  assert (Ho : lineage h (before_exec m s st0)) by (eapply lineage_heap; [apply before_heap|exact Ho0]).
  set (st := before_exec m s st0) in *. clearbody st. clear Hh0 Hf0 Ho0 st0.
  assert (Hin : forall m1 c1 s1 r0 st1, rec m1 c1 s1 st = Ret r0 st1 ->
     lineage h st1 /\ (h <= heap_size st1)%nat /\ forest h st1 /\
     (forall a, In a (result_tokens r0) -> (h <= a < heap_size st1)%nat)).
  { intros m1 c1 s1 r0 st1 E1. split; [eapply Hrec; eauto|]. apply (Hsound h) in E1; auto.
    split; [eapply stays_size; eauto|]. split; apply E1. }
  destruct m as [pats i|p name cust|f name cust|fs fe fx name cust|m1|m1|m1| |msg|msg|nm|m1 k|m1 f
                |om off name cust|p name cust|name|ms|t name cust|o m1|m1 name cust|m1|om d|k name cust cons];
    cbn [m_name m_custom] in H.
  - (* MProgram *)
    unfold exec_program in H.
    set (pt := next_addr st) in *. set (t0 := std_token P (pi_name i) blank_range) in *.
    assert (Hpt : heap_size st = pt) by reflexivity.
    eapply (iterate_lineage E P rec h pt st Hsound Hrec Hpt); [lia|exact Hf| |exact H].
    split; [|now apply lineage_alloc].
    assert (Hno : forall a, ~ (S pt <= a < heap_size (alloc st t0))%nat).
    { intros a Ha. rewrite heap_size_alloc in Ha. lia. }
    split; [rewrite heap_size_alloc; lia|]. split.
    + intros a Ha. exfalso. eapply Hno; eauto.
    + split; [intros a Ha; apply tok_alloc_old; unfold heap_size in *; lia|].
      split; [unfold pt; now rewrite tok_alloc_new|intros ? []].
  - (* MEquals *)
    destruct (fetch_value st s p) as [[v|m1]|]; [| |discriminate].
    + destruct (matches_str P _ v) as [r0|]; [|discriminate].
      destruct (dbg E P _ 10); [|discriminate].
      destruct r0; injection H as <- <-; [|exact Ho]. now apply lineage_alloc.
    + injection H as <- <-. exact Ho.
  - (* MMatches *)
    destruct (matches_regexp P _ f) as [r0|]; [|discriminate]. destruct r0 as [r0|].
    + destruct (rs r0 =? re r0).
      * destruct (dbg E P _ 10); [|discriminate]. injection H as <- <-. exact Ho.
      * injection H as <- <-. now apply lineage_alloc.
    + destruct (dbg E P _ 10); [|discriminate]. injection H as <- <-. exact Ho.
  - (* MSequence *)
    unfold exec_sequence in H.
    repeat match type of H with
    | (let! _ := ?x in _) = _ => destruct x; [|discriminate]
    | (match ?x with _ => _ end) = _ => destruct x
    end; try discriminate;
      try (injection H as <- <-; exact Ho);
      try (injection H as <- <-; now apply lineage_alloc).
  - (* MNot *)
    destruct (rec m1 _ s st) as [r0 st1|p|] eqn:E1; try discriminate. apply Hin in E1 as (H1 & H2 & H3 & H4).
    destruct r0 as [[a|a|z|b q|b q| |]|[|e]]; try (injection H as <- <-; exact H1).
    destruct (z =? 0)%Z; injection H as <- <-; exact H1.
  - (* MOptional *)
    destruct (rec m1 _ s st) as [r0 st1|p|] eqn:E1; try discriminate. apply Hin in E1 as (H1 & H2 & H3 & H4).
    destruct r0 as [x|[|e]]; injection H as <- <-; exact H1.
  - (* MDiscard *)
    destruct (rec m1 _ s st) as [r0 st1|p|] eqn:E1; try discriminate. apply Hin in E1 as (H1 & H2 & H3 & H4).
    exact (discard_lineage _ _ _ _ h _ _ _ H1 H).
  - injection H as <- <-. exact Ho.
  - (* MPanic *)
    destruct (error_string E P msg _); [|discriminate]. injection H as <- <-. exact Ho.
  - unfold error_token in H. eapply error_token_at_lineage; eauto.
  - injection H as <- <-. exact Ho.
  - (* MCatch *)
    destruct (rec m1 _ s st) as [r0 st1|p|] eqn:E1; try discriminate. apply Hin in E1 as (H1 & H2 & H3 & H4).
    destruct r0 as [x|e]; [injection H as <- <-; exact H1|].
    destruct (HE h st1 H2 H3 H1) as (_ & _ & Hc & _). eapply Hc; eauto.
  - (* MMap *)
    destruct (rec m1 _ s st) as [r0 st1|p|] eqn:E1; try discriminate. apply Hin in E1 as (H1 & H2 & H3 & H4).
    destruct r0 as [[a|a|z|b q|b q| |]|e]; try (injection H as <- <-; exact H1).
    + exact (map_ok_lineage _ _ _ _ _ _ h _ _ _ HE H2 H3 H1 (H4 a (or_introl eq_refl)) H).
    + exact (map_ok_lineage _ _ _ _ _ _ h _ _ _ HE H2 H3 H1 (H4 a (or_introl eq_refl)) H).
    + exact (map_err_lineage _ _ _ _ _ _ h _ _ _ HE H2 H3 H1 H).
  - (* MPin *)
    destruct (fetch_value st s off) as [[v|m2]|]; [| |discriminate].
    + destruct (pin_context E _ v); [|discriminate]. destruct om as [m1|].
      * now apply Hin in H as (H1 & _).
      * injection H as <- <-. now apply lineage_alloc.
    + injection H as <- <-. exact Ho.
  - (* MStore *)
    destruct p as [m1|v].
    + destruct (rec m1 _ s st) as [r0 st1|p|] eqn:E1; try discriminate. apply Hin in E1 as (H1 & H2 & H3 & H4).
      destruct r0 as [[a|a|z|b q|b q| |]|e]; injection H as <- <-; (exact H1 || (eapply lineage_heap; [|exact H1]; reflexivity)).
    + injection H as <- <-. eapply lineage_heap; [|exact Ho]. reflexivity.
  - injection H as <- <-. exact Ho.
  - (* MRegister *)
    injection H as <- <-. eapply lineage_heap; [|exact Ho].
    clear. revert st. induction ms as [|m ms IH]; intros st; cbn [fold_left]; [reflexivity|]. now rewrite IH.
  - (* MRef *)
    destruct (fetch_value st s t) as [[v|m1]|]; [| |discriminate].
    + destruct (sc_get st s v) as [[ | | ]|]; try (injection H as <- <-; exact Ho).
      now apply Hin in H as (H1 & _).
    + now apply Hin in H as (H1 & _).
  - (* MSetScope *)
    destruct o as [s1|].
    + now apply Hin in H as (H1 & _).
    + destruct (rec m1 _ (c_scope c) (sc_push st (c_scope c))) as [r0 st1|p|] eqn:E1; try discriminate.
      injection H as <- <-. apply (Hrec h) in E1; [|exact Hh|eapply forest_heap; [|exact Hf]; reflexivity|eapply lineage_heap; [|exact Ho]; reflexivity].
      eapply lineage_heap; [|exact E1]. reflexivity.
  - (* MProxy *)
    destruct (rec m1 _ s st) as [r0 st1|p|] eqn:E1; try discriminate. apply Hin in E1 as (H1 & H2 & H3 & H4).
    destruct r0 as [[a|a|z|b q|b q| |]|e]; try (injection H as <- <-; exact H1);
      destruct q; injection H as <- <-; exact H1.
  - (* MExpand *)
    destruct (rec m1 _ s st) as [r0 st1|p|] eqn:E1; try discriminate. apply Hin in E1 as (H1 & H2 & H3 & H4).
    destruct r0 as [[a|a|z|b q|b q| |]|e]; try (injection H as <- <-; exact H1).
    + injection H as <- <-. now apply lineage_alloc.
    + injection H as <- <-. now apply lineage_keep.
  - (* MDebug *)
    destruct om as [m1|].
    + destruct (debug_range E P _ 10); [|discriminate]. now apply Hin in H as (H1 & _).
    + destruct (debug_range E P _ 10); [|discriminate]. injection H as <- <-. exact Ho.
  - (* MUser *)
    destruct (HE h st Hh Hf Ho) as (_ & _ & _ & Hu). eapply Hu; eauto.
Qed.

Lemma exec_lineal E P : tame E -> filial E -> forall n, lineal (exec n E P).
Proof.
  intros HT HE. induction n as [|n IH]; [intros h m c s st r st' _ _ _ H; discriminate|].
  cbn [exec]. apply step_lineal; auto. intros h. now apply exec_sound.
Qed.
Lemma runs_lineage E P m c s st r st' : tame E -> filial E ->
  Runs E P m c s st r st' -> lineage (heap_size st) st'.
Proof. intros HT HE [n H]. eapply exec_lineal; eauto using forest_top, lineage_top. Qed.

Lemma lineage_ancestors h st : lineage h st -> forall a, (h <= a < heap_size st)%nat -> exists n, ancestors st a n.
Proof.
  intros Hl a. induction a as [a IH] using lt_wf_ind. intros Ha.
  destruct (tk_parent (tok st a)) as [p|] eqn:Ep; [|exists 0%nat; now constructor].
  pose proof (Hl a p Ha Ep) as Hp. destruct (IH p) as [n Hn]; [lia|lia|]. exists (S n). econstructor; eauto.
Qed.

Lemma trees_print h st a attrs : forest h st -> lineage h st -> (h <= a < heap_size st)%nat ->
  is_tree st a -> exists text, Prints attrs st a text.
Proof.
  intros Hf Hl Ha (l & Hp & _).
  destruct (tree_printed attrs st [a] l Hp) with (a := a) (d := 0%nat) as [ls Hls].
  - intros x Hx. eapply lineage_ancestors; [exact Hl|]. eapply tree_within; eauto. intros y [<-|[]]. exact Ha.
  - now left.
  - destruct (printed_show _ _ _ _ _ Hls) as (f & s & Hs). exists s, f. exact Hs.
Qed.

(* what an execution returns can be printed *)
Lemma runs_print E P m c s st r st' attrs : tame E -> tidy E -> filial E ->
  Runs E P m c s st r st' -> forall a, In a (result_tokens r) -> exists text, Prints attrs st' a text.
Proof.
  intros HT HE HF H a Ha. pose proof (runs_lineage _ _ _ _ _ _ _ _ HT HF H) as Hl.
  pose proof (runs_trees _ _ _ _ _ _ _ _ HT HE H a Ha) as Ht.
  apply runs_frame in H as (_ & H1 & H2); [|exact HT]. eapply trees_print; eauto.
Qed.

(* and so can the token of tokenize *)
Lemma tokenized_print E P c m st a st' attrs : tame E -> tidy E -> filial E ->
  Tokenizes E P c m st (TOk a) st' -> exists text, Prints attrs st' a text.
Proof.
  intros HT HE HF H. pose proof (tokenize_hoists _ _ _ _ _ _ _ HT HE H) as
    (x & st1 & l & Hr & Hx & Hl & Hn & Hh & _ & _ & l' & Hl' & Hperm).
  pose proof (runs_lineage _ _ _ _ _ _ _ _ HT HF Hr) as Hlin.
  apply runs_frame in Hr as (_ & H1 & H2); [|exact HT].
  assert (Hroot : (heap_size st <= a < heap_size st1)%nat) by (apply H2; cbn; now apply root_result).
  assert (Hsame : forall b, tk_parent (tok st' b) = tk_parent (tok st1 b)).
  { destruct Hh as (_ & _ & l1 & errs & Hp & Hne & Hr1 & Hl1 & Ho).
    intros b. destruct (Nat.eq_dec b a) as [->|Hba]; [rewrite Hr1; reflexivity|].
    destruct (in_dec Nat.eq_dec b l1) as [Hb|Hb]; [rewrite (Hl1 b Hb); reflexivity|].
    rewrite Ho; auto. }
  assert (Hanc : forall b n, ancestors st1 b n -> ancestors st' b n).
  { intros b n. induction 1 as [b Hb|b p n Hp Hb IH]; [apply an_none; now rewrite Hsame|].
    apply an_some with p; [now rewrite Hsame|exact IH]. }
  destruct (tree_printed attrs st' [a] l' Hl') with (a := a) (d := 0%nat) as [ls Hls].
  - intros y Hy. apply (Permutation_in _ (Permutation_sym Hperm)) in Hy.
    destruct (lineage_ancestors _ _ Hlin y) as [n Hny]; [|exists n; auto].
    eapply tree_within; [exact H1| |exact Hl|exact Hy]. intros z [<-|[]]. exact Hroot.
  - now left.
  - destruct (printed_show _ _ _ _ _ Hls) as (f & s & Hs). exists s, f. exact Hs.
Qed.
