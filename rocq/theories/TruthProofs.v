(* What tokens say is what is in the source (C73). *)
From Verif Require Import Utf8Proofs ContextProofs TextProofs.
From Verif Require Export PrintProofs TreeProofs.
Open Scope string_scope.
Open Scope list_scope.
Open Scope N_scope.

Lemma truth_heap P h st st' : st_heap st' = st_heap st -> truth P h st -> truth P h st'.
Proof. unfold truth, heap_size, tok. intros ->. auto. Qed.
Lemma truth_set P h st a t : (truthful P (tok st a) -> truthful P t) -> (h <= a)%nat -> truth P h st -> truth P h (set_tok st a t).
Proof.
  intros Ht Ha Hl b Hb. rewrite heap_size_set in Hb. destruct (Nat.eq_dec a b) as [<-|Hn].
  - rewrite tok_set_same by (unfold heap_size in Hb; lia). auto.
  - rewrite tok_set_other by exact Hn. auto.
Qed.
Lemma truth_alloc P h st t : truthful P t -> truth P h st -> truth P h (alloc st t).
Proof.
  intros Ht Hl b Hb. rewrite heap_size_alloc in Hb.
  destruct (Nat.eq_dec b (heap_size st)) as [->|Hn].
  - change (heap_size st) with (next_addr st). now rewrite tok_alloc_new.
  - rewrite tok_alloc_old by (unfold heap_size in *; lia). apply Hl. lia.
Qed.
Lemma truth_top P st : truth P (heap_size st) st.
Proof. intros a Ha. lia. Qed.

Lemma std_truthful P n r : truthful P (std_token P n r).
Proof. now split. Qed.
Lemma set_mr_truthful P r t : truthful P t -> truthful P (set_mr P r t).
Proof. intros H Hk. cbn in *. rewrite Hk. split; [now apply H|reflexivity]. Qed.
Lemma set_cr_truthful P r t : truthful P t -> truthful P (set_cr P r t).
Proof. intros H Hk. cbn in *. rewrite Hk. split; [reflexivity|now apply H]. Qed.
Lemma add_missing_truthful P l : forall t, truthful P t -> truthful P (add_missing_attrs l t).
Proof.
  unfold add_missing_attrs. induction l as [|kv l IH]; intros t Ht; cbn [fold_left]; [exact Ht|].
  apply IH. destruct (get_attr (fst kv) t); auto.
Qed.
Lemma set_attrs_truthful P l : forall t, truthful P t -> truthful P (set_attrs l t).
Proof.
  unfold set_attrs. induction l as [|kv l IH]; intros t Ht; cbn [fold_left]; [exact Ht|]. apply IH. auto.
Qed.
Lemma add_errors_truthful P st l : forall t, truthful P t -> truthful P (add_errors P st l t).
Proof.
  unfold add_errors. induction l as [|e l IH]; intros t Ht; cbn [fold_left]; [exact Ht|].
  apply IH. unfold widen. destruct (_ || _); [|exact Ht]. now apply set_mr_truthful.
Qed.

Definition veracious (P : parser) (rec : recT) : Prop :=
  forall h m c s st r st', (h <= heap_size st)%nat -> forest h st -> truth P h st ->
    rec m c s st = Ret r st' -> truth P h st'.

Lemma error_token_at_truth E P msg r h st x st' : truth P h st ->
  error_token_at E P msg r st = Ret x st' -> truth P h st'.
Proof.
  intros Ho H. unfold error_token_at in H. destruct (error_string E P msg r); [|discriminate].
  injection H as <- <-. apply truth_alloc; [now split|assumption].
Qed.
Lemma map_ok_truth E P f a c s h st r st' : honest E P ->
  (h <= heap_size st)%nat -> forest h st -> truth P h st -> (h <= a < heap_size st)%nat ->
  map_ok E P f a c s st = Ret r st' -> truth P h st'.
Proof.
  intros HE Hh Hf Ho Ha H. unfold modify in H.
  destruct f; cbn [map_ok] in H; unfold modify in H.
  - destruct (HE h st Hh Hf Ho) as (Hok & _). eapply Hok; eauto.
  - destruct (error_string E P _ _); [|discriminate]. injection H as <- <-. exact Ho.
  - injection H as <- <-. exact Ho.
  - eapply error_token_at_truth; eauto.
  - injection H as <- <-. exact Ho.
  - injection H as <- <-. apply truth_set; [apply add_missing_truthful|apply Ha|exact Ho].
  - injection H as <- <-. apply truth_set; [exact (fun x => x)|apply Ha|exact Ho].
  - destruct (attributes_of st a) as [l|]; [|discriminate]. injection H as <- <-.
    apply truth_set; [apply set_attrs_truthful|apply Ha|exact Ho].
  - injection H as <- <-. apply truth_set; [exact (fun x => x)|apply Ha|exact Ho].
  - destruct (attributes_of st a) as [l|]; [|discriminate].
    set (st1 := set_tok st a (set_attrs l (tok st a))) in *.
    assert (Hm : truth P h st1) by (apply truth_set; [apply set_attrs_truthful|apply Ha|exact Ho]).
    destruct (get_attr "version" (tok st1 a)) as [v|].
    + destruct (parse_usize v).
      * injection H as <- <-. exact Hm.
      * destruct (version_attr l); [|discriminate]. eapply error_token_at_truth; eauto.
    + eapply error_token_at_truth; eauto.
  - destruct (re (tk_mr (tok st a)) <? slen (p_src P)).
    + destruct (src_slice P _ _); [|discriminate]. unfold error_token in H. eapply error_token_at_truth; eauto.
    + injection H as <- <-. exact Ho.
  - destruct (find_child st (tok st a) "AdextopaScope").
    + injection H as <- <-. exact Ho.
    + destruct (find_child st (tok st a) "PatternScope").
      * injection H as <- <-. exact Ho.
      * eapply error_token_at_truth; eauto.
Qed.

Lemma map_err_truth E P f e c s h st r st' : honest E P ->
  (h <= heap_size st)%nat -> forest h st -> truth P h st ->
  map_err E P f e c s st = Ret r st' -> truth P h st'.
Proof.
  intros HE Hh Hf Ho H.
  destruct (HE h st Hh Hf Ho) as (_ & Herr & _ & _).
  destruct f, e; cbn [map_err] in H;
    try (injection H as <- <-; exact Ho);
    try (eapply Herr; now eauto).
  - destruct (error_string E P _ (c_off c)); [|discriminate]. injection H as <- <-. exact Ho.
  - unfold error_token in H. eapply error_token_at_truth; eauto.
Qed.

Lemma skip_token_truth E P start a h st x st' : truth P h st ->
  skip_token E P start a st = Ret x st' -> truth P h st'.
Proof.
  intros Ho H. unfold skip_token in H. destruct (error_tokens _ _ _) as [errs|]; [|discriminate].
  assert (Hl : truth P h (alloc st (add_errors P st errs (std_token P "Error" (mkR start (re (tk_mr (tok st a)))))))).
  { apply truth_alloc; [|exact Ho]. apply add_errors_truthful, std_truthful. }
  destruct errs.
  - destruct (isize_sub _ _ _); cbn [or_die] in H; [|discriminate]. injection H as <- <-. exact Hl.
  - injection H as <- <-. exact Hl.
Qed.
Lemma discard_truth E P start r h st r' st' : truth P h st ->
  discard_result E P start r st = Ret r' st' -> truth P h st'.
Proof.
  intros Ho H.
  assert (Hp : forall p x st1, discard_payload E P start p st = Ret x st1 -> truth P h st1).
  { intros p x st1 H1. destruct p; cbn [discard_payload] in H1; try discriminate;
      try (injection H1 as <- <-; exact Ho); (eapply skip_token_truth; [exact Ho|exact H1]). }
  destruct r as [x|e]; [|injection H as <- <-; exact Ho].
  destruct x; cbn [discard_result] in H; try (injection H as <- <-; exact Ho).
  - destruct (skip_token E P start a st) as [y st1|p|] eqn:Ey; try discriminate. injection H as <- <-.
    eapply skip_token_truth; eauto.
  - destruct (skip_token E P start a st) as [y st1|p|] eqn:Ey; try discriminate. injection H as <- <-.
    eapply skip_token_truth; eauto.
  - destruct (discard_payload E P start x st) as [y st1|p|] eqn:Ey; try discriminate. injection H as <- <-. eauto.
  - destruct (discard_payload E P start x st) as [y st1|p|] eqn:Ey; try discriminate. injection H as <- <-. eauto.
Qed.

Section ProgramTexts.
  Variables (E : env) (P : parser) (rec : recT) (h : nat) (pt : addr) (st_s : state).
  Hypothesis Hsound : forall h, sound h rec.
  Hypothesis Hrec : veracious P rec.
  Hypothesis Hpt : heap_size st_s = pt.
  Hypothesis Hh : (h <= pt)%nat.
  Hypothesis Hs : forest h st_s.

  Definition told (st : state) (ps : pst) : Prop := stage pt st_s st ps /\ truth P h st.

  Lemma add_token_told a fwd u ps st ps' st' : told st ps -> (S pt <= a < heap_size st)%nat ->
    add_token P pt a fwd u ps st = Ret ps' st' -> told st' ps' /\ heap_size st' = heap_size st.
  Proof.
    intros [Hst Hl] Ha H. pose proof H as H'. apply (add_token_stage P h pt st_s Hpt Hh) in H' as [Hst' Hsz]; auto.
    split; [|exact Hsz]. split; [exact Hst'|]. unfold add_token in H.
    destruct (_ && _ && _ && _); [discriminate|]. injection H as <- <-.
    apply truth_set; [|lia|exact Hl]. intros Ht.
    enough (truthful P (if is_error (tok st a) && (rs (tk_mr (tok st a)) =? re (tk_mr (tok st a)))
      then set_mr P (mkR (rs (ps_mr ps)) (re (tk_mr (tok st a)))) (set_cr P (mkR (rs (ps_mr ps)) (re (tk_mr (tok st a)))) (tok st a))
      else tok st a)) as Hx by exact Hx.
    destruct (_ && _); [|exact Ht]. now apply set_mr_truthful, set_cr_truthful.
  Qed.
  Lemma extract_told self u l : forall ps st ps' st', told st ps ->
    (forall a, In a l -> (S pt <= a < heap_size st)%nat) ->
    extract_children P pt self u l ps st = Ret ps' st' -> told st' ps'.
  Proof.
    induction l as [|k l IH]; intros ps st ps' st' Hst Hl H; cbn [extract_children] in H.
    - injection H as <- <-. exact Hst.
    - destruct (should_discard (tok st k)).
      + eapply IH; [exact Hst| |exact H]. intros; apply Hl; now right.
      + destruct (Nat.eqb k self); [discriminate|].
        destruct (add_token P pt k false u ps st) as [ps1 st1|p|] eqn:Ea; try discriminate.
        destruct (add_token_told _ _ _ _ _ _ _ Hst (Hl k (or_introl eq_refl)) Ea) as [Hst1 Hsz].
        eapply IH; [exact Hst1| |exact H]. intros a Ha. rewrite Hsz. apply Hl. now right.
  Qed.
  Lemma handle_extract_told a u ps st ps' st' : told st ps -> (S pt <= a < heap_size st)%nat ->
    handle_extract P pt a u ps st = Ret ps' st' -> told st' ps'.
  Proof.
    intros [Hst Hl] Ha H. unfold handle_extract in H. eapply extract_told; [| |exact H].
    - split; [|exact Hl]. eapply stage_kids; [exact Hst|]. destruct (_ && _); apply Hst.
    - intros k Hk. eapply (forest_closed (S pt) st); [apply Hst|exact Ha|exact Hk].
  Qed.
  Lemma handle_skip_told start z ps st ps' st' : told st ps ->
    handle_skip E start z ps st = Ret ps' st' -> told st' ps'.
  Proof.
    intros [Hst Hl] H. pose proof H as H'. apply (handle_skip_stage E pt st_s) in H'; [|exact Hst].
    unfold handle_skip in H. destruct (or_die _ _); [|discriminate]. injection H as <- <-. split; assumption.
  Qed.
  Lemma handle_payload_told start p ps st ps' st' : told st ps ->
    (forall a, In a (success_tokens p) -> (S pt <= a < heap_size st)%nat) ->
    handle_payload E P pt start p ps st = Ret ps' st' -> told st' ps'.
  Proof.
    intros Hst Hp H. destruct p; cbn [handle_payload] in H; try (injection H as <- <-; exact Hst).
    - unfold handle_token in H. eapply add_token_told; [exact Hst| |exact H]. apply Hp. now left.
    - eapply handle_extract_told; [exact Hst| |exact H]. apply Hp. now left.
    - eapply handle_skip_told; eauto.
  Qed.
  Lemma finalize_truth i ps count strict st r st' : truth P h st ->
    finalize P i pt ps count strict st = Ret r st' -> truth P h st'.
  Proof.
    intros Hl H.
    assert (Hc : (if (rs (ps_cr ps) =? usize_max) || (rs (ps_mr ps) =? usize_max) then Ret (Err FFail) st
      else match ps_kids ps with
           | [] => Ret (Err FFail) st
           | _ => Ret (Ok (SToken pt))
                    (modify st pt (fun t => set_mr P (ps_mr ps) (set_cr P (ps_cr ps) (set_kids (ps_kids ps) t))))
           end) = Ret r st' -> truth P h st').
    { clear H. intros H. destruct (_ || _); [injection H as <- <-; exact Hl|].
      destruct (ps_kids ps) as [|k ks] eqn:Ek; injection H as <- <-; [exact Hl|].
      unfold modify. apply truth_set; [|exact Hh|exact Hl]. intros Ht.
      apply set_mr_truthful, set_cr_truthful. exact Ht. }
    unfold finalize in H. destruct strict; [|now apply Hc].
    destruct (pi_iter i) as [[lo hi]|]; [|now apply Hc].
    destruct (_ && _ && _); [injection H as <- <-; exact Hl|].
    destruct (count <? lo); [injection H as <- <-; exact Hl|]. now apply Hc.
  Qed.

  Lemma rec_told m c s ps st r st1 : told st ps -> rec m c s st = Ret r st1 ->
    told st1 ps /\ forall a, In a (result_tokens r) -> (S pt <= a < heap_size st1)%nat.
  Proof.
    intros [Hst Hl] Er. pose proof Er as Er2. pose proof Hst as (S1 & S2 & _).
    apply (Hsound (S pt)) in Er2 as (P1 & P2 & P3); [|lia|exact S2].
    split; [|exact P3]. split; [eapply stage_below; eauto|].
    eapply Hrec; [| | |exact Er].
    - lia.
    - exact (stage_forest h pt st_s Hpt Hh Hs st ps Hst).
    - exact Hl.
  Qed.

  Definition pass_told (k : ctl) (ps : pst) (st : state) : Prop :=
    match k with
    | CDone => told st ps
    | CAct x => told st ps /\ forall a, In a (success_tokens x) -> (S pt <= a < heap_size st)%nat
    | CRet r => truth P h st
    end.

  Lemma run_patterns_told i c s start count pats : forall ps st k ps' st', told st ps ->
    run_patterns E P rec i c s pt start count pats ps st = Ret (k, ps') st' -> pass_told k ps' st'.
  Proof.
    induction pats as [|m pats IH]; intros ps st k ps' st' Hst H; cbn [run_patterns] in H.
    - injection H as <- <- <-. exact Hst.
    - destruct (rec m _ s st) as [r st1|p|] eqn:Er; try discriminate.
      apply (rec_told _ _ _ _ _ _ _ Hst) in Er. clear Hst st. destruct Er as [Hst1 Hr].
      pose proof (proj2 Hst1) as Hret.
      destruct r as [[a|a|z|nm p|nm p| |]|e]; cbn [result_tokens success_tokens] in Hr.
      + destruct (should_discard (tok st1 a)); [eapply IH; [|exact H]; assumption|].
        destruct (pi_stop i); [injection H as <- <- <-; exact Hret|].
        unfold handle_token in H.
        destruct (add_token P pt a _ _ ps st1) as [ps2 st2|p|] eqn:Ea; try discriminate.
        apply (add_token_told _ _ _ _ _ _ _ Hst1 (Hr a (or_introl eq_refl))) in Ea as [Ea _]. eapply IH; [exact Ea|exact H].
      + destruct (should_discard (tok st1 a)); [eapply IH; [|exact H]; assumption|].
        destruct (pi_stop i); [injection H as <- <- <-; exact Hret|].
        destruct (handle_extract P pt a _ ps st1) as [ps2 st2|p|] eqn:Ea; try discriminate.
        apply (handle_extract_told _ _ _ _ _ _ Hst1 (Hr a (or_introl eq_refl))) in Ea. eapply IH; [exact Ea|exact H].
      + destruct (_ && _); [injection H as <- <- <-; exact Hret|].
        destruct (m_consuming m); [|eapply IH; [|exact H]; assumption].
        destruct (handle_skip E start z ps st1) as [ps2 st2|p|] eqn:Ea; try discriminate.
        apply (handle_skip_told _ _ _ _ _ _ Hst1) in Ea. eapply IH; [exact Ea|exact H].
      + injection H as <- <- <-. split; assumption.
      + injection H as <- <- <-. split; assumption.
      + injection H as <- <- <-. split; assumption.
      + injection H as <- <- <-. split; assumption.
      + destruct (dbg E P _ 10); [|discriminate]. destruct e.
        * destruct (pi_stop i); [eapply IH; [|exact H]; assumption|]. destruct (pi_iter i).
          -- destruct (finalize P i pt ps count false st1) as [x st2|p0|] eqn:Ef; try discriminate.
             injection H as <- <- <-. cbn. eapply finalize_truth; [exact Hret|eauto].
          -- injection H as <- <- <-. exact Hret.
        * injection H as <- <- <-. exact Hret.
  Qed.

  Lemma iterate_truth pats i c s start : forall f left count ps st r st', told st ps ->
    iterate f E P rec pats i c s pt start left count ps st = Ret r st' -> truth P h st'.
  Proof.
    induction f as [|f IH]; intros left count ps st r st' Hst H; cbn [iterate] in H.
    - destruct (left =? 0); [|discriminate]. eapply finalize_truth; [apply Hst|eauto].
    - destruct (left =? 0); [eapply finalize_truth; [apply Hst|eauto]|].
      destruct (run_patterns _ _ _ _ _ _ _ _ _ _ _ _) as [[k ps1] st1|p|] eqn:Er; try discriminate.
      apply run_patterns_told in Er; [|exact Hst]. destruct k as [|x|r0]; cbn [pass_told] in Er.
      + eapply IH; [|exact H]; assumption.
      + destruct Er as [Er Hx]. pose proof (proj2 Er) as Hret.
        destruct x as [a|a|z|nm p|nm p| |]; try discriminate; cbn [success_tokens] in Hx.
        * destruct (pi_stop i); [injection H as <- <-; exact Hret|].
          destruct (handle_payload E P pt start p ps1 st1) as [ps2 st2|q|] eqn:Eh; try discriminate.
          apply handle_payload_told in Eh; [|exact Er|exact Hx].
          destruct (finalize P i pt ps2 count false st2) as [y st3|q|] eqn:Ef; try discriminate.
          eapply finalize_truth in Ef; [|apply Eh].
          destruct (is_target i nm); [injection H as <- <-; exact Ef|].
          destruct y; injection H as <- <-; exact Ef.
        * destruct (pi_stop i); [injection H as <- <-; exact Hret|].
          destruct (handle_payload E P pt start p ps1 st1) as [ps2 st2|q|] eqn:Eh; try discriminate.
          apply handle_payload_told in Eh; [|exact Er|exact Hx].
          destruct (is_target i nm); [eapply IH; [|exact H]; assumption|]. eapply finalize_truth; [apply Eh|eauto].
        * eapply finalize_truth; [apply Er|eauto].
      + injection H as <- <-. exact Er.
  Qed.
End ProgramTexts.

(* ---------- all matchers ---------- *)

Lemma step_veracious E P rec fuel : tame E -> honest E P -> (forall h, sound h rec) -> veracious P rec -> veracious P (step fuel E P rec).
Proof.
  intros HT HE Hsound Hrec h m c s st0 r st' Hh0 Hf0 Ho0 H.
  unfold step in H.
  assert (Hh : (h <= heap_size (before_exec m s st0))%nat) by (now rewrite before_size).
  assert (Hf : forest h (before_exec m s st0)) by (eapply forest_heap; [apply before_heap|exact Hf0]).
  assert (Ho : truth P h (before_exec m s st0)) by (eapply truth_heap; [apply before_heap|exact Ho0]).
  set (st := before_exec m s st0) in *. clearbody st. clear Hh0 Hf0 Ho0 st0.
  assert (Hin : forall m1 c1 s1 r0 st1, rec m1 c1 s1 st = Ret r0 st1 ->
     truth P h st1 /\ (h <= heap_size st1)%nat /\ forest h st1 /\
     (forall a, In a (result_tokens r0) -> (h <= a < heap_size st1)%nat)).
  { intros m1 c1 s1 r0 st1 E1. split; [eapply Hrec; eauto|]. apply (Hsound h) in E1; auto.
    split; [eapply stays_size; eauto|]. split; apply E1. }
  destruct m as [pats i|p name cust|f name cust|fs fe fx name cust|m1|m1|m1| |msg|msg|nm|m1 k|m1 f
                |om off name cust|p name cust|name|ms|t name cust|o m1|m1 name cust|m1|om d|k name cust cons];
    cbn [m_name m_custom] in H.
  - (* MProgram *)
    unfold exec_program in H.
    set (pt := next_addr st) in *. set (t0 := std_token P (pi_name i) blank_range) in *.
    assert (Hpt : heap_size st = pt) by reflexivity.
    eapply (iterate_truth E P rec h pt st Hsound Hrec Hpt); [lia|exact Hf| |exact H].
    split; [|apply truth_alloc; [now split|assumption]].
    assert (Hno : forall a, ~ (S pt <= a < heap_size (alloc st t0))%nat).
    { intros a Ha. rewrite heap_size_alloc in Ha. lia. }
    split; [rewrite heap_size_alloc; lia|]. split.
    + intros a Ha. exfalso. eapply Hno; eauto.
    + split; [intros a Ha; apply tok_alloc_old; unfold heap_size in *; lia|].
      split; [unfold pt; now rewrite tok_alloc_new|intros ? []].
  - (* MEquals *)
    destruct (fetch_value st s p) as [[v|m1]|]; [| |discriminate].
    + destruct (matches_str P _ v) as [r0|]; [|discriminate].
      destruct (dbg E P _ 10); [|discriminate].
      destruct r0; injection H as <- <-; [|exact Ho]. apply truth_alloc; [now split|assumption].
    + injection H as <- <-. exact Ho.
  - (* MMatches *)
    destruct (matches_regexp P _ f) as [r0|]; [|discriminate]. destruct r0 as [r0|].
    + destruct (rs r0 =? re r0).
      * destruct (dbg E P _ 10); [|discriminate]. injection H as <- <-. exact Ho.
      * injection H as <- <-. apply truth_alloc; [now split|assumption].
    + destruct (dbg E P _ 10); [|discriminate]. injection H as <- <-. exact Ho.
  - (* MSequence *)
    unfold exec_sequence in H.
    repeat match type of H with
    | (let! _ := ?x in _) = _ => destruct x; [|discriminate]
    | (match ?x with _ => _ end) = _ => destruct x
    end; try discriminate;
      try (injection H as <- <-; exact Ho);
      try (injection H as <- <-; apply truth_alloc; [now split|assumption]).
  - (* MNot *)
    destruct (rec m1 _ s st) as [r0 st1|p|] eqn:E1; try discriminate. apply Hin in E1 as (H1 & H2 & H3 & H4).
    destruct r0 as [[a|a|z|b q|b q| |]|[|e]]; try (injection H as <- <-; exact H1).
    destruct (z =? 0)%Z; injection H as <- <-; exact H1.
  - (* MOptional *)
    destruct (rec m1 _ s st) as [r0 st1|p|] eqn:E1; try discriminate. apply Hin in E1 as (H1 & H2 & H3 & H4).
    destruct r0 as [x|[|e]]; injection H as <- <-; exact H1.
  - (* MDiscard *)
    destruct (rec m1 _ s st) as [r0 st1|p|] eqn:E1; try discriminate. apply Hin in E1 as (H1 & H2 & H3 & H4).
    exact (discard_truth _ _ _ _ h _ _ _ H1 H).
  - injection H as <- <-. exact Ho.
  - (* MPanic *)
    destruct (error_string E P msg _); [|discriminate]. injection H as <- <-. exact Ho.
  - unfold error_token in H. eapply error_token_at_truth; eauto.
  - injection H as <- <-. exact Ho.
  - (* MCatch *)
    destruct (rec m1 _ s st) as [r0 st1|p|] eqn:E1; try discriminate. apply Hin in E1 as (H1 & H2 & H3 & H4).
    destruct r0 as [x|e]; [injection H as <- <-; exact H1|].
    destruct (HE h st1 H2 H3 H1) as (_ & _ & Hc & _). eapply Hc; eauto.
  - (* MMap *)
    destruct (rec m1 _ s st) as [r0 st1|p|] eqn:E1; try discriminate. apply Hin in E1 as (H1 & H2 & H3 & H4).
    destruct r0 as [[a|a|z|b q|b q| |]|e]; try (injection H as <- <-; exact H1).
    + exact (map_ok_truth _ _ _ _ _ _ h _ _ _ HE H2 H3 H1 (H4 a (or_introl eq_refl)) H).
    + exact (map_ok_truth _ _ _ _ _ _ h _ _ _ HE H2 H3 H1 (H4 a (or_introl eq_refl)) H).
    + exact (map_err_truth _ _ _ _ _ _ h _ _ _ HE H2 H3 H1 H).
  - (* MPin *)
    destruct (fetch_value st s off) as [[v|m2]|]; [| |discriminate].
    + destruct (pin_context E _ v); [|discriminate]. destruct om as [m1|].
      * now apply Hin in H as (H1 & _).
      * injection H as <- <-. apply truth_alloc; [now split|assumption].
    + injection H as <- <-. exact Ho.
  - (* MStore *)
    destruct p as [m1|v].
    + destruct (rec m1 _ s st) as [r0 st1|p|] eqn:E1; try discriminate. apply Hin in E1 as (H1 & H2 & H3 & H4).
      destruct r0 as [[a|a|z|b q|b q| |]|e]; injection H as <- <-; (exact H1 || (eapply truth_heap; [|exact H1]; reflexivity)).
    + injection H as <- <-. eapply truth_heap; [|exact Ho]. reflexivity.
  - injection H as <- <-. exact Ho.
  - (* MRegister *)
    injection H as <- <-. eapply truth_heap; [|exact Ho].
    clear. revert st. induction ms as [|m ms IH]; intros st; cbn [fold_left]; [reflexivity|]. now rewrite IH.
  - (* MRef *)
    destruct (fetch_value st s t) as [[v|m1]|]; [| |discriminate].
    + destruct (sc_get st s v) as [[ | | ]|]; try (injection H as <- <-; exact Ho).
      now apply Hin in H as (H1 & _).
    + now apply Hin in H as (H1 & _).
  - (* MSetScope *)
    destruct o as [s1|].
    + now apply Hin in H as (H1 & _).
    + destruct (rec m1 _ (c_scope c) (sc_push st (c_scope c))) as [r0 st1|p|] eqn:E1; try discriminate.
      injection H as <- <-. apply (Hrec h) in E1; [|exact Hh|eapply forest_heap; [|exact Hf]; reflexivity|eapply truth_heap; [|exact Ho]; reflexivity].
      eapply truth_heap; [|exact E1]. reflexivity.
  - (* MProxy *)
    destruct (rec m1 _ s st) as [r0 st1|p|] eqn:E1; try discriminate. apply Hin in E1 as (H1 & H2 & H3 & H4).
    destruct r0 as [[a|a|z|b q|b q| |]|e]; try (injection H as <- <-; exact H1);
      destruct q; injection H as <- <-; exact H1.
  - (* MExpand *)
    destruct (rec m1 _ s st) as [r0 st1|p|] eqn:E1; try discriminate. apply Hin in E1 as (H1 & H2 & H3 & H4).
    destruct r0 as [[a|a|z|b q|b q| |]|e]; try (injection H as <- <-; exact H1).
    + injection H as <- <-. apply truth_alloc; [now split|assumption].
    + injection H as <- <-. unfold modify. apply truth_set; [apply set_cr_truthful|apply (H4 a (or_introl eq_refl))|exact H1].
  - (* MDebug *)
    destruct om as [m1|].
    + destruct (debug_range E P _ 10); [|discriminate]. now apply Hin in H as (H1 & _).
    + destruct (debug_range E P _ 10); [|discriminate]. injection H as <- <-. exact Ho.
  - (* MUser *)
    destruct (HE h st Hh Hf Ho) as (_ & _ & _ & Hu). eapply Hu; eauto.
Qed.

Lemma exec_veracious E P : tame E -> honest E P -> forall n, veracious P (exec n E P).
Proof.
  intros HT HE. induction n as [|n IH]; [intros h m c s st r st' _ _ _ H; discriminate|].
  cbn [exec]. apply step_veracious; auto. intros h. now apply exec_sound.
Qed.
Lemma runs_truth E P m c s st r st' : tame E -> honest E P ->
  Runs E P m c s st r st' -> truth P (heap_size st) st'.
Proof. intros HT HE [n H]. eapply exec_veracious; eauto using forest_top, (truth_top P). Qed.

(* every token of the result, and every token below it *)
Lemma runs_truthful E P m c s st r st' : tame E -> honest E P -> Runs E P m c s st r st' ->
  forall a l x, In a (result_tokens r) -> preorder st' [a] l -> In x l -> truthful P (tok st' x).
Proof.
  intros HT HE H a l x Ha Hl Hx. pose proof (runs_truth _ _ _ _ _ _ _ _ HT HE H) as Ht.
  apply runs_frame in H as (_ & H1 & H2); [|exact HT]. apply Ht.
  eapply tree_within; [exact H1| |exact Hl|exact Hx]. intros b [<-|[]]. auto.
Qed.

Lemma truthful_window P t : ascii_only (p_src P) -> truthful P t -> tk_kind t = KStandard ->
  rs (tk_mr t) <= rs (tk_cr t) -> rs (tk_cr t) <= re (tk_cr t) -> re (tk_cr t) <= re (tk_mr t) ->
  re (tk_mr t) <= slen (p_src P) ->
  window (p_src P) (rs (tk_cr t)) (re (tk_cr t)) (tk_cvalue t) /\
  window (p_src P) (rs (tk_mr t)) (re (tk_mr t)) (tk_mvalue t).
Proof.
  intros Ha Ht Hk H1 H2 H3 H4. destruct (Ht Hk) as [-> ->]. split.
  - destruct (window_exists (p_src P) (rs (tk_cr t)) (re (tk_cr t))) as [w Hw]; [lia|lia|].
    rewrite (range_text_ascii P _ w Ha Hw). exact Hw.
  - destruct (window_exists (p_src P) (rs (tk_mr t)) (re (tk_mr t))) as [w Hw]; [lia|lia|].
    rewrite (range_text_ascii P _ w Ha Hw). exact Hw.
Qed.

Section Whole.
  Variables (E : env) (P : parser) (m : matcher) (c : ctx) (st : state).
  Hypothesis HT : tame E.
  Hypothesis HE : honest E P.
  Hypothesis Hfit : fitting (p_src P) (fun _ => True) (fun _ => True) sane_find E.
  Hypothesis Hsmall : slen (p_src P) < isize_bound.
  Hypothesis Hm : bounded (fun _ => True) sane_find m.
  Hypothesis Hs : scopes_bounded (fun _ => True) sane_find st.
  Hypothesis Hc : rs (c_off c) <= re (c_off c) <= slen (p_src P).
  Hypothesis Hascii : ascii_only (p_src P).

  Lemma runs_texts s r st' : Runs E P m c s st r st' ->
    forall a l x, In a (result_tokens r) -> preorder st' [a] l -> In x l -> tk_kind (tok st' x) = KStandard ->
    window (p_src P) (rs (tk_cr (tok st' x))) (re (tk_cr (tok st' x))) (tk_cvalue (tok st' x)) /\
    window (p_src P) (rs (tk_mr (tok st' x))) (re (tk_mr (tok st' x))) (tk_mvalue (tok st' x)).
  Proof.
    intros H a l x Ha Hl Hx Hk. pose proof (runs_truthful _ _ _ _ _ _ _ _ HT HE H a l x Ha Hl Hx) as Ht.
    destruct (ranges_any _ _ _ _ _ _ _ _ HT Hfit Hsmall Hm Hs Hc H a Ha) as (l' & Hl' & Hr).
    rewrite (preorder_det _ _ _ Hl _ Hl') in Hx. apply Hr in Hx. apply truthful_window; auto; lia.
  Qed.

  Lemma tokenized_texts a st' : tidy E -> Tokenizes E P c m st (TOk a) st' ->
    forall l x, preorder st' [a] l -> In x l -> tk_kind (tok st' x) = KStandard ->
    window (p_src P) (rs (tk_cr (tok st' x))) (re (tk_cr (tok st' x))) (tk_cvalue (tok st' x)) /\
    window (p_src P) (rs (tk_mr (tok st' x))) (re (tk_mr (tok st' x))) (tk_mvalue (tok st' x)).
  Proof.
    intros Ht H l x Hl Hx. destruct (tokenize_hoists _ _ _ _ _ _ _ HT Ht H) as
      (y & st1 & l1 & Hr & Hy & Hl1 & Hn & Hh & _ & _ & l' & Hl' & Hperm).
    rewrite (preorder_det _ _ _ Hl _ Hl') in Hx. apply (Permutation_in _ (Permutation_sym Hperm)) in Hx.
    pose proof (runs_texts _ _ _ Hr a l1 x (root_result y a Hy) Hl1 Hx) as Hw.
    enough (exists k, tok st' x = set_kids k (tok st1 x)) as [k ->] by exact Hw.
    destruct Hh as (_ & _ & l2 & errs & Hp & Hne & Hr1 & Hl2 & Ho).
    destruct (Nat.eq_dec x a) as [->|Hxa]; [eauto|].
    destruct (in_dec Nat.eq_dec x l2) as [Hb|Hb]; [rewrite (Hl2 x Hb); eauto|].
    exists (tk_kids (tok st1 x)). rewrite Ho by auto. now destruct (tok st1 x).
  Qed.
End Whole.
