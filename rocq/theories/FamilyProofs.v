(* Children know their parent (C18) and lie within it (C17). *)
From Verif Require Export FrameProofs.
Open Scope string_scope.
Open Scope list_scope.
Open Scope N_scope.

Lemma covers_contain_l big r x : covers big x -> covers (contain big r) x.
Proof.
  unfold covers, contain. cbn [rs re]. intros [H1 H2].
  destruct (N.ltb_spec (rs r) (rs big)), (N.ltb_spec (re big) (re r)); lia.
Qed.
Lemma covers_contain_r big r : covers (contain big r) r.
Proof.
  unfold covers, contain. cbn [rs re].
  destruct (N.ltb_spec (rs r) (rs big)), (N.ltb_spec (re big) (re r)); lia.
Qed.

Section Family.
  Variables (E : env) (P : parser) (rec : recT) (h : nat) (pt : addr) (st_s : state) (i : pinfo) (inside : Prop).
  Hypothesis Hrec : forall h, sound h rec.
  Hypothesis Hpt : heap_size st_s = pt.
  Hypothesis Hh : (h <= pt)%nat.
  Hypothesis Hs : forest h st_s.
  Hypothesis Hstop : pi_stop i = false.

  Definition kin (st : state) (ps : pst) : Prop :=
    stage pt st_s st ps /\
    forall k, In k (ps_kids ps) ->
      tk_parent (tok st k) = Some pt /\
      (inside -> tk_kind (tok st k) = KStandard ->
       covers (ps_cr ps) (tk_cr (tok st k)) /\ covers (ps_mr ps) (tk_mr (tok st k))).

  Lemma kin_exec m c s st ps r st1 : kin st ps -> rec m c s st = Ret r st1 ->
    kin st1 ps /\ forall a, In a (result_tokens r) -> (S pt <= a < heap_size st1)%nat.
  Proof.
    intros [Hst Hk] Er. pose proof Er as Er'.
    apply (Hrec (heap_size st)) in Er; [|lia|apply forest_top].
    apply (Hrec (S pt)) in Er'; [|exact (proj1 Hst)|exact (proj1 (proj2 Hst))].
    destruct Er' as (Hp' & Hf' & Hr'). split; [|exact Hr'].
    split; [apply (stage_below h pt st_s Hpt Hh st); assumption|].
    destruct Er as ((_ & Hp) & _). destruct Hst as (_ & _ & _ & _ & H5).
    intros k Hin. rewrite Hp by (apply H5; exact Hin). auto.
  Qed.

  Lemma kin_add a fwd u ps st ps' st' : kin st ps -> (S pt <= a < heap_size st)%nat ->
    (inside -> u = true \/ tk_kind (tok st a) = KPin) ->
    add_token P pt a fwd u ps st = Ret ps' st' -> kin st' ps' /\ heap_size st' = heap_size st /\
      forall x, tk_kind (tok st' x) = tk_kind (tok st x).
  Proof.
    intros [Hst Hk] Ha Hu H. pose proof H as H'. apply (add_token_stage P h pt st_s Hpt Hh) in H' as [Hst' Hsz];
      [|assumption..].
    unfold add_token in H. destruct (_ && _ && _ && _); [discriminate|]. injection H as Eps Est.
    set (t1 := if is_error (tok st a) && (rs (tk_mr (tok st a)) =? re (tk_mr (tok st a)))
              then let n := mkR (rs (ps_mr ps)) (re (tk_mr (tok st a))) in set_mr P n (set_cr P n (tok st a))
              else tok st a) in *.
    assert (Hkind : tk_kind t1 = tk_kind (tok st a)) by (unfold t1; destruct (_ && _); reflexivity).
    split; [|split; [exact Hsz|]].
    2:{ rewrite <- Est. intros x. now apply kind_set. }
    split; [exact Hst'|]. intros k Hin.
    destruct (Nat.eq_dec a k) as [<-|Hn].
    - rewrite <- Est. rewrite tok_set_same by (unfold heap_size in *; lia).
      cbn [tk_parent set_parent tk_kind tk_cr tk_mr]. split; [reflexivity|].
      intros Hi Hkk. rewrite Hkind in Hkk. destruct (Hu Hi) as [->|Hp]; [|congruence].
      rewrite <- Eps. cbn [ps_cr ps_mr]. split; apply covers_contain_r.
    - rewrite <- Est. rewrite tok_set_other by exact Hn. rewrite <- Eps in Hin. cbn [ps_kids] in Hin.
      apply in_app_or in Hin as [Hin|[->|[]]]; [|congruence].
      destruct (Hk k Hin) as [H1 H2]. split; [exact H1|]. intros Hi Hkk. destruct (H2 Hi Hkk) as [H3 H4].
      rewrite <- Eps. cbn [ps_cr ps_mr]. destruct u; [|auto]. split; now apply covers_contain_l.
  Qed.

  Lemma kin_extract self u l : (inside -> u = true \/ l = []) -> forall ps st ps' st', kin st ps ->
    (forall a, In a l -> (S pt <= a < heap_size st)%nat) ->
    extract_children P pt self u l ps st = Ret ps' st' -> kin st' ps'.
  Proof.
    intros Hu. induction l as [|k l IH]; intros ps st ps' st' Hk Hl H; cbn [extract_children] in H.
    - injection H as <- <-. exact Hk.
    - assert (Hu' : inside -> u = true) by (intros Hi; destruct (Hu Hi); [assumption|discriminate]).
      specialize (IH (fun Hi => or_introl (Hu' Hi))).
      destruct (should_discard (tok st k)).
      + eapply IH; [exact Hk| |exact H]. intros; apply Hl; now right.
      + destruct (Nat.eqb k self); [discriminate|].
        destruct (add_token P pt k false u ps st) as [ps1 st1|p|] eqn:Ea; try discriminate.
        apply kin_add in Ea as (Hk1 & Hsz & _); [|exact Hk|apply Hl; now left|auto].
        eapply IH; [exact Hk1| |exact H]. intros a Ha. rewrite Hsz. apply Hl. now right.
  Qed.

  Lemma kin_proxy a u ps st ps' st' : kin st ps -> (S pt <= a < heap_size st)%nat ->
    (inside -> u = true) -> handle_extract P pt a u ps st = Ret ps' st' -> kin st' ps'.
  Proof.
    intros Hk Ha Hu H. unfold handle_extract in H. destruct Hk as [Hst Hk].
    eapply kin_extract; [| | |exact H].
    - intros Hi. rewrite (Hu Hi). destruct (should_discard (tok st a)) eqn:Ed; [right|now left].
      apply (forest_pin (S pt)); [apply Hst|exact Ha|now apply pin_iff].
    - split.
      + eapply stage_kids; [exact Hst|]. destruct (_ && _); apply Hst.
      + destruct (_ && _); [|exact Hk]. intros k Hin. destruct (Hk k Hin) as [H1 H2]. split; [exact H1|].
        intros Hi Hkk. destruct (H2 Hi Hkk). split; now apply covers_contain_l.
    - intros k Hin. eapply (forest_closed (S pt) st); [apply Hst|exact Ha|exact Hin].
  Qed.

  Lemma kin_skip start z ps st ps' st' : kin st ps ->
    handle_skip E start z ps st = Ret ps' st' -> kin st' ps'.
  Proof.
    intros [Hst Hk] H. unfold handle_skip in H. destruct (or_die _ _); [|discriminate].
    injection H as <- <-. split; [eapply stage_kids; [exact Hst|apply Hst]|].
    intros k Hin. destruct (Hk k Hin) as [H1 H2]. split; [exact H1|].
    intros Hi Hkk. destruct (H2 Hi Hkk) as [H3 H4]. split; [exact H3|]. now apply covers_contain_l.
  Qed.

  Lemma kin_payload start p ps st ps' st' : kin st ps ->
    (forall a, In a (success_tokens p) -> (S pt <= a < heap_size st)%nat) ->
    handle_payload E P pt start p ps st = Ret ps' st' -> kin st' ps'.
  Proof.
    intros Hk Hp H. destruct p; cbn [handle_payload] in H; try (injection H as <- <-; exact Hk).
    - unfold handle_token in H. apply kin_add in H; [apply H|exact Hk|apply Hp; now left|].
      intros _. destruct (should_discard (tok st a)) eqn:Ed; [right; now apply pin_iff|now left].
    - eapply kin_proxy; [exact Hk|apply Hp; now left|reflexivity|exact H].
    - eapply kin_skip; eauto.
  Qed.

  (* a result that holds the finished token, if any *)
  Definition grown (r : mres) (st : state) : Prop :=
    forall a, In a (result_tokens r) -> a = pt /\ family inside st pt.

  Lemma finalize_grown ps count strict st r st' : kin st ps ->
    finalize P i pt ps count strict st = Ret r st' -> grown r st'.
  Proof.
    intros [Hst Hk] H.
    assert (Hq : forall r, result_tokens r = [] -> grown r st) by (intros r0 Hr a Ha; rewrite Hr in Ha; destruct Ha).
    assert (Hc : (if (rs (ps_cr ps) =? usize_max) || (rs (ps_mr ps) =? usize_max) then Ret (Err FFail) st
      else match ps_kids ps with
           | [] => Ret (Err FFail) st
           | _ => Ret (Ok (SToken pt))
                    (modify st pt (fun t => set_mr P (ps_mr ps) (set_cr P (ps_cr ps) (set_kids (ps_kids ps) t))))
           end) = Ret r st' -> grown r st').
    { clear H. intros H. destruct (_ || _); [injection H as <- <-; now apply Hq|].
      destruct (ps_kids ps) as [|k0 ks] eqn:Ek; injection H as <- <-; [now apply Hq|]. rewrite <- Ek in *.
      intros a [<-|[]]. split; [reflexivity|]. unfold modify.
      assert (Hlt : (pt < List.length (st_heap st))%nat) by (destruct Hst as (H1 & _); unfold heap_size in *; lia).
      intros k Hin. rewrite tok_set_same in * by exact Hlt.
      cbn [tk_kids tk_cr tk_mr set_mr set_cr set_kids] in *.
      assert (Hne : pt <> k) by (destruct Hst as (_ & _ & _ & _ & H5); specialize (H5 k Hin); lia).
      rewrite tok_set_other by exact Hne. now apply Hk. }
    unfold finalize in H. destruct strict; [|now apply Hc].
    destruct (pi_iter i) as [[lo hi]|]; [|now apply Hc].
    destruct (_ && _ && _); [injection H as <- <-; now apply Hq|].
    destruct (count <? lo); [injection H as <- <-; now apply Hq|]. now apply Hc.
  Qed.

  Definition pass_kin (k : ctl) (ps : pst) (st : state) : Prop :=
    match k with
    | CDone => kin st ps
    | CAct x => kin st ps /\ forall a, In a (success_tokens x) -> (S pt <= a < heap_size st)%nat
    | CRet r => grown r st
    end.

  Lemma run_patterns_kin c s start count pats : (inside -> forall m, In m pats -> m_consuming m = true) ->
    forall ps st k ps' st', kin st ps ->
    run_patterns E P rec i c s pt start count pats ps st = Ret (k, ps') st' -> pass_kin k ps' st'.
  Proof.
    induction pats as [|m pats IH]; intros Hc ps st k ps' st' Hk H; cbn [run_patterns] in H.
    - injection H as <- <- <-. exact Hk.
    - specialize (IH (fun Hi m Hm => Hc Hi m (or_intror Hm))).
      assert (Hm : inside -> m_consuming m = true) by (intros Hi; apply (Hc Hi); now left).
      destruct (rec m _ s st) as [r st1|p|] eqn:Er; try discriminate.
      destruct (kin_exec _ _ _ _ _ _ _ Hk Er) as [Hk1 Hr].
      rewrite Hstop in H.
      destruct r as [[a|a|z|nm p|nm p| |]|e].
      + destruct (should_discard (tok st1 a)) eqn:Ed; [eapply IH; [|exact H]; assumption|].
        unfold handle_token in H. rewrite Ed in H. cbn [negb] in H. rewrite andb_true_r in H.
        destruct (add_token P pt a _ _ ps st1) as [ps2 st2|p|] eqn:Ea; try discriminate.
        apply kin_add in Ea as (Hk2 & _); [eapply IH; [|exact H]; assumption|exact Hk1|apply Hr; now left|].
        intros Hi. left. auto.
      + destruct (should_discard (tok st1 a)); [eapply IH; [|exact H]; assumption|].
        destruct (handle_extract P pt a _ ps st1) as [ps2 st2|p|] eqn:Ea; try discriminate.
        apply kin_proxy in Ea; [eapply IH; [|exact H]; assumption|exact Hk1|apply Hr; now left|exact Hm].
      + rewrite andb_false_r in H.
        destruct (m_consuming m); [|eapply IH; [|exact H]; assumption].
        destruct (handle_skip E start z ps st1) as [ps2 st2|p|] eqn:Ea; try discriminate.
        apply kin_skip in Ea; [eapply IH; [|exact H]; assumption|exact Hk1].
      + injection H as <- <- <-. split; [exact Hk1|exact Hr].
      + injection H as <- <- <-. split; [exact Hk1|exact Hr].
      + injection H as <- <- <-. split; [exact Hk1|exact Hr].
      + injection H as <- <- <-. split; [exact Hk1|exact Hr].
      + destruct (dbg E P _ 10); [|discriminate]. destruct e.
        * destruct (pi_iter i).
          -- destruct (finalize P i pt ps count false st1) as [x st2|p0|] eqn:Ef; try discriminate.
             injection H as <- <- <-. eapply finalize_grown; eauto.
          -- injection H as <- <- <-. intros ? [].
        * injection H as <- <- <-. intros ? [].
  Qed.

  Lemma iterate_grown pats c s start : (inside -> forall m, In m pats -> m_consuming m = true) ->
    forall f left count ps st r st', kin st ps ->
    iterate f E P rec pats i c s pt start left count ps st = Ret r st' -> grown r st'.
  Proof.
    intros Hc. induction f as [|f IH]; intros left count ps st r st' Hk H; cbn [iterate] in H.
    - destruct (left =? 0); [|discriminate]. eapply finalize_grown; eauto.
    - destruct (left =? 0); [eapply finalize_grown; eauto|].
      destruct (run_patterns _ _ _ _ _ _ _ _ _ _ _ _) as [[k ps1] st1|p|] eqn:Er; try discriminate.
      apply run_patterns_kin in Er; [|exact Hc|exact Hk]. rewrite Hstop in H.
      destruct k as [|x|r0]; cbn [pass_kin] in Er.
      + eapply IH; eauto.
      + destruct Er as [Hk1 Hx]. destruct x as [a|a|z|nm p|nm p| |]; try discriminate.
        * destruct (handle_payload E P pt start p ps1 st1) as [ps2 st2|q|] eqn:Eh; try discriminate.
          apply kin_payload in Eh; [|exact Hk1|exact Hx].
          destruct (finalize P i pt ps2 count false st2) as [y st3|q|] eqn:Ef; try discriminate.
          apply finalize_grown in Ef; [|exact Eh].
          destruct (is_target i nm); [injection H as <- <-; exact Ef|].
          destruct y; injection H as <- <-; exact Ef.
        * destruct (handle_payload E P pt start p ps1 st1) as [ps2 st2|q|] eqn:Eh; try discriminate.
          apply kin_payload in Eh; [|exact Hk1|exact Hx].
          destruct (is_target i nm); [eapply IH; eauto|]. eapply finalize_grown; eauto.
        * eapply finalize_grown; eauto.
      + injection H as <- <-. exact Er.
  Qed.
End Family.

Lemma program_family E P pats i c s st r st' a : tame E -> pi_stop i = false ->
  Runs E P (MProgram pats i) c s st r st' -> In a (result_tokens r) ->
  a = List.length (st_heap st) /\ family (forall m, In m pats -> m_consuming m = true) st' a.
Proof.
  intros HE Hstop [n H] Ha. destruct n as [|n]; [discriminate|]. cbn [exec] in H.
  unfold step in H. cbn [m_name] in H. unfold exec_program in H.
  set (st1 := before_exec (MProgram pats i) s st) in *.
  assert (Hsz : next_addr st1 = List.length (st_heap st)).
  { unfold next_addr, st1. now rewrite before_heap. }
  set (pt := next_addr st1) in *.
  assert (Hg : grown pt (forall m, In m pats -> m_consuming m = true) r st').
  { eapply (iterate_grown E P (exec n E P) pt pt st1); [| | |exact Hstop| | |exact H].
    - intros h. now apply exec_sound.
    - reflexivity.
    - lia.
    - auto.
    - split; [|intros k []]. split; [rewrite heap_size_alloc; unfold heap_size, pt, next_addr; lia|]. split.
      + intros x Hx. rewrite heap_size_alloc in Hx. unfold heap_size, pt, next_addr in Hx. lia.
      + split; [intros x Hx; apply tok_alloc_old; exact Hx|].
        split; [unfold pt; rewrite tok_alloc_new; split; reflexivity|intros k []]. }
  destruct (Hg a Ha) as [-> Hf]. auto.
Qed.

Lemma program_inside E P pats i c s st r st' a :
  tame E -> pi_stop i = false -> (forall m, In m pats -> m_consuming m = true) ->
  Runs E P (MProgram pats i) c s st r st' -> In a (result_tokens r) ->
  forall k, In k (tk_kids (tok st' a)) -> tk_kind (tok st' k) = KStandard ->
  covers (tk_cr (tok st' a)) (tk_cr (tok st' k)) /\ covers (tk_mr (tok st' a)) (tk_mr (tok st' k)).
Proof.
  intros HE Hs Hc Hr Ha k Hk Hkind.
  destruct (program_family _ _ _ _ _ _ _ _ _ _ HE Hs Hr Ha) as [_ F]. now apply (F k Hk).
Qed.
Lemma program_parent E P pats i c s st r st' a :
  tame E -> pi_stop i = false ->
  Runs E P (MProgram pats i) c s st r st' -> In a (result_tokens r) ->
  forall k, In k (tk_kids (tok st' a)) -> tk_parent (tok st' k) = Some a.
Proof.
  intros HE Hs Hr Ha k Hk.
  destruct (program_family _ _ _ _ _ _ _ _ _ _ HE Hs Hr Ha) as [_ F]. now apply (F k Hk).
Qed.
