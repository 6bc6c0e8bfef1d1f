(* What executions do to the scopes: a relation between states that holds for
   changes of tokens and for the executions of the parts holds for the whole. *)
From Verif Require Import DepthProofs SpecMore.
Open Scope string_scope.
Open Scope list_scope.
Open Scope N_scope.

Section Flow.
  Variable T : state -> state -> Prop.
  Hypothesis T_same : forall st st', st_scopes st' = st_scopes st -> T st st'.
  Hypothesis T_trans : forall st1 st2 st3, T st1 st2 -> T st2 st3 -> T st1 st3.

  Lemma T_refl st : T st st. Proof. now apply T_same. Qed.
  Lemma T_tok st a t : T st (set_tok st a t). Proof. now apply T_same. Qed.
  Lemma T_alloc st t : T st (alloc st t). Proof. now apply T_same. Qed.
  Hint Resolve T_refl T_tok T_alloc : core.

  Lemma error_token_at_flow E P msg r st x st' :
    error_token_at E P msg r st = Ret x st' -> T st st'.
  Proof.
    unfold error_token_at. destruct (error_string E P msg r); [|discriminate].
    intros H. injection H as _ <-. auto.
  Qed.

  Lemma map_ok_flow E P f a c s st r st' :
    (forall k r st', e_map_ok E k a c s st = Ret r st' -> T st st') ->
    map_ok E P f a c s st = Ret r st' -> T st st'.
  Proof.
    intros HE H. assert (He : forall msg rg x st2, error_token_at E P msg rg st = Ret x st2 -> T st st2)
      by (intros; eapply error_token_at_flow; eauto).
    destruct f; cbn [map_ok] in H; try (injection H as _ <-; unfold modify; now auto).
    - eapply HE; eauto.
    - destruct (error_string E P _ _); [|discriminate]. injection H as _ <-. auto.
    - eauto.
    - destruct (attributes_of st a); [|discriminate]. injection H as _ <-. apply T_tok.
    - destruct (attributes_of st a) as [l|]; [|discriminate].
      assert (Hm : T st (modify st a (set_attrs l))) by apply T_tok.
      destruct (get_attr "version" _).
      + destruct (parse_usize _); [injection H as _ <-; exact Hm|].
        destruct (version_attr l); [|discriminate].
        eapply T_trans; [exact Hm|eapply error_token_at_flow; eauto].
      + eapply T_trans; [exact Hm|eapply error_token_at_flow; eauto].
    - destruct (re _ <? _).
      + destruct (src_slice P _ _); [|discriminate]. unfold error_token in H. eauto.
      + injection H as _ <-. auto.
    - destruct (find_child st (tok st a) "AdextopaScope").
      + injection H as _ <-. auto.
      + destruct (find_child st (tok st a) "PatternScope"); [injection H as _ <-; auto|eauto].
  Qed.
  Lemma map_err_flow E P f e c s st r st' :
    (forall k r st', e_map_err E k e c s st = Ret r st' -> T st st') ->
    map_err E P f e c s st = Ret r st' -> T st st'.
  Proof.
    intros Herr H.
    destruct f, e; cbn [map_err] in H;
      try (injection H as _ <-; apply T_refl);
      try (eapply Herr; now eauto).
    - destruct (error_string E P _ (c_off c)); [|discriminate]. injection H as _ <-. apply T_refl.
    - unfold error_token in H. eapply error_token_at_flow; eauto.
  Qed.

  Lemma skip_token_flow E P start a st x st' :
    skip_token E P start a st = Ret x st' -> T st st'.
  Proof.
    intros H. unfold skip_token in H. destruct (error_tokens _ st a) as [l|]; [|discriminate].
    destruct l as [|e l].
    - destruct (or_die _ _); [|discriminate]. injection H as _ <-. apply T_alloc.
    - injection H as _ <-. apply T_alloc.
  Qed.
  Lemma discard_flow E P start r st r' st' :
    discard_result E P start r st = Ret r' st' -> T st st'.
  Proof.
    assert (Hp : forall p x st2, discard_payload E P start p st = Ret x st2 -> T st st2).
    { intros p x st2 H. destruct p; cbn [discard_payload] in H; try discriminate;
        try (injection H as _ <-; apply T_refl); eapply skip_token_flow; eauto. }
    intros H. destruct r as [x|e].
    - destruct x; cbn [discard_result] in H; try (injection H as _ <-; apply T_refl).
      + destruct (skip_token E P start a st) eqn:Ey; try discriminate. injection H as _ <-. eapply skip_token_flow; eauto.
      + destruct (skip_token E P start a st) eqn:Ey; try discriminate. injection H as _ <-. eapply skip_token_flow; eauto.
      + destruct (discard_payload E P start x st) eqn:Ey; try discriminate. injection H as _ <-. eauto.
      + destruct (discard_payload E P start x st) eqn:Ey; try discriminate. injection H as _ <-. eauto.
    - injection H as _ <-. apply T_refl.
  Qed.

  Section Programs.
    Variables (E : env) (P : parser) (rec : recT) (s : sid).

    Lemma add_token_flow pt a fwd u ps st ps' st' :
      add_token P pt a fwd u ps st = Ret ps' st' -> T st st'.
    Proof.
      unfold add_token. destruct (_ && _ && _ && _); [discriminate|]. intros H. injection H as _ <-. apply T_tok.
    Qed.
    Lemma extract_flow pt self u l : forall ps st ps' st',
      extract_children P pt self u l ps st = Ret ps' st' -> T st st'.
    Proof.
      induction l as [|k l IH]; intros ps st ps' st' H; cbn [extract_children] in H.
      - injection H as _ <-. apply T_refl.
      - destruct (should_discard _); [eauto|]. destruct (Nat.eqb k self); [discriminate|].
        destruct (add_token P pt k false u ps st) eqn:Ea; try discriminate.
        eapply T_trans; [eapply add_token_flow; eauto|eauto].
    Qed.
    Lemma handle_skip_flow start z ps st ps' st' :
      handle_skip E start z ps st = Ret ps' st' -> T st st'.
    Proof.
      unfold handle_skip. destruct (or_die _ _); [|discriminate]. intros H. injection H as _ <-. apply T_refl.
    Qed.
    Lemma handle_payload_flow pt start p ps st ps' st' :
      handle_payload E P pt start p ps st = Ret ps' st' -> T st st'.
    Proof.
      intros H. destruct p; cbn [handle_payload] in H; try (injection H as _ <-; apply T_refl).
      - eapply add_token_flow; eauto.
      - eapply extract_flow; eauto.
      - eapply handle_skip_flow; eauto.
    Qed.
    Lemma finalize_flow i pt ps count strict st r st' :
      finalize P i pt ps count strict st = Ret r st' -> T st st'.
    Proof.
      intros H. unfold finalize in H.
      repeat match type of H with (match ?x with _ => _ end) = _ => destruct x end;
        injection H as _ <-; try apply T_refl; apply T_tok.
    Qed.

    Lemma run_patterns_flow i c pt start count pats :
      (forall m c' st r st', In m pats -> rec m c' s st = Ret r st' -> T st st') ->
      forall ps st k ps' st',
      run_patterns E P rec i c s pt start count pats ps st = Ret (k, ps') st' -> T st st'.
    Proof.
      induction pats as [|m pats IH0]; intros Hrec ps st k ps' st' H; cbn [run_patterns] in H.
      - injection H as _ _ <-. apply T_refl.
      - assert (IH : forall ps st k ps' st', run_patterns E P rec i c s pt start count pats ps st = Ret (k, ps') st' -> T st st')
          by (apply IH0; intros m0 c0 st0 r0 st0' Hi; apply Hrec; now right).
        destruct (rec m _ s st) as [r st1|p|] eqn:Er; try discriminate.
        apply Hrec in Er; [|now left].
        apply (T_trans st st1); [exact Er|].
        destruct r as [[a|a|z|nm p|nm p| |]|e]; try (injection H as _ _ <-; apply T_refl).
        + destruct (should_discard _); [eauto|]. destruct (pi_stop i); [injection H as _ _ <-; apply T_refl|].
          destruct (handle_token _ _ _ _ _ _ _) eqn:Ea; try discriminate.
          eapply T_trans; [eapply add_token_flow; eauto|eauto].
        + destruct (should_discard _); [eauto|]. destruct (pi_stop i); [injection H as _ _ <-; apply T_refl|].
          destruct (handle_extract _ _ _ _ _ _) eqn:Ea; try discriminate.
          eapply T_trans; [eapply extract_flow; eauto|eauto].
        + destruct (_ && _); [injection H as _ _ <-; apply T_refl|]. destruct (m_consuming m); [|eauto].
          destruct (handle_skip _ _ _ _ _) eqn:Ea; try discriminate.
          eapply T_trans; [eapply handle_skip_flow; eauto|eauto].
        + destruct (dbg E P _ 10); [|discriminate]. destruct e; [|injection H as _ _ <-; apply T_refl].
          destruct (pi_stop i); [eauto|]. destruct (pi_iter i); [|injection H as _ _ <-; apply T_refl].
          destruct (finalize _ _ _ _ _ _ _) eqn:Ef; try discriminate. injection H as _ _ <-. eapply finalize_flow; eauto.
    Qed.

    Lemma iterate_flow pats i c pt start :
      (forall m c' st r st', In m pats -> rec m c' s st = Ret r st' -> T st st') ->
      forall f left count ps st r st',
      iterate f E P rec pats i c s pt start left count ps st = Ret r st' -> T st st'.
    Proof.
      intros Hrec. induction f as [|f IH]; intros left count ps st r st' H; cbn [iterate] in H.
      - destruct (left =? 0); [|discriminate]. eapply finalize_flow; eauto.
      - destruct (left =? 0); [eapply finalize_flow; eauto|].
        destruct (run_patterns _ _ _ _ _ _ _ _ _ _ _ _) as [[k ps1] st1|p|] eqn:Er; try discriminate.
        apply run_patterns_flow in Er; [|exact Hrec]. apply (T_trans st st1); [exact Er|].
        destruct k as [|x|r0]; [eauto| |injection H as _ <-; apply T_refl].
        destruct x as [a|a|z|nm p|nm p| |]; try discriminate.
        + destruct (pi_stop i); [injection H as _ <-; apply T_refl|].
          destruct (handle_payload _ _ _ _ _ _ _) as [ps2 st2|q|] eqn:Eh; try discriminate.
          apply handle_payload_flow in Eh. apply (T_trans st1 st2); [exact Eh|].
          destruct (finalize _ _ _ _ _ _ _) as [y st3|q|] eqn:Ef; try discriminate. apply finalize_flow in Ef.
          destruct (is_target i nm); [injection H as _ <-; exact Ef|].
          destruct y; injection H as _ <-; exact Ef.
        + destruct (pi_stop i); [injection H as _ <-; apply T_refl|].
          destruct (handle_payload _ _ _ _ _ _ _) as [ps2 st2|q|] eqn:Eh; try discriminate.
          apply handle_payload_flow in Eh. apply (T_trans st1 st2); [exact Eh|].
          destruct (is_target i nm); [eauto|eapply finalize_flow; eauto].
        + eapply finalize_flow; eauto.
    Qed.

    (* what comes after the first execution of the first pattern *)
    Lemma run_patterns_first i c pt start count m pats :
      (forall m c' st r st', In m pats -> rec m c' s st = Ret r st' -> T st st') ->
      forall ps st k ps' st',
      run_patterns E P rec i c s pt start count (m :: pats) ps st = Ret (k, ps') st' ->
      exists c' r st1, rec m c' s st = Ret r st1 /\ T st1 st'.
    Proof.
      intros Hrec ps st k ps' st' H. cbn [run_patterns] in H.
      pose proof (run_patterns_flow i c pt start count pats Hrec) as IH.
      destruct (rec m _ s st) as [r st1|p|] eqn:Er; try discriminate.
      eexists _, _, _. split; [exact Er|].
      destruct r as [[a|a|z|nm p|nm p| |]|e]; try (injection H as _ _ <-; apply T_refl).
      + destruct (should_discard _); [eauto|]. destruct (pi_stop i); [injection H as _ _ <-; apply T_refl|].
        destruct (handle_token _ _ _ _ _ _ _) eqn:Ea; try discriminate.
        eapply T_trans; [eapply add_token_flow; eauto|eauto].
      + destruct (should_discard _); [eauto|]. destruct (pi_stop i); [injection H as _ _ <-; apply T_refl|].
        destruct (handle_extract _ _ _ _ _ _) eqn:Ea; try discriminate.
        eapply T_trans; [eapply extract_flow; eauto|eauto].
      + destruct (_ && _); [injection H as _ _ <-; apply T_refl|]. destruct (m_consuming m); [|eauto].
        destruct (handle_skip _ _ _ _ _) eqn:Ea; try discriminate.
        eapply T_trans; [eapply handle_skip_flow; eauto|eauto].
      + destruct (dbg E P _ 10); [|discriminate]. destruct e; [|injection H as _ _ <-; apply T_refl].
        destruct (pi_stop i); [eauto|]. destruct (pi_iter i); [|injection H as _ _ <-; apply T_refl].
        destruct (finalize _ _ _ _ _ _ _) eqn:Ef; try discriminate. injection H as _ _ <-. eapply finalize_flow; eauto.
    Qed.

    Lemma iterate_first m pats i c pt start :
      (forall x c' st r st', In x (m :: pats) -> rec x c' s st = Ret r st' -> T st st') ->
      forall f left count ps st r st', left <> 0 ->
      iterate f E P rec (m :: pats) i c s pt start left count ps st = Ret r st' ->
      exists c' r' st1, rec m c' s st = Ret r' st1 /\ T st1 st'.
    Proof.
      intros Hrec f left count ps st r st' Hl H. destruct f as [|f]; cbn [iterate] in H.
      - destruct (N.eqb_spec left 0); [easy|discriminate].
      - destruct (N.eqb_spec left 0); [easy|].
        destruct (run_patterns _ _ _ _ _ _ _ _ _ _ _ _) as [[k ps1] st1|p|] eqn:Er; try discriminate.
        apply run_patterns_first in Er; [|intros; eapply Hrec; [right; eassumption|eassumption]].
        destruct Er as (c' & r' & st2 & H1 & H2). exists c', r', st2. split; [exact H1|].
        apply (T_trans st2 st1); [exact H2|].
        pose proof (iterate_flow _ i c pt start Hrec f) as IH.
        destruct k as [|x|r0]; [eauto| |injection H as _ <-; apply T_refl].
        destruct x as [a|a|z|nm p|nm p| |]; try discriminate.
        + destruct (pi_stop i); [injection H as _ <-; apply T_refl|].
          destruct (handle_payload _ _ _ _ _ _ _) as [ps2 st3|q|] eqn:Eh; try discriminate.
          apply handle_payload_flow in Eh. apply (T_trans st1 st3); [exact Eh|].
          destruct (finalize _ _ _ _ _ _ _) as [y st4|q|] eqn:Ef; try discriminate. apply finalize_flow in Ef.
          destruct (is_target i nm); [injection H as _ <-; exact Ef|].
          destruct y; injection H as _ <-; exact Ef.
        + destruct (pi_stop i); [injection H as _ <-; apply T_refl|].
          destruct (handle_payload _ _ _ _ _ _ _) as [ps2 st3|q|] eqn:Eh; try discriminate.
          apply handle_payload_flow in Eh. apply (T_trans st1 st3); [exact Eh|].
          destruct (is_target i nm); [eauto|eapply finalize_flow; eauto].
        + eapply finalize_flow; eauto.
    Qed.
  End Programs.
End Flow.

(* ---------- assignments ---------- *)

Section Assignments.
  Variable W : str -> variable -> Prop.
  Notation writes := (writes W).
  Notation scopes_write := (scopes_write W).
  Notation assigned := (assigned W).

  Lemma assigned_trans st1 st2 st3 : assigned st1 st2 -> assigned st2 st3 -> assigned st1 st3.
  Proof.
    intros H1 H2 s n. destruct (H2 s n) as [H|H]; [rewrite H; apply H1|now right].
  Qed.
  Lemma assigned_same st st' : st_scopes st' = st_scopes st -> assigned st st'.
  Proof. intros H s n. left. unfold sc_get, stack_of. now rewrite H. Qed.
  Lemma scopes_same st st' : st_scopes st' = st_scopes st -> scopes_write st -> scopes_write st'.
  Proof. unfold SpecMore.scopes_write. intros ->. auto. Qed.

  Definition flow (st st' : state) : Prop := scopes_write st -> scopes_write st' /\ assigned st st'.
  Lemma flow_same st st' : st_scopes st' = st_scopes st -> flow st st'.
  Proof. intros H Hs. split; [now apply (scopes_same st)|now apply assigned_same]. Qed.
  Lemma flow_trans st1 st2 st3 : flow st1 st2 -> flow st2 st3 -> flow st1 st3.
  Proof.
    intros H1 H2 Hs. destruct (H1 Hs) as [Ha Hb]. destruct (H2 Ha) as [Hc Hd].
    split; [assumption|]. eapply assigned_trans; eauto.
  Qed.
  Lemma flow_refl st : flow st st. Proof. now apply flow_same. Qed.

  Lemma w_upd_in {A} n (x : A) l y : In y (upd n x l) -> y = x \/ In y l.
  Proof.
    revert n. induction l as [|z l IH]; intros [|n]; cbn; try easy; intros [H|H]; auto.
    destruct (IH _ H); auto.
  Qed.
  Lemma w_assoc_in {A} k (v : A) l k' v' : In (k', v') (assoc_set k v l) -> (k' = k /\ v' = v) \/ In (k', v') l.
  Proof.
    unfold assoc_set. intros [H|H]; [injection H as <- <-; auto|]. right. now apply filter_In in H.
  Qed.
  Lemma w_stack st s l : scopes_write st ->
    (forall sc n m, In sc l -> In (n, VMatcher m) sc -> writes m) -> scopes_write (set_stack st s l).
  Proof.
    intros Hs Hl stack sc n m H1 H2 H3. cbn [st_scopes set_stack] in H1.
    apply w_upd_in in H1 as [->|H1]; [eapply Hl; eauto|eapply Hs; eauto].
  Qed.
  Lemma w_of st s : scopes_write st -> forall sc n m, In sc (stack_of st s) -> In (n, VMatcher m) sc -> writes m.
  Proof.
    intros Hs sc n m H1 H2.
    destruct (Nat.lt_ge_cases s (List.length (st_scopes st))) as [Hl|Hl].
    - apply (Hs (stack_of st s) sc n m); auto. unfold stack_of. now apply nth_In.
    - unfold stack_of in H1. rewrite nth_overflow in H1 by exact Hl. destruct H1.
  Qed.
  Lemma w_set st s n v : scopes_write st -> (forall m, v = VMatcher m -> writes m) ->
    scopes_write (sc_set st s n v).
  Proof.
    intros Hs Hv. apply w_stack; [exact Hs|]. pose proof (w_of st s Hs) as Ho.
    intros sc k m H1 H2. destruct (stack_of st s) as [|sc0 l]; cbn [stack_set] in H1.
    - destruct H1 as [<-|[]]. apply w_assoc_in in H2 as [[_ H2]|[]]. symmetry in H2. now apply Hv.
    - destruct H1 as [<-|H1]; [|exact (Ho sc k m (or_intror H1) H2)].
      apply w_assoc_in in H2 as [[_ H2]|H2]; [symmetry in H2; now apply Hv|]. exact (Ho sc0 k m (or_introl eq_refl) H2).
  Qed.
  Lemma w_push st s : scopes_write st -> scopes_write (sc_push st s).
  Proof.
    intros Hs. apply w_stack; [exact Hs|]. intros sc n m [<-|H1] H2; [destruct H2|]. eapply w_of; eauto.
  Qed.
  Lemma w_pop st s : scopes_write st -> scopes_write (sc_pop st s).
  Proof.
    intros Hs. apply w_stack; [exact Hs|]. intros sc n m H1 H2.
    eapply (w_of st s); eauto. destruct (stack_of st s); [exact H1|now right].
  Qed.
  Lemma w_assoc_get {A} n (v : A) l : assoc_get n l = Some v -> exists k, In (k, v) l.
  Proof.
    induction l as [|[k x] l IH]; cbn; [easy|]. destruct (str_eqb n k).
    - intros H. injection H as ->. eauto.
    - intros H. destruct (IH H) as [k' Hk]. eauto.
  Qed.
  Lemma w_get st s n m : scopes_write st -> sc_get st s n = Some (VMatcher m) -> writes m.
  Proof.
    intros Hs. unfold sc_get. pose proof (w_of st s Hs) as Ho. revert Ho.
    induction (stack_of st s) as [|sc l IH]; cbn [stack_get]; [easy|]. intros Ho.
    destruct (assoc_get n sc) as [v|] eqn:Hg.
    - intros H. injection H as ->. apply w_assoc_get in Hg as [k Hk]. exact (Ho sc k m (or_introl eq_refl) Hk).
    - apply IH. intros sc' k m' H1. apply Ho. now right.
  Qed.

  Lemma flow_set st s n v : W n v -> (forall m, v = VMatcher m -> writes m) -> flow st (sc_set st s n v).
  Proof.
    intros Hw Hm Hs. split; [now apply w_set|]. intros s' n'.
    destruct (Nat.eq_dec s s') as [<-|Hn]; [|left; apply get_set_other; auto].
    destruct (str_eqb n n') eqn:En; [|left; apply get_set_other; right; now apply str_eqb_neq].
    apply str_eqb_eq in En as <-.
    destruct (Nat.lt_ge_cases s (List.length (st_scopes st))) as [Hv|Hv].
    - right. exists v. split; [now apply get_set_same|assumption].
    - left. unfold sc_get, sc_set. rewrite set_stack_dead; [reflexivity|]. unfold valid_scope. lia.
  Qed.

  Lemma flow_before m s st : writes m -> flow st (before_exec m s st).
  Proof.
    intros Hm. unfold before_exec. destruct (m_custom m) eqn:Hc; [|apply flow_refl].
    inversion Hm; subst. apply flow_set; auto. intros m' H'. now injection H' as <-.
  Qed.

  Lemma flow_register s ms : (forall m, In m ms -> writes m) -> (forall m, In m ms -> W (m_name m) (VMatcher m)) ->
    forall st, flow st (fold_left (fun st m => sc_set st s (m_name m) (VMatcher m)) ms st).
  Proof.
    induction ms as [|m ms IH]; intros H1 H2 st; cbn [fold_left]; [apply flow_refl|].
    eapply flow_trans; [apply flow_set|apply IH].
    - apply H2. now left.
    - intros m' H'. injection H' as <-. apply H1. now left.
    - intros x Hx. apply H1. now right.
    - intros x Hx. apply H2. now right.
  Qed.

  Lemma stack_push st s : valid_scope st s -> stack_of (sc_push st s) s = [] :: stack_of st s.
  Proof. intros H. unfold sc_push. now rewrite stack_set_stack. Qed.

  Lemma flow_nested st s st1 : outer_scopes_kept (sc_push st s) st1 -> flow (sc_push st s) st1 ->
    flow st (sc_pop st1 s).
  Proof.
    intros Hk Hf Hs. destruct (Hf (w_push st s Hs)) as [H1 H2]. split; [now apply w_pop|].
    destruct (kept_nested st s st1 Hk) as [_ Hr]. intros s' n.
    assert (Hpush : forall x, sc_get (sc_push st s) x n = sc_get st x n).
    { intros x. unfold sc_get. destruct (Nat.eq_dec s x) as [<-|Hn].
      - destruct (Nat.lt_ge_cases s (List.length (st_scopes st))) as [Hv|Hv].
        + now rewrite stack_push.
        + unfold sc_push. rewrite set_stack_dead; [reflexivity|]. unfold valid_scope. lia.
      - unfold sc_push. now rewrite stack_set_other. }
    destruct (Nat.eq_dec s s') as [<-|Hn].
    - destruct (Nat.lt_ge_cases s (List.length (st_scopes st))) as [Hv|Hv].
      + left. unfold sc_get. now rewrite (Hr Hv).
      + left. unfold sc_get. destruct Hk as [L _]. unfold sc_push in L. rewrite set_stack_len in L.
        unfold stack_of. rewrite !nth_overflow; auto. unfold sc_pop. rewrite set_stack_len. lia.
    - assert (He : sc_get (sc_pop st1 s) s' n = sc_get st1 s' n).
      { unfold sc_get, sc_pop. now rewrite stack_set_other. }
      rewrite He, <- Hpush. apply H2.
  Qed.

  Definition flows (rec : recT) : Prop :=
    forall m c s st r st', writes m -> rec m c s st = Ret r st' -> flow st st'.

  Lemma step_flows E P rec fuel : scope_tame E -> user_writes W E -> keeps rec -> flows rec ->
    flows (step fuel E P rec).
  Proof.
    intros HT HE Hkeep Hrec m c s st0 r st' Hm H. unfold step in H.
    apply (flow_trans st0 (before_exec m s st0)); [now apply flow_before|].
    set (st := before_exec m s st0) in *. clearbody st. clear st0.
    assert (Hp : forall x, In x (parts m) -> writes x) by now inversion Hm.
    assert (Ha : assigns W m) by now inversion Hm. clear Hm.
    pose proof (flow_refl st) as Hrefl.
    assert (Halloc : forall t, flow st (alloc st t)) by (intros; now apply flow_same).
    destruct m as [pats i|p name cust|f name cust|fs fe fx name cust|m1|m1|m1| |msg|msg|nm|m1 k|m1 f
                  |om off name cust|p name cust|name|ms|t name cust|o m1|m1 name cust|m1|om d|k name cust cons];
      cbn [m_name m_custom parts assigns] in *.
    - unfold exec_program in H. eapply flow_trans; [apply Halloc|].
      eapply (iterate_flow flow flow_same flow_trans); [|exact H]. intros m c' st1 r1 st2 Hi. apply Hrec. auto.
    - repeat match type of H with
      | (let! _ := ?x in _) = _ => destruct x; [|discriminate]
      | (match ?x with _ => _ end) = _ => destruct x
      end; try discriminate; injection H as _ <-; auto.
    - repeat match type of H with
      | (let! _ := ?x in _) = _ => destruct x; [|discriminate]
      | (match ?x with _ => _ end) = _ => destruct x
      end; try discriminate; injection H as _ <-; auto.
    - unfold exec_sequence in H. repeat match type of H with
      | (let! _ := ?x in _) = _ => destruct x; [|discriminate]
      | (match ?x with _ => _ end) = _ => destruct x
      end; try discriminate; injection H as _ <-; auto.
    - assert (Hm1 : writes m1) by (apply Hp; now left).
      destruct (rec m1 _ s st) as [r0 st1|p|] eqn:E1; try discriminate. apply Hrec in E1; [|exact Hm1].
      destruct r0 as [[a|a|z|b q|b q| |]|[|e]]; try (injection H as _ <-; exact E1).
      destruct (z =? 0)%Z; injection H as _ <-; exact E1.
    - assert (Hm1 : writes m1) by (apply Hp; now left).
      destruct (rec m1 _ s st) as [r0 st1|p|] eqn:E1; try discriminate. apply Hrec in E1; [|exact Hm1].
      destruct r0 as [x|[|e]]; injection H as _ <-; exact E1.
    - assert (Hm1 : writes m1) by (apply Hp; now left).
      destruct (rec m1 _ s st) as [r0 st1|p|] eqn:E1; try discriminate. apply Hrec in E1; [|exact Hm1].
      eapply flow_trans; [exact E1|eapply (discard_flow flow flow_same); eauto].
    - injection H as _ <-. auto.
    - destruct (error_string E P msg _); [|discriminate]. injection H as _ <-. auto.
    - eapply (error_token_at_flow flow flow_same); eauto.
    - injection H as _ <-. auto.
    - assert (Hm1 : writes m1) by (apply Hp; now left).
      destruct (rec m1 _ s st) as [r0 st1|p|] eqn:E1; try discriminate. apply Hrec in E1; [|exact Hm1].
      destruct r0; [injection H as _ <-; exact E1|]. eapply flow_trans; [exact E1|].
      intros Hs. destruct (HE st1 Hs) as (_ & _ & Hc & _). eapply Hc; eauto.
    - assert (Hm1 : writes m1) by (apply Hp; now left).
      destruct (rec m1 _ s st) as [r0 st1|p|] eqn:E1; try discriminate. apply Hrec in E1; [|exact Hm1].
      assert (Hok : forall a r st', map_ok E P f a (clone_with_name c (m_name (MMap m1 f))) s st1 = Ret r st' -> flow st1 st').
      { intros a r1 st2 Hr. eapply (map_ok_flow flow flow_same flow_trans); [|exact Hr].
        intros k r2 st3 Hk Hs. destruct (HE st1 Hs) as (Hc & _). eapply Hc; eauto. }
      destruct r0 as [[a|a|z|b q|b q| |]|e]; try (injection H as _ <-; exact E1).
      + eapply flow_trans; [exact E1|eapply Hok; eauto].
      + eapply flow_trans; [exact E1|eapply Hok; eauto].
      + eapply flow_trans; [exact E1|]. eapply (map_err_flow flow flow_same); [|exact H].
        intros k r2 st3 Hk Hs. destruct (HE st1 Hs) as (_ & Hc & _). eapply Hc; eauto.
    - destruct (fetch_value st s off) as [[v|m2]|]; [| |discriminate]; [|injection H as _ <-; auto].
      destruct (pin_context E _ v); [|discriminate]. destruct om as [m1|].
      + eapply Hrec; [|exact H]. apply Hp. now left.
      + injection H as _ <-. auto.
    - destruct p as [m1|v].
      + assert (Hm1 : writes m1) by (apply Hp; now left).
        destruct (rec m1 _ s st) as [r0 st1|p|] eqn:E1; try discriminate. apply Hrec in E1; [|exact Hm1].
        destruct r0 as [[a|a|z|b q|b q| |]|e]; injection H as _ <-; try exact E1.
        eapply flow_trans; [exact E1|]. apply flow_set; [apply Ha|discriminate].
      + injection H as _ <-. apply flow_set; [apply Ha|discriminate].
    - injection H as _ <-. auto.
    - injection H as _ <-. now apply flow_register.
    - intros Hs. destruct (fetch_value st s t) as [[v|m1]|] eqn:Ef; [| |discriminate].
      + destruct (sc_get st s v) as [[ | | ]|] eqn:Eg; try (injection H as _ <-; now apply Hrefl).
        eapply Hrec; [eapply w_get; eauto|exact H|exact Hs].
      + assert (Hm1 : writes m1).
        { unfold fetch_value in Ef. destruct t as [v|n|m2].
          - discriminate.
          - destruct (sc_get st s (hd [] (split "." n))) as [[x|x|x]|] eqn:Eg.
            + destruct (split "." n) as [|? [|? [|? ?]]]; try discriminate.
              destruct (fetch_token _ _ _); discriminate.
            + destruct (split "." n) as [|? [|? [|? ?]]]; discriminate.
            + injection Ef as <-. eapply w_get; eauto.
            + discriminate.
          - injection Ef as <-. apply Hp. now left. }
        eapply Hrec; [exact Hm1|exact H|exact Hs].
    - destruct o as [s1|]; [eapply Hrec; [apply Hp; now left|eauto]|].
      destruct (rec m1 _ (c_scope c) (sc_push st (c_scope c))) as [r0 st1|p|] eqn:E1; try discriminate.
      injection H as _ <-. apply flow_nested; [eapply Hkeep; eauto|]. eapply Hrec; [apply Hp; now left|eauto].
    - assert (Hm1 : writes m1) by (apply Hp; now left).
      destruct (rec m1 _ s st) as [r0 st1|p|] eqn:E1; try discriminate. apply Hrec in E1; [|exact Hm1].
      destruct r0 as [[a|a|z|b q|b q| |]|e]; try (injection H as _ <-; exact E1);
        destruct q; injection H as _ <-; exact E1.
    - assert (Hm1 : writes m1) by (apply Hp; now left).
      destruct (rec m1 _ s st) as [r0 st1|p|] eqn:E1; try discriminate. apply Hrec in E1; [|exact Hm1].
      destruct r0 as [[a|a|z|b q|b q| |]|e]; injection H as _ <-;
        first [exact E1|eapply flow_trans; [exact E1|now apply flow_same]].
    - destruct om as [m1|].
      + destruct (debug_range E P _ 10); [|discriminate]. eapply Hrec; [apply Hp; now left|eauto].
      + destruct (debug_range E P _ 10); [|discriminate]. injection H as _ <-. auto.
    - intros Hs. destruct (HE st Hs) as (_ & _ & _ & Hu). eapply Hu; eauto.
  Qed.

  Lemma exec_flows E P : scope_tame E -> user_writes W E -> forall n, flows (exec n E P).
  Proof.
    intros HT HE. induction n as [|n IH]; [intros m c s st r st' _ H; discriminate|].
    apply step_flows; auto. now apply exec_keeps.
  Qed.

  Lemma runs_assigned E P m c s st r st' : scope_tame E -> user_writes W E ->
    writes m -> scopes_write st -> Runs E P m c s st r st' -> scopes_write st' /\ assigned st st'.
  Proof. intros HT HE Hm Hs [n H]. exact (exec_flows E P HT HE n _ _ _ _ _ _ Hm H Hs). Qed.
End Assignments.

(* ---------- the first use of a definition ---------- *)

Lemma assoc_set_twice {A} k (v : A) l : assoc_set k v (assoc_set k v l) = assoc_set k v l.
Proof.
  unfold assoc_set. cbn [filter fst]. rewrite str_eqb_refl. cbn [negb]. f_equal.
  induction l as [|[k' x] l IH]; [reflexivity|]. cbn [filter fst].
  destruct (str_eqb k k') eqn:Ek; cbn [negb filter fst]; [exact IH|]. rewrite Ek. cbn [negb]. now rewrite IH.
Qed.
Lemma sc_set_twice st s n v : sc_set (sc_set st s n v) s n v = sc_set st s n v.
Proof.
  unfold sc_set at 1. destruct (Nat.lt_ge_cases s (List.length (st_scopes st))) as [Hv|Hv].
  - unfold sc_set. rewrite stack_set_stack by exact Hv. unfold set_stack. cbn [st_heap st_scopes].
    rewrite upd_upd. do 2 f_equal. destruct (stack_of st s) as [|sc l]; cbn [stack_set].
    + now rewrite assoc_set_twice.
    + now rewrite assoc_set_twice.
  - unfold set_stack at 1. cbn [st_heap sc_set set_stack st_scopes]. unfold sc_set, set_stack.
    cbn [st_scopes st_heap]. rewrite !(upd_overflow s) by (rewrite ?upd_overflow; lia). reflexivity.
Qed.

(* the inner matcher with its own name runs, and everything after that only
   assigns what is allowed *)
Lemma core_first W E P core : scope_tame E -> user_writes W E -> m_custom core = true -> writes W core ->
  forall m, wraps core m -> forall n c s st r st', exec n E P m c s st = Ret r st' ->
  exists st0, st_scopes st0 = st_scopes (sc_set st s (m_name core) (VMatcher core)) /\ flow W st0 st'.
Proof.
  intros HT HE Hc Hw.
  assert (Hfl : forall n, flows W (exec n E P)) by (intros; now apply exec_flows).
  assert (Hwr : forall m, wraps core m -> writes W m).
  { intros m H. induction H; [assumption|..]; constructor; cbn [m_custom assigns parts]; try easy;
      intros x [<-|[]]; assumption. }
  intros m Hm. induction Hm as [|m l Hm IH|m Hm IH|m Hm IH|m Hm IH|m lo hi Hl Hm IH]; intros n c s st r st' H.
  - destruct n as [|n]; [discriminate|]. exists (sc_set st s (m_name core) (VMatcher core)). split; [reflexivity|].
    assert (Hs : exec (S n) E P core c s (sc_set st s (m_name core) (VMatcher core)) = Ret r st').
    { rewrite <- H. cbn [exec]. unfold step.
      assert (Hb : before_exec core s (sc_set st s (m_name core) (VMatcher core)) = before_exec core s st).
      { unfold before_exec. rewrite Hc. apply sc_set_twice. }
      rewrite Hb. reflexivity. }
    exact (Hfl _ _ _ _ _ _ _ Hw Hs).
  - destruct n as [|n]; [discriminate|]. cbn [exec step] in H. unfold before_exec in H. cbn [m_custom] in H.
    destruct (exec n E P m _ s st) as [r1 st1| |] eqn:E1; try discriminate.
    destruct (IH _ _ _ _ _ _ E1) as (st0 & H0 & Hf). exists st0. split; [assumption|].
    eapply flow_trans; [exact Hf|].
    destruct r1 as [[a|a|z|b q|b q| |]|e]; try (injection H as _ <-; apply flow_refl).
    + injection H as _ <-. now apply flow_same.
    + injection H as _ <-. now apply flow_same.
  - destruct n as [|n]; [discriminate|]. cbn [exec step] in H. unfold before_exec in H. cbn [m_custom] in H.
    destruct (exec n E P m _ s st) as [r1 st1| |] eqn:E1; try discriminate.
    destruct (IH _ _ _ _ _ _ E1) as (st0 & H0 & Hf). exists st0. split; [assumption|].
    destruct r1 as [x|[|e]]; injection H as _ <-; exact Hf.
  - destruct n as [|n]; [discriminate|]. cbn [exec step] in H. unfold before_exec in H. cbn [m_custom] in H.
    destruct (exec n E P m _ s st) as [r1 st1| |] eqn:E1; try discriminate.
    destruct (IH _ _ _ _ _ _ E1) as (st0 & H0 & Hf). exists st0. split; [assumption|].
    destruct r1 as [[a|a|z|b q|b q| |]|[|e]]; try (injection H as _ <-; exact Hf).
    destruct (z =? 0)%Z; injection H as _ <-; exact Hf.
  - destruct n as [|n]; [discriminate|]. cbn [exec step] in H. unfold before_exec in H. cbn [m_custom] in H.
    destruct (exec n E P m _ s st) as [r1 st1| |] eqn:E1; try discriminate.
    destruct (IH _ _ _ _ _ _ E1) as (st0 & H0 & Hf). exists st0. split; [assumption|].
    eapply flow_trans; [exact Hf|]. eapply (discard_flow (flow W) (flow_same W)); eauto.
  - destruct n as [|n]; [discriminate|]. cbn [exec step] in H. unfold before_exec in H. cbn [m_custom pi_custom] in H.
    unfold exec_program in H. cbn [pi_iter] in H.
    apply (iterate_first (flow W) (flow_same W) (flow_trans W)) in H.
    + destruct H as (c' & r' & st1 & H1 & Hf). destruct (IH _ _ _ _ _ _ H1) as (st0 & H0 & Hf0).
      exists st0. split; [rewrite H0; reflexivity|]. eapply flow_trans; eauto.
    + intros x c' st1 r1 st2 [<-|[]]. apply Hfl. now apply Hwr.
    + unfold iterations. cbn [pi_iter]. lia.
Qed.

Lemma first_use E P core m c s st r st' :
  let W := fun n v => n = m_name core -> v = VMatcher core in
  scope_tame E -> user_writes W E -> m_custom core = true -> writes W core -> scopes_write W st ->
  valid_scope st s -> wraps core m -> Runs E P m c s st r st' ->
  sc_get st' s (m_name core) = Some (VMatcher core).
Proof.
  intros W HT HE Hc Hw Hs Hv Hm [n H].
  destruct (core_first W E P core HT HE Hc Hw m Hm n c s st r st' H) as (st0 & H0 & Hf).
  assert (Hs0 : scopes_write W st0).
  { apply (scopes_same W (sc_set st s (m_name core) (VMatcher core))); [assumption|].
    apply w_set; [assumption|]. intros m' H'. now injection H' as <-. }
  destruct (Hf Hs0) as [_ Ha]. destruct (Ha s (m_name core)) as [Hg|(v & Hg & Hv')].
  - rewrite Hg. unfold sc_get, stack_of. rewrite H0. apply get_set_same. exact Hv.
  - rewrite Hg. f_equal. now apply Hv'.
Qed.
