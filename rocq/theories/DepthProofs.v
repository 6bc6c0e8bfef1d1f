(* Executions only write to innermost scopes (C21). *)
From Verif Require Export LoopProofs.
Open Scope string_scope.
Open Scope list_scope.
Open Scope N_scope.

Lemma kept_refl st : outer_scopes_kept st st.
Proof. split; auto. Qed.
Lemma kept_trans st1 st2 st3 : outer_scopes_kept st1 st2 -> outer_scopes_kept st2 st3 -> outer_scopes_kept st1 st3.
Proof.
  intros [L1 H1] [L2 H2]. split; [congruence|]. intros s. destruct (H1 s) as [A B], (H2 s) as [C D].
  split; [congruence|auto].
Qed.
Lemma kept_scopes st st' : st_scopes st' = st_scopes st -> outer_scopes_kept st st'.
Proof. intros H. unfold outer_scopes_kept, stack_of. rewrite H. auto. Qed.

Lemma stack_set_head l n v : tl (stack_set l n v) = tl l /\ stack_set l n v <> [].
Proof. destruct l; split; try reflexivity; discriminate. Qed.

Lemma set_stack_len st s l : List.length (st_scopes (set_stack st s l)) = List.length (st_scopes st).
Proof. unfold set_stack. cbn. apply upd_length. Qed.
Lemma set_stack_dead st s l s' : ~ valid_scope st s -> stack_of (set_stack st s l) s' = stack_of st s'.
Proof.
  intros H. unfold stack_of, set_stack, valid_scope in *. cbn.
  rewrite upd_overflow; [reflexivity|]. lia.
Qed.
Lemma kept_set st s n v : outer_scopes_kept st (sc_set st s n v).
Proof.
  split; [apply set_stack_len|]. intros s'. unfold sc_set.
  destruct (Nat.lt_ge_cases s (List.length (st_scopes st))) as [Hv|Hv].
  - destruct (Nat.eq_dec s s') as [<-|Hn].
    + rewrite stack_set_stack by exact Hv. destruct (stack_set_head (stack_of st s) n v). auto.
    + rewrite stack_set_other by exact Hn. auto.
  - rewrite set_stack_dead; [auto|]. unfold valid_scope. lia.
Qed.
Lemma kept_before m s st : outer_scopes_kept st (before_exec m s st).
Proof. unfold before_exec. destruct (m_custom m); [apply kept_set|apply kept_refl]. Qed.
Lemma kept_tok st a t : outer_scopes_kept st (set_tok st a t).
Proof. now apply kept_scopes. Qed.
Lemma kept_alloc st t : outer_scopes_kept st (alloc st t).
Proof. now apply kept_scopes. Qed.

(* entering a scope, doing something, leaving it *)
Lemma kept_nested st s st1 : outer_scopes_kept (sc_push st s) st1 ->
  outer_scopes_kept st (sc_pop st1 s) /\ (valid_scope st s -> stack_of (sc_pop st1 s) s = stack_of st s).
Proof.
  intros [L H]. unfold sc_push in L. rewrite set_stack_len in L.
  destruct (Nat.lt_ge_cases s (List.length (st_scopes st))) as [Hv|Hv].
  - assert (Hs : stack_of (sc_pop st1 s) s = stack_of st s).
    { unfold sc_pop. rewrite stack_set_stack by (unfold valid_scope; lia).
      destruct (H s) as [-> _]. unfold sc_push. now rewrite stack_set_stack. }
    split; [|auto]. split; [unfold sc_pop; rewrite set_stack_len; congruence|].
    intros s'. destruct (Nat.eq_dec s s') as [<-|Hn]; [rewrite Hs; auto|].
    unfold sc_pop. rewrite stack_set_other by exact Hn. destruct (H s') as [A B].
    unfold sc_push in A, B. rewrite stack_set_other in A, B by exact Hn. auto.
  - split; [|unfold valid_scope; lia]. split; [unfold sc_pop; rewrite set_stack_len; congruence|].
    intros s'. unfold sc_pop. rewrite set_stack_dead by (unfold valid_scope; lia).
    destruct (H s') as [A B]. unfold sc_push in A, B.
    rewrite set_stack_dead in A, B by (unfold valid_scope; lia). auto.
Qed.

Definition keeps (rec : recT) : Prop :=
  forall m c s st r st', rec m c s st = Ret r st' -> outer_scopes_kept st st'.

Lemma error_token_at_kept E P msg r st x st' :
  error_token_at E P msg r st = Ret x st' -> outer_scopes_kept st st'.
Proof.
  unfold error_token_at. destruct (error_string E P msg r); [|discriminate].
  intros H. injection H as _ <-. apply kept_alloc.
Qed.

Lemma map_ok_kept E P f a c s st r st' : scope_tame E ->
  map_ok E P f a c s st = Ret r st' -> outer_scopes_kept st st'.
Proof.
  intros HE H. assert (He : forall msg rg x st2, error_token_at E P msg rg st = Ret x st2 -> outer_scopes_kept st st2)
    by (intros; eapply error_token_at_kept; eauto).
  destruct f; cbn [map_ok] in H.
  - destruct HE as (Hok & _). eapply Hok; eauto.
  - destruct (error_string E P _ _); [|discriminate]. injection H as _ <-. apply kept_refl.
  - injection H as _ <-. apply kept_refl.
  - eauto.
  - injection H as _ <-. apply kept_refl.
  - injection H as _ <-. apply kept_tok.
  - injection H as _ <-. apply kept_tok.
  - destruct (attributes_of st a); [|discriminate]. injection H as _ <-. apply kept_tok.
  - injection H as _ <-. apply kept_tok.
  - destruct (attributes_of st a) as [l|]; [|discriminate].
    assert (Hm : outer_scopes_kept st (modify st a (set_attrs l))) by apply kept_tok.
    destruct (get_attr "version" _).
    + destruct (parse_usize _); [injection H as _ <-; exact Hm|].
      destruct (version_attr l); [|discriminate].
      eapply kept_trans; [exact Hm|eapply error_token_at_kept; eauto].
    + eapply kept_trans; [exact Hm|eapply error_token_at_kept; eauto].
  - destruct (re _ <? _).
    + destruct (src_slice P _ _); [|discriminate]. unfold error_token in H. eauto.
    + injection H as _ <-. apply kept_refl.
  - destruct (find_child st (tok st a) "AdextopaScope").
    + injection H as _ <-. apply kept_refl.
    + destruct (find_child st (tok st a) "PatternScope"); [injection H as _ <-; apply kept_refl|eauto].
Qed.
Lemma map_err_kept E P f e c s st r st' : scope_tame E ->
  map_err E P f e c s st = Ret r st' -> outer_scopes_kept st st'.
Proof.
  intros HE H. destruct HE as (_ & Herr & _).
  destruct f, e; cbn [map_err] in H;
    try (injection H as _ <-; apply kept_refl);
    try (eapply Herr; now eauto).
  - destruct (error_string E P _ (c_off c)); [|discriminate]. injection H as _ <-. apply kept_refl.
  - unfold error_token in H. eapply error_token_at_kept; eauto.
Qed.

Lemma skip_token_kept E P start a st x st' :
  skip_token E P start a st = Ret x st' -> outer_scopes_kept st st'.
Proof.
  intros H. unfold skip_token in H. destruct (error_tokens _ st a) as [l|]; [|discriminate].
  destruct l as [|e l].
  - destruct (or_die _ _); [|discriminate]. injection H as _ <-. apply kept_alloc.
  - injection H as _ <-. apply kept_alloc.
Qed.
Lemma discard_kept E P start r st r' st' :
  discard_result E P start r st = Ret r' st' -> outer_scopes_kept st st'.
Proof.
  assert (Hp : forall p x st2, discard_payload E P start p st = Ret x st2 -> outer_scopes_kept st st2).
  { intros p x st2 H. destruct p; cbn [discard_payload] in H; try discriminate;
      try (injection H as _ <-; apply kept_refl); eapply skip_token_kept; eauto. }
  intros H. destruct r as [x|e].
  - destruct x; cbn [discard_result] in H; try (injection H as _ <-; apply kept_refl).
    + destruct (skip_token E P start a st) eqn:Ey; try discriminate. injection H as _ <-. eapply skip_token_kept; eauto.
    + destruct (skip_token E P start a st) eqn:Ey; try discriminate. injection H as _ <-. eapply skip_token_kept; eauto.
    + destruct (discard_payload E P start x st) eqn:Ey; try discriminate. injection H as _ <-. eauto.
    + destruct (discard_payload E P start x st) eqn:Ey; try discriminate. injection H as _ <-. eauto.
  - injection H as _ <-. apply kept_refl.
Qed.

Section ProgramKept.
  Variables (E : env) (P : parser) (rec : recT).
  Hypothesis Hrec : keeps rec.

  Lemma add_token_kept pt a fwd u ps st ps' st' :
    add_token P pt a fwd u ps st = Ret ps' st' -> outer_scopes_kept st st'.
  Proof.
    unfold add_token. destruct (_ && _ && _ && _); [discriminate|]. intros H. injection H as _ <-. apply kept_tok.
  Qed.
  Lemma extract_kept pt self u l : forall ps st ps' st',
    extract_children P pt self u l ps st = Ret ps' st' -> outer_scopes_kept st st'.
  Proof.
    induction l as [|k l IH]; intros ps st ps' st' H; cbn [extract_children] in H.
    - injection H as _ <-. apply kept_refl.
    - destruct (should_discard _); [eauto|]. destruct (Nat.eqb k self); [discriminate|].
      destruct (add_token P pt k false u ps st) eqn:Ea; try discriminate.
      eapply kept_trans; [eapply add_token_kept; eauto|eauto].
  Qed.
  Lemma handle_skip_kept start z ps st ps' st' :
    handle_skip E start z ps st = Ret ps' st' -> outer_scopes_kept st st'.
  Proof.
    unfold handle_skip. destruct (or_die _ _); [|discriminate]. intros H. injection H as _ <-. apply kept_refl.
  Qed.
  Lemma handle_payload_kept pt start p ps st ps' st' :
    handle_payload E P pt start p ps st = Ret ps' st' -> outer_scopes_kept st st'.
  Proof.
    intros H. destruct p; cbn [handle_payload] in H; try (injection H as _ <-; apply kept_refl).
    - eapply add_token_kept; eauto.
    - eapply extract_kept; eauto.
    - eapply handle_skip_kept; eauto.
  Qed.
  Lemma finalize_kept i pt ps count strict st r st' :
    finalize P i pt ps count strict st = Ret r st' -> outer_scopes_kept st st'.
  Proof.
    intros H. unfold finalize in H.
    repeat match type of H with (match ?x with _ => _ end) = _ => destruct x end;
      injection H as _ <-; try apply kept_refl; apply kept_tok.
  Qed.

  Lemma run_patterns_kept i c s pt start count pats : forall ps st k ps' st',
    run_patterns E P rec i c s pt start count pats ps st = Ret (k, ps') st' -> outer_scopes_kept st st'.
  Proof.
    induction pats as [|m pats IH]; intros ps st k ps' st' H; cbn [run_patterns] in H.
    - injection H as _ _ <-. apply kept_refl.
    - destruct (rec m _ s st) as [r st1|p|] eqn:Er; try discriminate. apply Hrec in Er.
      apply (kept_trans st st1); [exact Er|].
      destruct r as [[a|a|z|nm p|nm p| |]|e]; try (injection H as _ _ <-; apply kept_refl).
      + destruct (should_discard _); [eauto|]. destruct (pi_stop i); [injection H as _ _ <-; apply kept_refl|].
        destruct (handle_token _ _ _ _ _ _ _) eqn:Ea; try discriminate.
        eapply kept_trans; [eapply add_token_kept; eauto|eauto].
      + destruct (should_discard _); [eauto|]. destruct (pi_stop i); [injection H as _ _ <-; apply kept_refl|].
        destruct (handle_extract _ _ _ _ _ _) eqn:Ea; try discriminate.
        eapply kept_trans; [eapply extract_kept; eauto|eauto].
      + destruct (_ && _); [injection H as _ _ <-; apply kept_refl|]. destruct (m_consuming m); [|eauto].
        destruct (handle_skip _ _ _ _ _) eqn:Ea; try discriminate.
        eapply kept_trans; [eapply handle_skip_kept; eauto|eauto].
      + destruct (dbg E P _ 10); [|discriminate]. destruct e; [|injection H as _ _ <-; apply kept_refl].
        destruct (pi_stop i); [eauto|]. destruct (pi_iter i); [|injection H as _ _ <-; apply kept_refl].
        destruct (finalize _ _ _ _ _ _ _) eqn:Ef; try discriminate. injection H as _ _ <-. eapply finalize_kept; eauto.
  Qed.

  Lemma iterate_kept pats i c s pt start : forall f left count ps st r st',
    iterate f E P rec pats i c s pt start left count ps st = Ret r st' -> outer_scopes_kept st st'.
  Proof.
    induction f as [|f IH]; intros left count ps st r st' H; cbn [iterate] in H.
    - destruct (left =? 0); [|discriminate]. eapply finalize_kept; eauto.
    - destruct (left =? 0); [eapply finalize_kept; eauto|].
      destruct (run_patterns _ _ _ _ _ _ _ _ _ _ _ _) as [[k ps1] st1|p|] eqn:Er; try discriminate.
      apply run_patterns_kept in Er. apply (kept_trans st st1); [exact Er|].
      destruct k as [|x|r0]; [eauto| |injection H as _ <-; apply kept_refl].
      destruct x as [a|a|z|nm p|nm p| |]; try discriminate.
      + destruct (pi_stop i); [injection H as _ <-; apply kept_refl|].
        destruct (handle_payload _ _ _ _ _ _ _) as [ps2 st2|q|] eqn:Eh; try discriminate.
        apply handle_payload_kept in Eh. apply (kept_trans st1 st2); [exact Eh|].
        destruct (finalize _ _ _ _ _ _ _) as [y st3|q|] eqn:Ef; try discriminate. apply finalize_kept in Ef.
        destruct (is_target i nm); [injection H as _ <-; exact Ef|].
        destruct y; injection H as _ <-; exact Ef.
      + destruct (pi_stop i); [injection H as _ <-; apply kept_refl|].
        destruct (handle_payload _ _ _ _ _ _ _) as [ps2 st2|q|] eqn:Eh; try discriminate.
        apply handle_payload_kept in Eh. apply (kept_trans st1 st2); [exact Eh|].
        destruct (is_target i nm); [eauto|eapply finalize_kept; eauto].
      + eapply finalize_kept; eauto.
  Qed.
End ProgramKept.

Lemma register_kept s ms : forall st,
  outer_scopes_kept st (fold_left (fun st m => sc_set st s (m_name m) (VMatcher m)) ms st).
Proof.
  induction ms as [|m ms IH]; intros st; cbn [fold_left]; [apply kept_refl|].
  eapply kept_trans; [apply kept_set|apply IH].
Qed.

Lemma step_keeps E P rec fuel : scope_tame E -> keeps rec -> keeps (step fuel E P rec).
Proof.
  intros HE Hrec m c s st0 r st' H. unfold step in H.
  apply (kept_trans st0 (before_exec m s st0)); [apply kept_before|].
  set (st := before_exec m s st0) in *. clearbody st. clear st0.
  destruct m as [pats i|p name cust|f name cust|fs fe fx name cust|m1|m1|m1| |msg|msg|nm|m1 k|m1 f
                |om off name cust|p name cust|name|ms|t name cust|o m1|m1 name cust|m1|om d|k name cust cons];
    cbn [m_name m_custom] in H.
  - unfold exec_program in H. eapply kept_trans; [apply kept_alloc|]. eapply iterate_kept; [exact Hrec|exact H].
  - repeat match type of H with
    | (let! _ := ?x in _) = _ => destruct x; [|discriminate]
    | (match ?x with _ => _ end) = _ => destruct x
    end; try discriminate; injection H as _ <-; first [apply kept_refl|apply kept_alloc].
  - repeat match type of H with
    | (let! _ := ?x in _) = _ => destruct x; [|discriminate]
    | (match ?x with _ => _ end) = _ => destruct x
    end; try discriminate; injection H as _ <-; first [apply kept_refl|apply kept_alloc].
  - unfold exec_sequence in H. repeat match type of H with
    | (let! _ := ?x in _) = _ => destruct x; [|discriminate]
    | (match ?x with _ => _ end) = _ => destruct x
    end; try discriminate; injection H as _ <-; first [apply kept_refl|apply kept_alloc].
  - destruct (rec m1 _ s st) as [r0 st1|p|] eqn:E1; try discriminate. apply Hrec in E1.
    destruct r0 as [[a|a|z|b q|b q| |]|[|e]]; try (injection H as _ <-; exact E1).
    destruct (z =? 0)%Z; injection H as _ <-; exact E1.
  - destruct (rec m1 _ s st) as [r0 st1|p|] eqn:E1; try discriminate. apply Hrec in E1.
    destruct r0 as [x|[|e]]; injection H as _ <-; exact E1.
  - destruct (rec m1 _ s st) as [r0 st1|p|] eqn:E1; try discriminate. apply Hrec in E1.
    eapply kept_trans; [exact E1|eapply discard_kept; eauto].
  - injection H as _ <-. apply kept_refl.
  - destruct (error_string E P msg _); [|discriminate]. injection H as _ <-. apply kept_refl.
  - eapply error_token_at_kept; eauto.
  - injection H as _ <-. apply kept_refl.
  - destruct (rec m1 _ s st) as [r0 st1|p|] eqn:E1; try discriminate. apply Hrec in E1.
    destruct r0; [injection H as _ <-; exact E1|]. destruct HE as (_ & _ & Hc & _).
    eapply kept_trans; [exact E1|eapply Hc; eauto].
  - destruct (rec m1 _ s st) as [r0 st1|p|] eqn:E1; try discriminate. apply Hrec in E1.
    destruct r0 as [[a|a|z|b q|b q| |]|e]; try (injection H as _ <-; exact E1).
    + eapply kept_trans; [exact E1|eapply map_ok_kept; eauto].
    + eapply kept_trans; [exact E1|eapply map_ok_kept; eauto].
    + eapply kept_trans; [exact E1|eapply map_err_kept; eauto].
  - destruct (fetch_value st s off) as [[v|m2]|]; [| |discriminate]; [|injection H as _ <-; apply kept_refl].
    destruct (pin_context E _ v); [|discriminate]. destruct om as [m1|]; [eapply Hrec; eauto|].
    injection H as _ <-. apply kept_alloc.
  - destruct p as [m1|v].
    + destruct (rec m1 _ s st) as [r0 st1|p|] eqn:E1; try discriminate. apply Hrec in E1.
      destruct r0 as [[a|a|z|b q|b q| |]|e]; injection H as _ <-; try exact E1.
      eapply kept_trans; [exact E1|apply kept_set].
    + injection H as _ <-. apply kept_set.
  - injection H as _ <-. apply kept_refl.
  - injection H as _ <-. apply register_kept.
  - destruct (fetch_value st s t) as [[v|m1]|]; [| |discriminate]; [|eapply Hrec; eauto].
    destruct (sc_get st s v) as [[ | | ]|]; try (injection H as _ <-; apply kept_refl). eapply Hrec; eauto.
  - destruct o as [s1|]; [eapply Hrec; eauto|].
    destruct (rec m1 _ (c_scope c) (sc_push st (c_scope c))) as [r0 st1|p|] eqn:E1; try discriminate.
    injection H as _ <-. apply Hrec in E1. now apply kept_nested.
  - destruct (rec m1 _ s st) as [r0 st1|p|] eqn:E1; try discriminate. apply Hrec in E1.
    destruct r0 as [[a|a|z|b q|b q| |]|e]; try (injection H as _ <-; exact E1);
      destruct q; injection H as _ <-; exact E1.
  - destruct (rec m1 _ s st) as [r0 st1|p|] eqn:E1; try discriminate. apply Hrec in E1.
    destruct r0 as [[a|a|z|b q|b q| |]|e]; injection H as _ <-;
      first [exact E1|eapply kept_trans; [exact E1|apply kept_alloc]|eapply kept_trans; [exact E1|apply kept_tok]].
  - destruct om as [m1|].
    + destruct (debug_range E P _ 10); [|discriminate]. eapply Hrec; eauto.
    + destruct (debug_range E P _ 10); [|discriminate]. injection H as _ <-. apply kept_refl.
  - destruct HE as (_ & _ & _ & Hu). eapply Hu; eauto.
Qed.

Lemma exec_keeps E P : scope_tame E -> forall n, keeps (exec n E P).
Proof.
  intros HE. induction n as [|n IH]; [intros m c s st r st' H; discriminate|]. now apply step_keeps.
Qed.

Lemma runs_kept E P m c s st r st' : scope_tame E -> Runs E P m c s st r st' -> outer_scopes_kept st st'.
Proof. intros HE [n H]. eapply exec_keeps; eauto. Qed.

(* a matcher in a scope of its own *)
Lemma set_scope_restores E P m c s st r st' : scope_tame E -> valid_scope st (c_scope c) ->
  Runs E P (MSetScope None m) c s st r st' -> stack_of st' (c_scope c) = stack_of st (c_scope c).
Proof.
  intros HE Hv [n H]. destruct n as [|n]; [discriminate|]. cbn [exec] in H. unfold step in H.
  cbn [before_exec m_custom] in H. change (before_exec (MSetScope None m) s st) with st in H.
  destruct (exec n E P m _ (c_scope c) (sc_push st (c_scope c))) as [r0 st1|p|] eqn:E1; try discriminate.
  injection H as _ <-. apply exec_keeps in E1; [|exact HE]. now apply kept_nested.
Qed.

Lemma kept_depth st st' s : outer_scopes_kept st st' ->
  List.length (stack_of st' s) = List.length (stack_of st s) \/
  (stack_of st s = [] /\ List.length (stack_of st' s) = 1%nat).
Proof.
  intros [_ H]. destruct (H s) as [A B]. destruct (stack_of st s) as [|x l], (stack_of st' s) as [|y l'];
    cbn [tl] in A; subst; auto.
  exfalso. apply B; [discriminate|reflexivity].
Qed.

Lemma runs_balanced E P m c s st r st' : scope_tame E -> Runs E P m c s st r st' ->
  forall s', List.length (stack_of st' s') = List.length (stack_of st s') \/
  (stack_of st s' = [] /\ List.length (stack_of st' s') = 1%nat).
Proof. intros HE H s'. apply kept_depth. eapply runs_kept; eauto. Qed.

(* ---------- written ranges ---------- *)

Lemma written_loop E P c s st pats lo hi o : c_debug c = 0 -> o <> Never ->
  Does E P (LoopR (Included lo) (Excluded hi) pats) c s st o <->
  loops E P c (mkPI "Loop" (Some (lo, hi)) false false) lo s (List.length (st_heap st)) pats (hi - lo) 0 []
    (rs (c_off c)) (program_start P pats (mkPI "Loop" (Some (lo, hi)) false false) s st) o.
Proof.
  intros Hd Ho. unfold LoopR. change (get_range (Included lo) (Excluded hi)) with (lo, hi). split.
  - now apply does_loop.
  - now apply loop_does.
Qed.
Lemma inclusive_loop E P c s st v lo hi k :
  c_debug c = 0 -> v <> [] -> literal_run (p_src P) v (c_off c) k -> slen (p_src P) < usize_max ->
  (0 < k)%nat -> lo + N.of_nat k < usize_max ->
  exists st', let pt := List.length (st_heap st) in
    Runs E P (LoopR (Included lo) (Included hi) [Equals_ v]) c s st (Ok (SToken pt)) st' /\
    literal_row st' pt "Equals" v (rs (c_off c)) k.
Proof.
  intros Hd Hv Hl Hs Hk Hu. unfold LoopR. change (get_range (Included lo) (Included hi)) with (lo, usize_max).
  destruct (literal_stops E P c (mkPI "Loop" (Some (lo, usize_max)) false false) s st v "Equals" false lo usize_max k)
    as (st' & _ & H); auto; [lia|]. exists st'. now apply H.
Qed.
