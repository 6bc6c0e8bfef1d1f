(* Not, Optional, Discard, Switch, Store, Ref, Map, Catch (C12-C15, C24, C25, C34, C35). *)
From Verif Require Export AtomProofs.
Open Scope string_scope.
Open Scope list_scope.
Open Scope N_scope.

(* outcome of a matcher that executes one other matcher and then does [k] *)
Definition after (k : mres -> state -> res mres) (o0 : outcome) : outcome :=
  match o0 with
  | Done r st => match k r st with Ret r' st' => Done r' st' | Pan p => Panicked p | OOF => Never end
  | x => x
  end.

Lemma does_bind E P M m c c' s s' st st0 k :
  (forall n, exec (S n) E P M c s st = (do r, st1 <- exec n E P m c' s' st0; k r st1)) ->
  forall o0, Does E P m c' s' st0 o0 -> Does E P M c s st (after k o0).
Proof.
  intros H [r st1|p|] D; cbn [after Does] in *.
  - destruct D as [n D]. destruct (k r st1) as [r' st'|p|] eqn:Ek; cbn [Does].
    + exists (S n). now rewrite H, D.
    + exists (S n). now rewrite H, D.
    + intros [|n']; [reflexivity|]. rewrite H.
      destruct (exec n' E P m c' s' st0) as [r2 st2|p2|] eqn:En; [|exfalso|reflexivity].
      * assert (exec n E P m c' s' st0 = exec n' E P m c' s' st0) as Eq
          by (apply exec_unique; congruence).
        rewrite D, En in Eq. injection Eq as <- <-. exact Ek.
      * assert (exec n E P m c' s' st0 = exec n' E P m c' s' st0) as Eq
          by (apply exec_unique; congruence). congruence.
  - destruct D as [n D]. exists (S n). now rewrite H, D.
  - intros [|n]; [reflexivity|]. now rewrite H, D.
Qed.

Lemma does_bind_iff E P M m c c' s s' st st0 k :
  (forall n, exec (S n) E P M c s st = (do r, st1 <- exec n E P m c' s' st0; k r st1)) ->
  (forall r st1, k r st1 <> OOF) ->
  forall o, Does E P M c s st o <-> exists o0, Does E P m c' s' st0 o0 /\ o = after k o0.
Proof.
  intros H Hk o. split.
  - destruct o as [r st'|p|]; cbn [Does]; intros D.
    + apply (runs_bind E P M m c c' s s' st st0 k H) in D as (r0 & st1 & D & Ek).
      exists (Done r0 st1). split; [exact D|]. cbn. now rewrite Ek.
    + apply (panics_bind E P M m c c' s s' st st0 k H) in D as [D|(r0 & st1 & D & Ek)].
      * now exists (Panicked p).
      * exists (Done r0 st1). split; [exact D|]. cbn. now rewrite Ek.
    + apply (diverges_bind E P M m c c' s s' st st0 k H Hk) in D. now exists Never.
  - intros (o0 & D & ->). now apply (does_bind E P M m c c' s s' st st0 k H).
Qed.

Lemma does_det E P m c s st o o' :
  Does E P m c s st o -> Does E P m c s st o' -> o = o'.
Proof.
  destruct o as [r st1|p|], o' as [r' st1'|p'|]; cbn [Does]; intros D D'; auto.
  - destruct (runs_det _ _ _ _ _ _ _ _ _ _ D D'). congruence.
  - exfalso. eapply runs_not_panics; eauto.
  - exfalso. eapply runs_not_diverges; eauto.
  - exfalso. eapply runs_not_panics; eauto.
  - f_equal. eapply panics_det; eauto.
  - exfalso. eapply panics_not_diverges; eauto.
  - exfalso. eapply runs_not_diverges; eauto.
  - exfalso. eapply panics_not_diverges; eauto.
Qed.

Lemma tok_alloc_new st t : tok (alloc st t) (next_addr st) = t.
Proof. unfold tok, alloc, next_addr. cbn. rewrite app_nth2, Nat.sub_diag by lia. reflexivity. Qed.
Lemma tok_alloc_old st t a : (a < List.length (st_heap st))%nat -> tok (alloc st t) a = tok st a.
Proof. intros H. unfold tok, alloc. cbn. now rewrite app_nth1. Qed.

(* ---------- C12: Not ---------- *)

Definition not_k (r : mres) (st : state) : res mres :=
  match r with
  | Ok (SToken _) | Ok (SProxy _) => Ret (Err FFail) st
  | Ok (SSkip z) => if (z =? 0)%Z then Ret r st else Ret (Err FFail) st
  | Ok _ => Ret r st
  | Err FFail => Ret (Ok (SSkip 0)) st
  | Err (FError _) => Ret r st
  end.

Lemma not_unfold E P m c s st n :
  exec (S n) E P (MNot m) c s st
  = (do r, st1 <- exec n E P m (clone_with_name c "Not") s st; not_k r st1).
Proof. reflexivity. Qed.

Lemma not_k_fin r st : not_k r st <> OOF.
Proof. destruct r as [[]|[]]; cbn; try discriminate. destruct (z =? 0)%Z; discriminate. Qed.

Lemma not_runs E P m c s st r st' :
  Runs E P (MNot m) c s st r st' <->
  exists r0, Runs E P m (clone_with_name c "Not") s st r0 st' /\
    match r0 with
    | Err FFail => r = Ok (SSkip 0)
    | Ok (SToken _) | Ok (SProxy _) => r = Err FFail
    | Ok (SSkip z) => (z = 0%Z /\ r = Ok (SSkip 0)) \/ (z <> 0%Z /\ r = Err FFail)
    | _ => r = r0
    end.
Proof.
  rewrite (runs_bind E P (MNot m) m c _ s s st st not_k (not_unfold E P m c s st)). split.
  - intros (r0 & st1 & D & Hk). destruct r0 as [[a|a|z|b p|b p| |]|[|e]]; cbn in Hk;
      try (injection Hk as <- <-; eexists; split; [exact D|reflexivity]).
    destruct (Z.eqb_spec z 0) as [->|Hz]; injection Hk as <- <-; eexists; (split; [exact D|]); cbn; auto.
  - intros (r0 & D & Hr). exists r0, st'. split; [exact D|].
    destruct r0 as [[a|a|z|b p|b p| |]|[|e]]; cbn; subst; try reflexivity.
    destruct Hr as [[-> ->]|[Hz ->]]; [reflexivity|].
    now destruct (Z.eqb_spec z 0).
Qed.

Lemma not_panics E P m c s st p :
  Panics E P (MNot m) c s st p <-> Panics E P m (clone_with_name c "Not") s st p.
Proof.
  rewrite (panics_bind E P (MNot m) m c _ s s st st not_k (not_unfold E P m c s st)).
  split; [intros [H|(r0 & st1 & _ & H)]; auto|auto].
  destruct r0 as [[]|[]]; cbn in H; try discriminate. destruct (z =? 0)%Z; discriminate.
Qed.
Lemma not_diverges E P m c s st :
  Diverges E P (MNot m) c s st <-> Diverges E P m (clone_with_name c "Not") s st.
Proof.
  apply (diverges_bind E P (MNot m) m c _ s s st st not_k (not_unfold E P m c s st)), not_k_fin.
Qed.

Lemma not_never_consumes E P m c s st r st' :
  Runs E P (MNot m) c s st r st' ->
  (forall a, r <> Ok (SToken a) /\ r <> Ok (SProxy a)) /\ (forall z, r = Ok (SSkip z) -> z = 0%Z).
Proof.
  intros H. apply not_runs in H as (r0 & _ & H).
  split; intros x; [|intros ->]; destruct r0 as [[]|[]]; try (subst; split; discriminate); try congruence.
  all: destruct H as [[_ H]|[_ H]]; try (subst; split; discriminate); congruence.
Qed.

(* a double negation cannot tell a match from a failure *)
Lemma double_not E P m c s st r st' :
  Runs E P m (clone_with_name c "Not") s st r st' ->
  r = Err FFail \/ (exists a, r = Ok (SToken a) \/ r = Ok (SProxy a)) \/ (exists z, r = Ok (SSkip z)) ->
  Runs E P (MNot (MNot m)) c s st (Ok (SSkip 0)) st'.
Proof.
  intros H Hr. apply not_runs.
  assert (Hin : forall r1, Runs E P (MNot m) (clone_with_name c "Not") s st r1 st' <->
    exists r0, Runs E P m (clone_with_name c "Not") s st r0 st' /\
    match r0 with
    | Err FFail => r1 = Ok (SSkip 0)
    | Ok (SToken _) | Ok (SProxy _) => r1 = Err FFail
    | Ok (SSkip z) => (z = 0%Z /\ r1 = Ok (SSkip 0)) \/ (z <> 0%Z /\ r1 = Err FFail)
    | _ => r1 = r0
    end) by (intros r1; exact (not_runs E P m (clone_with_name c "Not") s st r1 st')).
  destruct Hr as [->|[(a & [->| ->])|[z ->]]].
  - exists (Ok (SSkip 0)). split; [apply Hin; eexists; split; [exact H|reflexivity]|cbn; auto].
  - exists (Err FFail). split; [apply Hin; eexists; split; [exact H|reflexivity]|reflexivity].
  - exists (Err FFail). split; [apply Hin; eexists; split; [exact H|reflexivity]|reflexivity].
  - destruct (Z.eq_dec z 0) as [->|Hz].
    + exists (Ok (SSkip 0)). split; [apply Hin; eexists; split; [exact H|cbn; auto]|cbn; auto].
    + exists (Err FFail). split; [apply Hin; eexists; split; [exact H|cbn; auto]|reflexivity].
Qed.

(* ---------- C13: Optional ---------- *)

Definition optional_k (r : mres) (st : state) : res mres :=
  match r with Err FFail => Ret (Ok (SSkip 0)) st | _ => Ret r st end.

Lemma optional_unfold E P m c s st n :
  exec (S n) E P (MOptional m) c s st
  = (do r, st1 <- exec n E P m (clone_with_name c "Optional") s st; optional_k r st1).
Proof. reflexivity. Qed.

Lemma optional_runs E P m c s st r st' :
  Runs E P (MOptional m) c s st r st' <->
  (r = Ok (SSkip 0) /\ Runs E P m (clone_with_name c "Optional") s st (Err FFail) st') \/
  (r <> Err FFail /\ Runs E P m (clone_with_name c "Optional") s st r st').
Proof.
  rewrite (runs_bind E P (MOptional m) m c _ s s st st optional_k (optional_unfold E P m c s st)). split.
  - intros (r0 & st1 & D & Hk). destruct r0 as [x|[|e]]; cbn in Hk; injection Hk as <- <-; auto.
    + right. split; [discriminate|exact D].
    + right. split; [discriminate|exact D].
  - intros [[-> D]|[Hr D]].
    + eexists _, _. split; [exact D|reflexivity].
    + exists r, st'. split; [exact D|]. destruct r as [x|[|e]]; [reflexivity|congruence|reflexivity].
Qed.
Lemma optional_k_fin r st : optional_k r st <> OOF.
Proof. destruct r as [|[]]; discriminate. Qed.
Lemma optional_panics E P m c s st p :
  Panics E P (MOptional m) c s st p <-> Panics E P m (clone_with_name c "Optional") s st p.
Proof.
  rewrite (panics_bind E P (MOptional m) m c _ s s st st optional_k (optional_unfold E P m c s st)).
  split; [intros [H|(r0 & st1 & _ & H)]; auto|auto]. destruct r0 as [|[]]; discriminate.
Qed.
Lemma optional_diverges E P m c s st :
  Diverges E P (MOptional m) c s st <-> Diverges E P m (clone_with_name c "Optional") s st.
Proof.
  apply (diverges_bind E P (MOptional m) m c _ s s st st optional_k (optional_unfold E P m c s st)), optional_k_fin.
Qed.
Lemma optional_never_fails E P m c s st st' : ~ Runs E P (MOptional m) c s st (Err FFail) st'.
Proof. intros H. apply optional_runs in H as [[H _]|[H _]]; congruence. Qed.

Lemma optional_idempotent E P m c s st :
  same_outcomes E P (MOptional (MOptional m)) c s st (MOptional m) c s st.
Proof.
  assert (R : forall r st', Runs E P (MOptional m) (clone_with_name c "Optional") s st r st'
                     <-> Runs E P (MOptional m) c s st r st')
    by (intros; rewrite !optional_runs; reflexivity).
  intros [r st'|p|]; cbn [Does].
  - rewrite optional_runs, !R. split.
    + intros [[_ H]|[_ H]]; [|exact H]. now apply optional_never_fails in H.
    + intros H. right. split; [|exact H]. intros ->. now apply optional_never_fails in H.
  - rewrite !optional_panics. reflexivity.
  - rewrite !optional_diverges. reflexivity.
Qed.

(* ---------- C14: Discard ---------- *)

Lemma preorder_det st roots l : preorder st roots l -> forall l', preorder st roots l' -> l = l'.
Proof.
  induction 1 as [|a roots l1 l2 H1 IH1 H2 IH2]; intros l' H'; inversion H'; subst; [reflexivity|].
  erewrite IH1, IH2; eauto.
Qed.

Lemma error_tokens_fold f st kids : forall acc,
  fold_left (fun acc k => match acc, error_tokens f st k with
                          | Some l, Some l' => Some (l ++ l') | _, _ => None end) kids acc
  = match acc, fold_left (fun acc k => match acc, error_tokens f st k with
                          | Some l, Some l' => Some (l ++ l') | _, _ => None end) kids (Some []) with
    | Some l, Some l' => Some (l ++ l') | _, _ => None end.
Proof.
  induction kids as [|k kids IH]; intros acc; cbn [fold_left].
  - destruct acc; [now rewrite app_nil_r|reflexivity].
  - rewrite IH. symmetry. rewrite IH. symmetry.
    destruct acc as [l|], (error_tokens f st k) as [l'|]; cbn [app]; try reflexivity.
    destruct (fold_left _ kids (Some [])); [now rewrite app_assoc|reflexivity].
Qed.

Lemma dead_tok st a : (List.length (st_heap st) <= a)%nat -> tok st a = dead_token.
Proof. intros H. unfold tok. now apply nth_overflow. Qed.

(* [path] are the ancestors: distinct, allocated, each with a longer listing *)
Lemma error_tokens_ok st roots l : preorder st roots l ->
  forall path f,
  NoDup path -> (forall x, In x path -> (x < List.length (st_heap st))%nat) ->
  (forall x lx, In x path -> preorder st [x] lx -> (List.length l < List.length lx)%nat) ->
  (List.length (st_heap st) < List.length path + f)%nat ->
  fold_left (fun acc k => match acc, error_tokens f st k with
                          | Some l, Some l' => Some (l ++ l') | _, _ => None end) roots (Some [])
  = Some (filter (fun x => is_error (tok st x)) l).
Proof.
  induction 1 as [|a roots l1 l2 H1 IH1 H2 IH2]; intros path f Hnd Hin Hlong Hf; [reflexivity|].
  cbn [fold_left].
  assert (Hf1 : exists f', f = S f').
  { destruct f; [exfalso|eauto]. assert (List.length path <= List.length (st_heap st))%nat; [|lia].
    rewrite <- (seq_length (List.length (st_heap st)) 0). apply NoDup_incl_length; [assumption|].
    intros x Hx. apply in_seq. specialize (Hin x Hx). lia. }
  destruct Hf1 as [f' ->]. rewrite error_tokens_fold.
  rewrite IH2 with (path := path); auto.
  2:{ intros x lx Hx Hlx. specialize (Hlong x lx Hx Hlx). cbn in Hlong. rewrite app_length in Hlong. lia. }
  cbn [error_tokens].
  assert (Hself : preorder st [a] (a :: l1)).
  { pose proof (pre_cons st a [] l1 [] H1 (pre_nil st)) as H. now rewrite app_nil_r in H. }
  assert (Hkids : fold_left (fun acc k => match acc, error_tokens f' st k with
                          | Some l, Some l' => Some (l ++ l') | _, _ => None end) (tk_kids (tok st a)) (Some [])
                  = Some (filter (fun x => is_error (tok st x)) l1)).
  { destruct (Nat.lt_ge_cases a (List.length (st_heap st))) as [Ha|Ha].
    - apply IH1 with (path := a :: path).
      + constructor; [|assumption]. intros Hx. specialize (Hlong a _ Hx Hself). cbn in Hlong.
        rewrite app_length in Hlong. lia.
      + intros x [<-|Hx]; auto.
      + intros x lx [<-|Hx] Hlx.
        * rewrite (preorder_det _ _ _ Hlx _ Hself). cbn. lia.
        * specialize (Hlong x lx Hx Hlx). cbn in Hlong. rewrite app_length in Hlong. lia.
      + cbn [List.length]. lia.
    - rewrite dead_tok in * by assumption. cbn [tk_kids dead_token] in *.
      inversion H1; subst. reflexivity. }
  rewrite error_tokens_fold, Hkids. cbn [filter app]. destruct (is_error (tok st a)); cbn [app filter].
  - now rewrite filter_app.
  - now rewrite filter_app.
Qed.

Lemma error_tokens_spec st a l : errors_below st a l ->
  error_tokens (S (List.length (st_heap st))) st a = Some l.
Proof.
  intros (all & Hp & ->).
  pose proof (error_tokens_ok st [a] all Hp [] (S (List.length (st_heap st)))) as H.
  cbn [fold_left] in H.
  assert (Hx : match error_tokens (S (List.length (st_heap st))) st a with
               | Some l' => Some ([] ++ l') | None => None end
               = Some (filter (fun x => is_error (tok st x)) all)).
  { apply H; try constructor; try (intros x []); cbn; try lia; intros ? []. }
  destruct (error_tokens _ st a); [exact Hx|discriminate].
Qed.

Lemma widen_fields P r t :
  let t' := widen P r t in
  tk_kind t' = tk_kind t /\ tk_name t' = tk_name t /\ tk_kids t' = tk_kids t /\ tk_cr t' = tk_cr t
  /\ tk_flags t' = tk_flags t /\ tk_parent t' = tk_parent t /\ tk_attrs t' = tk_attrs t
  /\ tk_value t' = tk_value t
  /\ rs (tk_mr t') = N.min (rs r) (rs (tk_mr t)) /\ re (tk_mr t') = N.max (re (tk_mr t)) (re r).
Proof.
  unfold widen. cbn [rs re].
  destruct (N.ltb_spec (rs r) (rs (tk_mr t))), (N.ltb_spec (re (tk_mr t)) (re r));
    destruct (_ || _) eqn:Eb; cbn; repeat split; auto; try lia.
Qed.

Lemma add_errors_spec P st start stop : forall l done t,
  discard_token st start stop done t ->
  discard_token st start stop (done ++ l) (add_errors P st l t).
Proof.
  induction l as [|e l IH]; intros done t H.
  - now rewrite app_nil_r.
  - unfold add_errors. cbn [fold_left]. fold (add_errors P st l).
    replace (done ++ e :: l) with ((done ++ [e]) ++ l) by now rewrite <- app_assoc.
    apply IH. clear IH.
    destruct (widen_fields P (tk_mr (tok st e)) (set_kids (tk_kids t ++ [e]) t))
      as (F1 & F2 & F3 & F4 & F5 & F6 & F7 & F8 & F9 & F10).
    destruct H as (G1 & G2 & G3 & G4 & G5 & G6 & G7 & G8 & G9 & G10 & G11 & G12 & G13).
    unfold discard_token. rewrite F1, F2, F3, F4, F5, F6, F7, F8, F9, F10.
    cbn [set_kids tk_kind tk_name tk_kids tk_cr tk_flags tk_parent tk_attrs tk_value tk_mr].
    rewrite G3. repeat (split; [assumption || reflexivity || lia|]).
    split; [|split].
    + intros x Hx. apply in_app_or in Hx as [Hx|[<-|[]]]; [apply G11 in Hx; lia|lia].
    + destruct (N.min_spec (rs (tk_mr (tok st e))) (rs (tk_mr t))) as [[_ ->]|[_ ->]].
      * right. exists e. split; [apply in_or_app; cbn; auto|reflexivity].
      * destruct G12 as [G|(x & Hx & G)]; [auto|]. right. exists x. split; [apply in_or_app; auto|assumption].
    + destruct (N.max_spec (re (tk_mr t)) (re (tk_mr (tok st e)))) as [[_ ->]|[_ ->]].
      * right. exists e. split; [apply in_or_app; cbn; auto|reflexivity].
      * destruct G13 as [G|(x & Hx & G)]; [auto|]. right. exists x. split; [apply in_or_app; auto|assumption].
Qed.

Lemma isize_sub_small chk a b : a < isize_bound -> b < isize_bound ->
  isize_sub chk (as_isize a) (as_isize b) = Some (Z.of_N a - Z.of_N b)%Z.
Proof.
  unfold isize_bound, isize_sub, as_isize. intros Ha Hb.
  destruct (N.ltb_spec a 9223372036854775808); [|lia].
  destruct (N.ltb_spec b 9223372036854775808); [|lia].
  destruct (_ && _)%Z eqn:Eb; [reflexivity|lia].
Qed.

Lemma skip_token_spec E P start a st errs :
  errors_below st a errs ->
  exists t, discard_token st start (re (tk_mr (tok st a))) errs t /\
  (errs <> [] -> skip_token E P start a st
     = Ret (SToken (List.length (st_heap st))) (mkSt (st_heap st ++ [t]) (st_scopes st))) /\
  (errs = [] -> start < isize_bound -> re (tk_mr (tok st a)) < isize_bound ->
     skip_token E P start a st
     = Ret (SSkip (Z.of_N (re (tk_mr (tok st a))) - Z.of_N start))
           (mkSt (st_heap st ++ [t]) (st_scopes st))).
Proof.
  intros He. exists (add_errors P st errs (std_token P "Error" (mkR start (re (tk_mr (tok st a)))))).
  split; [|split].
  - apply (add_errors_spec P st start _ errs []). unfold discard_token. cbn. repeat split; auto; try lia; contradiction.
  - intros Hn. unfold skip_token. rewrite (error_tokens_spec _ _ _ He).
    destruct errs; [congruence|]. reflexivity.
  - intros -> H1 H2. unfold skip_token. rewrite (error_tokens_spec _ _ _ He).
    rewrite isize_sub_small by assumption. reflexivity.
Qed.

Lemma discard_unfold E P m c s st n :
  exec (S n) E P (MDiscard m) c s st
  = (do r, st1 <- exec n E P m (clone_with_name c "Discard") s st;
     discard_result E P (rs (c_off c)) r st1).
Proof. reflexivity. Qed.

Lemma discard_token_result E P m c s st x a wrap st1 errs :
  wrapped x a wrap ->
  Runs E P m (clone_with_name c "Discard") s st (Ok x) st1 ->
  errors_below st1 a errs ->
  let stop := re (tk_mr (tok st1 a)) in
  exists t, discard_token st1 (rs (c_off c)) stop errs t /\
  (errs <> [] ->
     Runs E P (MDiscard m) c s st (Ok (wrap (SToken (List.length (st_heap st1)))))
          (mkSt (st_heap st1 ++ [t]) (st_scopes st1))) /\
  (errs = [] -> rs (c_off c) < isize_bound -> stop < isize_bound ->
     Runs E P (MDiscard m) c s st (Ok (wrap (SSkip (Z.of_N stop - Z.of_N (rs (c_off c))))))
          (mkSt (st_heap st1 ++ [t]) (st_scopes st1))).
Proof.
  intros Hw D He stop. destruct (skip_token_spec E P (rs (c_off c)) a st1 errs He) as (t & Ht & H1 & H2).
  exists t. split; [exact Ht|].
  assert (Hk : forall y st2, skip_token E P (rs (c_off c)) a st1 = Ret y st2 ->
               discard_result E P (rs (c_off c)) (Ok x) st1 = Ret (Ok (wrap y)) st2).
  { intros y st2 Hs. destruct Hw as [[[->| ->] ->]|[[n [[->| ->] ->]]|[n [[->| ->] ->]]]];
      cbn; rewrite Hs; reflexivity. }
  split.
  - intros Hn. apply (runs_bind _ _ _ _ _ _ _ _ _ _ _ (discard_unfold E P m c s st)).
    exists (Ok x), st1. split; [exact D|]. apply Hk, H1, Hn.
  - intros Hn B1 B2. apply (runs_bind _ _ _ _ _ _ _ _ _ _ _ (discard_unfold E P m c s st)).
    exists (Ok x), st1. split; [exact D|]. apply Hk, H2; assumption.
Qed.

Lemma discard_other E P m c s st r st1 :
  no_token r -> Runs E P m (clone_with_name c "Discard") s st r st1 ->
  Runs E P (MDiscard m) c s st r st1.
Proof.
  intros Hn D. apply (runs_bind _ _ _ _ _ _ _ _ _ _ _ (discard_unfold E P m c s st)).
  exists r, st1. split; [exact D|].
  destruct r as [[a|a|z|b p|b p| |]|e]; cbn in *; try contradiction; try reflexivity;
    destruct p; cbn in *; try contradiction; reflexivity.
Qed.

Lemma discard_panics E P m c s st p :
  Panics E P m (clone_with_name c "Discard") s st p -> Panics E P (MDiscard m) c s st p.
Proof.
  intros D. apply (panics_bind _ _ _ _ _ _ _ _ _ _ _ (discard_unfold E P m c s st)). auto.
Qed.

Lemma discard_diverges E P m c s st :
  Diverges E P m (clone_with_name c "Discard") s st -> Diverges E P (MDiscard m) c s st.
Proof. intros D [|n]; [reflexivity|]. now rewrite discard_unfold, D. Qed.

(* Discard never lets a clean token through *)
Lemma discard_result_inv E P start r st1 r' st2 :
  discard_result E P start r st1 = Ret r' st2 ->
  forall a, r' = Ok (SToken a) \/ r' = Ok (SProxy a) ->
  r' = Ok (SToken a) /\ tk_name (tok st2 a) = lit "Error" /\ tk_kids (tok st2 a) <> [] /\
  Forall (fun e => is_error (tok st1 e) = true) (tk_kids (tok st2 a)).
Proof.
  assert (Herr : forall f st a l, error_tokens f st a = Some l -> Forall (fun e => is_error (tok st e) = true) l).
  { induction f as [|f IH]; intros st a l; cbn [error_tokens]; [discriminate|].
    rewrite error_tokens_fold.
    assert (Hk : forall kids l', fold_left (fun acc k => match acc, error_tokens f st k with
          | Some l, Some l' => Some (l ++ l') | _, _ => None end) kids (Some []) = Some l' ->
          Forall (fun e => is_error (tok st e) = true) l').
    { induction kids as [|k kids IHk]; cbn [fold_left]; intros l' Hl.
      - injection Hl as <-. constructor.
      - rewrite error_tokens_fold in Hl. destruct (error_tokens f st k) as [lk|] eqn:Ek; [|discriminate].
        destruct (fold_left _ kids (Some [])) as [lr|] eqn:Er; [|discriminate].
        injection Hl as <-. cbn [app]. apply Forall_app. split; [eapply IH; eauto|now apply IHk]. }
    destruct (fold_left _ _ (Some [])) as [lr|] eqn:Er; [|discriminate].
    intros Hl. injection Hl as <-. apply Forall_app. split; [|eapply Hk; eauto].
    destruct (is_error (tok st a)) eqn:Ee; [constructor; [exact Ee|constructor]|constructor]. }
  intros H a Ha.
  assert (Hs : exists b, skip_token E P start b st1 = Ret (SToken a) st2 /\ r' = Ok (SToken a)).
  { destruct r as [[b|b|z|b p|b p| |]|e]; cbn in H; try (destruct Ha; congruence).
    - destruct (skip_token E P start b st1) as [y sty|pp|] eqn:Es; try discriminate.
      injection H as <- <-. exists b. destruct Ha as [Ha|Ha]; injection Ha as ->; auto.
      unfold skip_token in Es. destruct (error_tokens _ _ _) as [[|]|]; try discriminate.
      destruct (or_die _ _); discriminate.
    - destruct (skip_token E P start b st1) as [y sty|pp|] eqn:Es; try discriminate.
      injection H as <- <-. exists b. destruct Ha as [Ha|Ha]; injection Ha as ->; auto.
      unfold skip_token in Es. destruct (error_tokens _ _ _) as [[|]|]; try discriminate.
      destruct (or_die _ _); discriminate.
    - destruct (discard_payload _ _ _ _ _); try discriminate. destruct Ha; congruence.
    - destruct (discard_payload _ _ _ _ _); try discriminate. destruct Ha; congruence. }
  destruct Hs as (b & Hs & ->). split; [reflexivity|]. unfold skip_token in Hs.
  destruct (error_tokens (S (List.length (st_heap st1))) st1 b) as [l|] eqn:Ee; [|discriminate].
  destruct l as [|e l].
  - destruct (or_die _ _); discriminate.
  - injection Hs as <- <-. rewrite !tok_alloc_new.
    pose proof (add_errors_spec P st1 start (re (tk_mr (tok st1 b))) (e :: l) []
      (std_token P "Error" (mkR start (re (tk_mr (tok st1 b)))))) as Hd.
    destruct Hd as (_ & Hname & Hkids & _).
    { unfold discard_token. cbn. repeat split; auto; try lia; contradiction. }
    split; [exact Hname|]. split.
    + intros X. pose proof (eq_trans (eq_sym Hkids) X). discriminate.
    + eapply eq_ind_r with (P := Forall _); [|exact Hkids]. eapply Herr; eauto.
Qed.
