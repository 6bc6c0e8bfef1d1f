(* ProxyChildren, ExpandRange, SetScope, Register and the matchers that only
   assign or do nothing (C55-C59). *)
From Verif Require Export SpecMore ScopeProofs.
Open Scope string_scope.
Open Scope list_scope.
Open Scope N_scope.

(* ---------- ProxyChildren ---------- *)

Definition proxy_k (r : mres) (st : state) : res mres :=
  match r with
  | Ok (SToken a) => Ret (Ok (SProxy a)) st
  | Ok (SBreak n (SToken a)) => Ret (Ok (SBreak n (SProxy a))) st
  | Ok (SContinue n (SToken a)) => Ret (Ok (SContinue n (SProxy a))) st
  | _ => Ret r st
  end.
Lemma proxy_unfold E P m name custom c s st n :
  exec (S n) E P (MProxy m name custom) c s st
  = (do r, st1 <- exec n E P m (clone_with_name c name) s (before_exec (MProxy m name custom) s st); proxy_k r st1).
Proof. reflexivity. Qed.
Lemma proxy_does E P m name custom c s st o :
  let self := MProxy m name custom in
  let st0 := mkSt (st_heap st) (scopes_after st s custom name self) in
  Does E P self c s st o <->
  exists o0, Does E P m (renamed c name) s st0 o0 /\
    match o0 with
    | Done (Ok (SToken a)) st1 => o = Done (Ok (SProxy a)) st1
    | Done (Ok (SBreak n (SToken a))) st1 => o = Done (Ok (SBreak n (SProxy a))) st1
    | Done (Ok (SContinue n (SToken a))) st1 => o = Done (Ok (SContinue n (SProxy a))) st1
    | _ => o = o0
    end.
Proof.
  intros self st0. assert (Hb : before_exec self s st = st0) by apply before_state.
  rewrite (does_bind_iff E P self m c (renamed c name) s s st st0 proxy_k).
  - split; intros (o0 & D & H); exists o0; (split; [exact D|]);
      destruct o0 as [[[a|a|z|b q|b q| |]|e] st1|p|]; cbn in *; try exact H; destruct q; exact H.
  - intros n. rewrite <- Hb. apply proxy_unfold.
  - intros r st1. destruct r as [[a|a|z|b q|b q| |]|e]; try discriminate; destruct q; discriminate.
Qed.

(* ---------- ExpandRange ---------- *)

Definition expand_k (P : parser) (r : mres) (st : state) : res mres :=
  match r with
  | Ok (SToken a) =>
      let mr := tk_mr (tok st a) in
      Ret (Ok (SProxy (next_addr st))) (alloc st (set_kids [a] (std_token2 P "ExpandRange" mr mr)))
  | Ok (SProxy a) => Ret (Ok (SProxy a)) (modify st a (set_cr P (tk_mr (tok st a))))
  | _ => Ret r st
  end.
Lemma expand_does E P m c s st o :
  Does E P (MExpand m) c s st o <->
  exists o0, Does E P m (renamed c "Catch") s st o0 /\
    match o0 with
    | Done (Ok (SToken a)) st1 =>
        exists t, o = Done (Ok (SProxy (List.length (st_heap st1)))) (mkSt (st_heap st1 ++ [t]) (st_scopes st1)) /\
          tk_kids t = [a] /\ plain_token (set_kids [] t) "ExpandRange" (tk_mr (tok st1 a)) /\
          tk_cvalue t = range_text P (tk_mr (tok st1 a)) /\ tk_mvalue t = tk_cvalue t
    | Done (Ok (SProxy a)) st1 =>
        exists t, o = Done (Ok (SProxy a)) (mkSt (upd a t (st_heap st1)) (st_scopes st1)) /\
          tk_cr t = tk_mr (tok st1 a) /\ same_but_captured t (tok st1 a) /\
          (tk_kind t = KStandard -> tk_cvalue t = range_text P (tk_cr t)) /\
          (tk_kind t = KPin -> tk_cvalue t = tk_cvalue (tok st1 a))
    | _ => o = o0
    end.
Proof.
  rewrite (does_bind_iff E P (MExpand m) m c (renamed c "Catch") s s st st (expand_k P)).
  - split; intros (o0 & D & H); exists o0; (split; [exact D|]);
      destruct o0 as [[[a|a|z|b q|b q| |]|e] st1|p|]; cbn in *; try exact H.
    + subst o. eexists. split; [reflexivity|]. repeat split; reflexivity.
    + subst o. eexists. split; [reflexivity|]. cbn. repeat split; intros ->; reflexivity.
    + destruct H as (t & -> & Hk & Hp & Hc & Hm). unfold alloc, next_addr. do 4 f_equal. unfold heap_size.
      destruct t as [k cr mr nm v cv mv p l at0 fl]. cbn in *.
      destruct Hp as (H1 & H2 & H3 & H4 & H5 & H6 & H7 & H8 & H9). cbn in *. subst. reflexivity.
    + destruct H as (t & -> & Hcr & (H1 & H2 & H3 & H4 & H5 & H6 & H7 & H8 & H9) & Hs & Hp). unfold modify, set_tok. do 3 f_equal.
      destruct t as [k cr mr nm v cv mv p l at0 fl]. unfold set_cr. cbn in *. subst. f_equal.
      destruct (tk_kind (tok st1 a)); auto.
  - reflexivity.
  - intros r st1. destruct r as [[a|a|z|b q|b q| |]|e]; discriminate.
Qed.

(* ---------- SetScope ---------- *)

Lemma set_scope_given E P s1 m c s st :
  same_outcomes E P (MSetScope (Some s1) m) c s st m (renamed c "SetScope") s1 st.
Proof.
  intros [r st'|p|]; cbn [Does]; split.
  - intros [[|n] H]; [discriminate|]. now exists n.
  - intros [n H]. now exists (S n).
  - intros [[|n] H]; [discriminate|]. now exists n.
  - intros [n H]. now exists (S n).
  - intros H n. exact (H (S n)).
  - intros H [|n]; [reflexivity|]. exact (H n).
Qed.

Lemma same_stacks st st' : st_heap st = st_heap st' -> List.length (st_scopes st) = List.length (st_scopes st') ->
  (forall s, stack_of st s = stack_of st' s) -> st = st'.
Proof.
  destruct st as [h l], st' as [h' l']. cbn. intros <- Hl Hs. f_equal.
  apply (nth_ext _ _ [] []); [exact Hl|]. intros n _. exact (Hs n).
Qed.
Lemma push_entered st s st0 : valid_scope st s -> entered st s st0 <-> st0 = sc_push st s.
Proof.
  intros Hv. split.
  - intros (H1 & H2 & H3 & H4). apply same_stacks; [exact H1|cbn; now rewrite upd_length|].
    intros s'. destruct (Nat.eq_dec s' s) as [->|Hs].
    + rewrite H3. unfold sc_push. now rewrite stack_set_stack.
    + rewrite H4 by exact Hs. unfold sc_push. rewrite stack_set_other; auto.
  - intros ->. repeat split.
    + cbn. now rewrite upd_length.
    + unfold sc_push. now rewrite stack_set_stack.
    + intros s' Hs. unfold sc_push. rewrite stack_set_other; auto.
Qed.
Lemma pop_exited st s st0 : exited st s st0 <-> st0 = sc_pop st s.
Proof.
  assert (Hsame : stack_of (sc_pop st s) s = tl (stack_of st s)).
  { destruct (Nat.lt_ge_cases s (List.length (st_scopes st))) as [Hl|Hl].
    - unfold sc_pop. now rewrite stack_set_stack.
    - unfold sc_pop, set_stack, stack_of. cbn. rewrite upd_overflow by exact Hl. now rewrite nth_overflow. }
  split.
  - intros (H1 & H2 & H3 & H4). apply same_stacks; [exact H1|cbn; now rewrite upd_length|].
    intros s'. destruct (Nat.eq_dec s' s) as [->|Hs]; [congruence|].
    rewrite H4 by exact Hs. unfold sc_pop. rewrite stack_set_other; auto.
  - intros ->. repeat split; [cbn; now rewrite upd_length|exact Hsame|].
    intros s' Hs. unfold sc_pop. rewrite stack_set_other; auto.
Qed.
Lemma set_scope_own E P m c s st o : valid_scope st (c_scope c) ->
  Does E P (MSetScope None m) c s st o <->
  exists st0 o0, entered st (c_scope c) st0 /\ Does E P m (renamed c "SetScope") (c_scope c) st0 o0 /\
    match o0 with
    | Done r st1 => exists st', o = Done r st' /\ exited st1 (c_scope c) st'
    | _ => o = o0
    end.
Proof.
  intros Hv.
  rewrite (does_bind_iff E P (MSetScope None m) m c (renamed c "SetScope") s (c_scope c) st (sc_push st (c_scope c))
             (fun r st1 => Ret r (sc_pop st1 (c_scope c)))).
  - split.
    + intros (o0 & D & H). exists (sc_push st (c_scope c)), o0. split; [now apply push_entered|]. split; [exact D|].
      destruct o0 as [r st1|p|]; cbn in H; [|exact H|exact H]. eexists. split; [exact H|]. now apply pop_exited.
    + intros (st0 & o0 & H0 & D & H). apply push_entered in H0; [|exact Hv]. subst st0. exists o0. split; [exact D|].
      destruct o0 as [r st1|p|]; cbn; [|exact H|exact H]. destruct H as (st' & -> & H). apply pop_exited in H. now subst.
  - reflexivity.
  - discriminate.
Qed.

(* ---------- Register ---------- *)

Definition registered (s : sid) (ms : list matcher) (st : state) : state :=
  fold_left (fun st m => sc_set st s (m_name m) (VMatcher m)) ms st.
Lemma registered_heap s ms : forall st, st_heap (registered s ms st) = st_heap st.
Proof. induction ms as [|m ms IH]; intros st; cbn; [reflexivity|]. unfold registered in IH. now rewrite IH. Qed.
Lemma registered_valid s ms : forall st s', valid_scope (registered s ms st) s' <-> valid_scope st s'.
Proof.
  induction ms as [|m ms IH]; intros st s'; cbn; [reflexivity|]. unfold registered in IH. rewrite IH. apply valid_set.
Qed.
Lemma registered_other s ms : forall st s' n, s' <> s \/ (forall m, In m ms -> m_name m <> n) ->
  sc_get (registered s ms st) s' n = sc_get st s' n.
Proof.
  induction ms as [|m ms IH]; intros st s' n H; cbn; [reflexivity|]. unfold registered in IH. rewrite IH.
  - apply get_set_other. destruct H as [H|H]; [left; auto|right; apply H; now left].
  - destruct H as [H|H]; [left; exact H|right; intros x Hx; apply H; now right].
Qed.
Lemma register_does E P ms c s st : exists st',
  Runs E P (MRegister ms) c s st (Ok (SSkip 0)) st' /\ st_heap st' = st_heap st /\
  (forall n m, valid_scope st s -> last_named n ms m -> sc_get st' s n = Some (VMatcher m)) /\
  (forall s' n, s' <> s \/ (forall m, In m ms -> m_name m <> n) -> sc_get st' s' n = sc_get st s' n).
Proof.
  exists (registered s ms st). split; [exists 1%nat; reflexivity|]. split; [apply registered_heap|].
  split; [|intros s' n; apply registered_other].
  intros n m Hv (l1 & l2 & -> & <- & Hl). unfold registered. rewrite fold_left_app. cbn [fold_left].
  fold (registered s l1 st). fold (registered s l2 (sc_set (registered s l1 st) s (m_name m) (VMatcher m))).
  rewrite registered_other by (right; exact Hl). apply get_set_same. now apply registered_valid.
Qed.

Lemma registered_all ms c st n m : valid_scope st (c_scope c) -> last_named n ms m ->
  get_registered (register_all st c ms) c n = Some m.
Proof.
  intros Hv (l1 & l2 & -> & <- & Hl). unfold get_registered.
  change (register_all st c (l1 ++ m :: l2)) with (registered (c_scope c) (l1 ++ m :: l2) st).
  unfold registered. rewrite fold_left_app. cbn [fold_left]. fold (registered (c_scope c) l1 st).
  fold (registered (c_scope c) l2 (sc_set (registered (c_scope c) l1 st) (c_scope c) (m_name m) (VMatcher m))).
  rewrite registered_other by (right; exact Hl). rewrite get_set_same; [reflexivity|]. now apply registered_valid.
Qed.

(* ---------- assignments of text, and matchers that do nothing ---------- *)

Lemma store_text E P v name c s st : valid_scope st s -> exists st',
  Runs E P (MStore (SPString v) name true) c s st (Ok (SSkip 0)) st' /\ st_heap st' = st_heap st /\
  sc_get st' s name = Some (VString v) /\
  (forall s' n, s <> s' \/ name <> n -> sc_get st' s' n = sc_get st s' n).
Proof.
  intros Hv. eexists. split; [exists 1%nat; reflexivity|]. split; [reflexivity|]. split.
  - apply get_set_same. unfold before_exec. cbn [m_custom m_name]. now apply valid_set.
  - intros s' n H. rewrite get_set_other by exact H. unfold before_exec. cbn [m_custom m_name]. now apply get_set_other.
Qed.
Lemma does_nothing E P m c s st : m = MNull \/ (exists n, m = MFetch n) ->
  Runs E P m c s st (Ok (SSkip 0)) st.
Proof. intros [->|[n ->]]; exists 1%nat; reflexivity. Qed.
Lemma break_signals E P n c s st : Runs E P (MBreak n) c s st (Ok (SBreak n SNone)) st.
Proof. exists 1%nat. reflexivity. Qed.
