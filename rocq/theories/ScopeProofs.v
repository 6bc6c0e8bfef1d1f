(* Laws of scope stacks (C22) and of the matchers that use them (C24-C26). *)
From Verif Require Export CombProofs.
Open Scope string_scope.
Open Scope list_scope.
Open Scope N_scope.

Lemma stack_set_stack st s l : valid_scope st s -> stack_of (set_stack st s l) s = l.
Proof. intros H. unfold stack_of, set_stack. cbn. now apply nth_upd_same. Qed.
Lemma stack_set_other st s s' l : s <> s' -> stack_of (set_stack st s l) s' = stack_of st s'.
Proof. intros H. unfold stack_of, set_stack. cbn. now apply nth_upd_other. Qed.
Lemma valid_set_stack st s l s' : valid_scope (set_stack st s l) s' <-> valid_scope st s'.
Proof. unfold valid_scope, set_stack. cbn. now rewrite upd_length. Qed.
Lemma valid_set st s n v s' : valid_scope (sc_set st s n v) s' <-> valid_scope st s'.
Proof. apply valid_set_stack. Qed.

Lemma stack_get_set_same l n v : stack_get (stack_set l n v) n = Some v.
Proof. destruct l; cbn [stack_get stack_set]; now rewrite assoc_get_set_same. Qed.
Lemma stack_get_set_other l n n' v : n <> n' -> stack_get (stack_set l n v) n' = stack_get l n'.
Proof. intros H. destruct l; cbn [stack_get stack_set]; now rewrite assoc_get_set_other by auto. Qed.

Lemma get_set_same st s n v : valid_scope st s -> sc_get (sc_set st s n v) s n = Some v.
Proof. intros H. unfold sc_get, sc_set. rewrite stack_set_stack by assumption. apply stack_get_set_same. Qed.
Lemma get_set_other st s n v s' n' : s <> s' \/ n <> n' ->
  sc_get (sc_set st s n v) s' n' = sc_get st s' n'.
Proof.
  intros H. unfold sc_get, sc_set.
  destruct (Nat.eq_dec s s') as [<-|Hs].
  - destruct H as [H|H]; [congruence|].
    destruct (Nat.lt_ge_cases s (List.length (st_scopes st))) as [Hl|Hl].
    + rewrite stack_set_stack by assumption. now apply stack_get_set_other.
    + unfold set_stack, stack_of. cbn. now rewrite upd_overflow.
  - now rewrite stack_set_other.
Qed.

(* push, any number of assignments, pop: back to the stack before *)
Lemma pop_sets st s l : valid_scope st s ->
  stack_of (sc_pop (fold_left (fun st nv => sc_set st s (fst nv) (snd nv)) l (sc_push st s)) s) s = stack_of st s.
Proof.
  intros H.
  assert (G : forall l st0 sc rest, valid_scope st0 s -> stack_of st0 s = sc :: rest ->
    exists sc', stack_of (fold_left (fun st nv => sc_set st s (fst nv) (snd nv)) l st0) s = sc' :: rest
                /\ valid_scope (fold_left (fun st nv => sc_set st s (fst nv) (snd nv)) l st0) s).
  { clear. induction l as [|[n v] l IH]; intros st0 sc rest Hv Hs; cbn [fold_left fst snd]; [eauto|].
    eapply IH; [now apply valid_set|]. unfold sc_set. rewrite stack_set_stack by assumption.
    rewrite Hs. reflexivity. }
  destruct (G l (sc_push st s) [] (stack_of st s)) as (sc' & Hs & Hv).
  - now apply valid_set_stack.
  - unfold sc_push. now rewrite stack_set_stack.
  - unfold sc_pop. rewrite stack_set_stack by assumption. now rewrite Hs.
Qed.

Lemma before_valid m s st s' : valid_scope (before_exec m s st) s' <-> valid_scope st s'.
Proof. unfold before_exec. destruct (m_custom m); [apply valid_set|reflexivity]. Qed.

(* ---------- C24 ---------- *)

Definition store_k (s : sid) (name : str) (r : mres) (st : state) : res mres :=
  match r with Ok (SToken a) => Ret r (sc_set st s name (VToken a)) | _ => Ret r st end.

Lemma store_unfold E P m name custom c s st n :
  exec (S n) E P (MStore (SPMatcher m) name custom) c s st
  = (do r, st1 <- exec n E P m (clone_with_name c name) s
                    (before_exec (MStore (SPMatcher m) name custom) s st); store_k s name r st1).
Proof. reflexivity. Qed.

Lemma store_token E P m name c s st a st1 :
  let self := MStore (SPMatcher m) name true in
  Runs E P m (clone_with_name c name) s (sc_set st s name (VMatcher self)) (Ok (SToken a)) st1 ->
  Runs E P self c s st (Ok (SToken a)) (sc_set st1 s name (VToken a)).
Proof.
  intros self D. apply (runs_bind _ _ _ _ _ _ _ _ _ _ _ (store_unfold E P m name true c s st)).
  exists (Ok (SToken a)), st1. split; [exact D|reflexivity].
Qed.

Lemma store_other E P m name c s st r st1 :
  let self := MStore (SPMatcher m) name true in
  (forall a, r <> Ok (SToken a)) ->
  Runs E P self c s st r st1 <->
  Runs E P m (clone_with_name c name) s (sc_set st s name (VMatcher self)) r st1.
Proof.
  intros self Hr. subst self. rewrite (runs_bind _ _ _ _ _ _ _ _ _ _ _ (store_unfold E P m name true c s st)).
  split.
  - intros (r0 & st2 & D & Hk).
    assert (Hk' : r0 = r /\ st2 = st1).
    { destruct r0 as [[]|]; cbn in Hk; injection Hk as <- <-; auto. exfalso. eapply Hr; reflexivity. }
    destruct Hk' as [-> ->]. exact D.
  - intros D. exists r, st1. split; [exact D|].
    destruct r as [[]|]; cbn; auto. exfalso. eapply Hr; reflexivity.
Qed.

Lemma store_failed E P m name c s st f st1 :
  let self := MStore (SPMatcher m) name true in
  valid_scope st s ->
  Runs E P self c s st (Err f) st1 ->
  (st_scopes st1 = st_scopes (sc_set st s name (VMatcher self))) ->
  sc_get st1 s name = Some (VMatcher self).
Proof.
  intros self Hv D Hs. unfold sc_get, stack_of. rewrite Hs.
  fold (stack_of (sc_set st s name (VMatcher self)) s).
  apply (get_set_same st s name (VMatcher self) Hv).
Qed.

Lemma store_literal_failed E P v name c s st :
  let self := MStore (SPMatcher (MEquals (FStr v) "Equals" false)) name true in
  valid_scope st s -> c_debug c = 0 -> sliceable (p_src P) (c_off c) ->
  (~ exists rest, window (p_src P) (rs (c_off c)) (re (c_off c)) (v ++ rest)) ->
  exists st', Runs E P self c s st (Err FFail) st' /\ st_heap st' = st_heap st /\
    sc_get st' s name = Some (VMatcher self) /\
    (forall s' n, s <> s' \/ name <> n -> sc_get st' s' n = sc_get st s' n).
Proof.
  intros self Hv Hd Hs Hn.
  exists (sc_set st s name (VMatcher self)).
  split; [|split; [reflexivity|split; [now apply get_set_same|intros; now apply get_set_other]]].
  apply store_other; [discriminate|]. fold self.
  pose proof (equals_not_found E P v "Equals" false (clone_with_name c name) s
                (sc_set st s name (VMatcher self)) Hd Hs (or_intror Hn)) as D.
  cbn [scopes_after] in D. rewrite state_eta in D. exact D.
Qed.

(* ---------- C25 ---------- *)

Lemma ref_unfold E P t name custom c s st n :
  exec (S n) E P (MRef (FStr t) name custom) c s st
  = match sc_get (before_exec (MRef (FStr t) name custom) s st) s t with
    | Some (VMatcher m) => exec n E P m (clone_with_name c name) s (before_exec (MRef (FStr t) name custom) s st)
    | _ => Ret (Err (FError (mkPE (lit "`Ref` matcher unable to locate target reference `" ++ t ++ lit "`") None)))
               (before_exec (MRef (FStr t) name custom) s st)
    end.
Proof. reflexivity. Qed.

Lemma ref_resolves E P t name custom c s st m :
  let st0 := mkSt (st_heap st) (scopes_after st s custom name (MRef (FStr t) name custom)) in
  sc_get st0 s t = Some (VMatcher m) ->
  same_outcomes E P (MRef (FStr t) name custom) c s st m (clone_with_name c name) s st0.
Proof.
  intros st0 H.
  assert (Hb : before_exec (MRef (FStr t) name custom) s st = st0) by apply before_state.
  assert (U : forall n, exec (S n) E P (MRef (FStr t) name custom) c s st
                        = exec n E P m (clone_with_name c name) s st0).
  { intros n. rewrite ref_unfold, Hb, H. reflexivity. }
  intros [r st'|p|]; cbn [Does].
  - now apply runs_tail.
  - now apply panics_tail.
  - now apply diverges_tail.
Qed.

Lemma ref_unknown E P t name custom c s st :
  let st0 := mkSt (st_heap st) (scopes_after st s custom name (MRef (FStr t) name custom)) in
  (forall m, sc_get st0 s t <> Some (VMatcher m)) ->
  Runs E P (MRef (FStr t) name custom) c s st
       (Err (FError (mkPE (lit "`Ref` matcher unable to locate target reference `" ++ t ++ lit "`") None))) st0.
Proof.
  intros st0 H.
  assert (Hb : before_exec (MRef (FStr t) name custom) s st = st0) by apply before_state.
  exists 1%nat. rewrite ref_unfold, Hb.
  destruct (sc_get st0 s t) as [[]|] eqn:Eg; try reflexivity. exfalso. eapply H; eauto.
Qed.

(* ---------- C26 ---------- *)

Section LeftRecursion.
  Variables (E : env) (P : parser) (x : str) (M : matcher) (s : sid).

  Lemma enters_diverges : enters x M M ->
    forall n m c st, enters x M m -> valid_scope st s -> sc_get st s x = Some (VMatcher M) ->
    exec n E P m c s st = OOF.
  Proof.
    intros HM. induction n as [|n IH]; intros m c st Hm Hv Hg; [reflexivity|].
    assert (Hset : forall name m', (name <> x) -> sc_get (sc_set st s name (VMatcher m')) s x = Some (VMatcher M)).
    { intros name m' Hn. rewrite get_set_other by auto. exact Hg. }
    cbn [exec]. destruct Hm as [name Hn custom|name|m Hm|m Hm|m Hm|m f Hm|m k Hm|m Hm|m name custom Hm Hn
                                |m name custom Hm Hn|m ms i Hm Hi Hn];
      cbn [step before_exec m_custom m_name fetch_value].
    - unfold before_exec. cbn [m_custom m_name].
      destruct custom.
      + rewrite Hset by assumption. apply IH; auto. now apply valid_set.
      + rewrite Hg. apply IH; auto.
    - unfold before_exec. cbn [m_custom m_name]. rewrite Hg. apply IH; auto.
    - unfold before_exec. cbn [m_custom]. now rewrite IH.
    - unfold before_exec. cbn [m_custom]. now rewrite IH.
    - unfold before_exec. cbn [m_custom]. now rewrite IH.
    - unfold before_exec. cbn [m_custom]. now rewrite IH.
    - unfold before_exec. cbn [m_custom]. now rewrite IH.
    - unfold before_exec. cbn [m_custom]. now rewrite IH.
    - unfold before_exec. cbn [m_custom m_name]. destruct custom.
      + rewrite IH; auto; now apply valid_set.
      + now rewrite IH.
    - unfold before_exec. cbn [m_custom m_name]. destruct custom.
      + rewrite IH; auto; now apply valid_set.
      + now rewrite IH.
    - assert (Hst0 : exists st0, before_exec (MProgram (m :: ms) i) s st = st0 /\ valid_scope st0 s
                      /\ sc_get st0 s x = Some (VMatcher M)).
      { eexists. split; [reflexivity|]. split; [now apply before_valid|].
        unfold before_exec. cbn [m_custom m_name]. destruct (pi_custom i); [|exact Hg].
        destruct (str_eqb (pi_name i) x) eqn:Ex.
        - apply str_eqb_eq in Ex. destruct (Hn eq_refl) as [Hx|Hx]; [congruence|].
          rewrite <- Hx, Ex. now apply get_set_same.
        - apply str_eqb_neq in Ex. now apply Hset. }
      destruct Hst0 as (st0 & -> & Hv0 & Hg0). unfold exec_program.
      set (c1 := clone_with_name c (pi_name i)). set (st1 := alloc st0 _).
      assert (iterations i <> 0) as Hit.
      { unfold iterations. destruct (pi_iter i) as [[lo hi]|]; lia. }
      destruct n as [|n]; cbn [iterate].
      + destruct (N.eqb_spec (iterations i) 0); [contradiction|reflexivity].
      + destruct (N.eqb_spec (iterations i) 0); [contradiction|].
        cbn [run_patterns]. rewrite IH; auto.
  Qed.
End LeftRecursion.

Lemma left_recursion E P x M s c st :
  enters x M M -> valid_scope st s -> sc_get st s x = Some (VMatcher M) ->
  Diverges E P M c s st.
Proof. intros HM Hv Hg n. eapply enters_diverges; eauto. Qed.

(* a reference that carries the name it refers to *)
Lemma self_named_ref E P x c s st : valid_scope st s ->
  Diverges E P (MRef (FStr x) x true) c s st.
Proof.
  intros Hv n. revert c st Hv. induction n as [|n IH]; intros c st Hv; [reflexivity|].
  rewrite ref_unfold. unfold before_exec. cbn [m_custom m_name]. rewrite get_set_same by assumption.
  apply IH. now apply valid_set.
Qed.

(* references that form a cycle *)
Lemma ref_cycle E P (R : str -> Prop) s st :
  (forall x, R x -> exists name y, R y /\ sc_get st s x = Some (VMatcher (MRef (FStr y) name false))) ->
  forall x name c, R x -> Diverges E P (MRef (FStr x) name false) c s st.
Proof.
  intros H x name c Hx n. revert x name c Hx. induction n as [|n IH]; intros x name c Hx; [reflexivity|].
  rewrite ref_unfold. unfold before_exec. cbn [m_custom].
  destruct (H x Hx) as (nm & y & Hy & ->). now apply IH.
Qed.

(* ---------- lookup, as a statement about lists ---------- *)

Lemma assoc_get_none {A} n (l : list (str * A)) :
  (forall v, ~ In (n, v) l) <-> assoc_get n l = None.
Proof.
  induction l as [|[k w] l IH]; cbn [assoc_get].
  - split; [reflexivity|intros _ v []].
  - destruct (str_eqb n k) eqn:Ek.
    + apply str_eqb_eq in Ek as ->. split; [|discriminate].
      intros H. exfalso. apply (H w). now left.
    + rewrite <- IH. apply str_eqb_neq in Ek. split.
      * intros H v Hv. apply (H v). now right.
      * intros H v [Hv|Hv]; [congruence|]. now apply (H v).
Qed.
Lemma assoc_get_first {A} n (v : A) before after :
  (forall v', ~ In (n, v') before) -> assoc_get n (before ++ (n, v) :: after) = Some v.
Proof.
  induction before as [|[k w] l IH]; cbn [app assoc_get]; intros H.
  - now rewrite str_eqb_refl.
  - destruct (str_eqb n k) eqn:Ek.
    + apply str_eqb_eq in Ek as ->. exfalso. apply (H w). now left.
    + apply IH. intros v' Hv. apply (H v'). now right.
Qed.

Lemma innermost st s inner sc outer n v :
  stack_of st s = inner ++ sc :: outer ->
  (forall sc' v', In sc' inner -> ~ In (n, v') sc') ->
  (exists before after, sc = before ++ (n, v) :: after /\ forall v', ~ In (n, v') before) ->
  sc_get st s n = Some v.
Proof.
  intros Hs Hi (b & a & -> & Hb). unfold sc_get. rewrite Hs. clear Hs.
  induction inner as [|sc' inner IH]; cbn [app stack_get].
  - now rewrite assoc_get_first.
  - assert (H : assoc_get n sc' = None).
    { apply assoc_get_none. intros v'. apply Hi. now left. }
    rewrite H. apply IH. intros sc2 v' Hin. apply Hi. now right.
Qed.
Lemma unbound st s n :
  (forall sc v, In sc (stack_of st s) -> ~ In (n, v) sc) <-> sc_get st s n = None.
Proof.
  unfold sc_get. induction (stack_of st s) as [|sc l IH]; cbn [stack_get].
  - split; [reflexivity|intros _ sc v []].
  - split.
    + intros H. assert (Hn : assoc_get n sc = None).
      { apply assoc_get_none. intros v. apply H. now left. }
      rewrite Hn. apply IH. intros sc' v Hin. apply H. now right.
    + intros H sc' v. destruct (assoc_get n sc) eqn:En; [discriminate|].
      intros [<-|Hin].
      * now apply assoc_get_none.
      * now apply IH.
Qed.
