(* Executions do not depend on what else is in the store. *)
From Verif Require Import Exec Tokenize Spec SpecMore Facts.
From Coq Require Import Lia.
Open Scope string_scope.
Open Scope list_scope.
Open Scope N_scope.

(* ---------- matchers that can be referred to ---------- *)

Section Scopes.
  Variable Q : matcher -> Prop.
  Definition scopes_all (st : state) : Prop :=
    forall stack sc n m, In stack (st_scopes st) -> In sc stack -> In (n, VMatcher m) sc -> Q m.

  Lemma all_same st st' : st_scopes st' = st_scopes st -> scopes_all st -> scopes_all st'.
  Proof. unfold scopes_all. intros ->. auto. Qed.
  Lemma q_upd_in {A} n (x : A) l y : In y (upd n x l) -> y = x \/ In y l.
  Proof.
    revert n. induction l as [|z l IH]; intros [|n]; cbn; try easy; intros [H|H]; auto.
    destruct (IH _ H); auto.
  Qed.
  Lemma q_assoc_in {A} k (v : A) l k' v' : In (k', v') (assoc_set k v l) -> (k' = k /\ v' = v) \/ In (k', v') l.
  Proof.
    unfold assoc_set. intros [H|H]; [injection H as <- <-; auto|]. right. now apply filter_In in H.
  Qed.
  Lemma all_stack st s l : scopes_all st ->
    (forall sc n m, In sc l -> In (n, VMatcher m) sc -> Q m) -> scopes_all (set_stack st s l).
  Proof.
    intros Hs Hl stack sc n m H1 H2 H3. cbn [st_scopes set_stack] in H1.
    apply q_upd_in in H1 as [->|H1]; [eapply Hl; eauto|eapply Hs; eauto].
  Qed.
  Lemma all_of st s : scopes_all st -> forall sc n m, In sc (stack_of st s) -> In (n, VMatcher m) sc -> Q m.
  Proof.
    intros Hs sc n m H1 H2.
    destruct (Nat.lt_ge_cases s (List.length (st_scopes st))) as [Hl|Hl].
    - apply (Hs (stack_of st s) sc n m); auto. unfold stack_of. now apply nth_In.
    - unfold stack_of in H1. rewrite nth_overflow in H1 by exact Hl. destruct H1.
  Qed.
  Lemma all_set st s n v : scopes_all st -> (forall m, v = VMatcher m -> Q m) -> scopes_all (sc_set st s n v).
  Proof.
    intros Hs Hv. apply all_stack; [exact Hs|]. pose proof (all_of st s Hs) as Ho.
    intros sc k m H1 H2. destruct (stack_of st s) as [|sc0 l]; cbn [stack_set] in H1.
    - destruct H1 as [<-|[]]. apply q_assoc_in in H2 as [[_ H2]|[]]. symmetry in H2. now apply Hv.
    - destruct H1 as [<-|H1]; [|exact (Ho sc k m (or_intror H1) H2)].
      apply q_assoc_in in H2 as [[_ H2]|H2]; [symmetry in H2; now apply Hv|]. exact (Ho sc0 k m (or_introl eq_refl) H2).
  Qed.
  Lemma all_push st s : scopes_all st -> scopes_all (sc_push st s).
  Proof.
    intros Hs. apply all_stack; [exact Hs|]. intros sc n m [<-|H1] H2; [destruct H2|]. eapply all_of; eauto.
  Qed.
  Lemma all_pop st s : scopes_all st -> scopes_all (sc_pop st s).
  Proof.
    intros Hs. apply all_stack; [exact Hs|]. intros sc n m H1 H2.
    eapply (all_of st s); eauto. destruct (stack_of st s); [exact H1|now right].
  Qed.
  Lemma q_assoc_get {A} n (v : A) l : assoc_get n l = Some v -> exists k, In (k, v) l.
  Proof.
    induction l as [|[k x] l IH]; cbn; [easy|]. destruct (str_eqb n k).
    - intros H. injection H as ->. eauto.
    - intros H. destruct (IH H) as [k' Hk]. eauto.
  Qed.
  Lemma all_get st s n m : scopes_all st -> sc_get st s n = Some (VMatcher m) -> Q m.
  Proof.
    intros Hs. unfold sc_get. pose proof (all_of st s Hs) as Ho. revert Ho.
    induction (stack_of st s) as [|sc l IH]; cbn [stack_get]; [easy|]. intros Ho.
    destruct (assoc_get n sc) as [v|] eqn:Hg.
    - intros H. injection H as ->. apply q_assoc_get in Hg as [k Hk]. exact (Ho sc k m (or_introl eq_refl) Hk).
    - apply IH. intros sc' k m' H1. apply Ho. now right.
  Qed.
  Lemma all_before m s st : Q m -> scopes_all st -> scopes_all (before_exec m s st).
  Proof.
    intros Hm Hs. unfold before_exec. destruct (m_custom m); [|exact Hs]. apply all_set; [exact Hs|].
    intros m' H. now injection H as <-.
  Qed.
  Lemma all_register s ms : (forall m, In m ms -> Q m) -> forall st, scopes_all st ->
    scopes_all (fold_left (fun st m => sc_set st s (m_name m) (VMatcher m)) ms st).
  Proof.
    induction ms as [|m ms IH]; intros H1 st Hs; cbn [fold_left]; [exact Hs|].
    apply IH; [intros x Hx; apply H1; now right|]. apply all_set; [exact Hs|].
    intros m' H. injection H as <-. apply H1. now left.
  Qed.
End Scopes.

(* ---------- depth of token graphs ---------- *)

Lemma error_tokens_more st : forall f a l, error_tokens f st a = Some l -> forall g, (f <= g)%nat -> error_tokens g st a = Some l.
Proof.
  induction f as [|f IH]; intros a l H g Hg; [easy|]. destruct g as [|g]; [lia|]. cbn [error_tokens] in *.
  revert H. generalize (if is_error (tok st a) then [a] else []). generalize (tk_kids (tok st a)).
  intros ks. assert (Hn : forall ks, fold_left (fun acc k => match acc with Some l => match error_tokens f st k with Some l' => Some (l ++ l') | None => None end | None => None end) ks None = None).
  { clear. induction ks; auto. }
  induction ks as [|k ks IHk]; intros acc H; cbn [fold_left] in *; [assumption|].
  destruct (error_tokens f st k) as [l'|] eqn:Ek; [|rewrite Hn in H; discriminate].
  rewrite (IH k l' Ek g) by lia. now apply IHk.
Qed.

Lemma error_tokens_some st f a :
  (exists l, error_tokens (S f) st a = Some l) <-> (forall k, In k (tk_kids (tok st a)) -> exists l, error_tokens f st k = Some l).
Proof.
  cbn [error_tokens]. generalize (if is_error (tok st a) then [a] else []). generalize (tk_kids (tok st a)).
  assert (Hn : forall ks, fold_left (fun acc k => match acc with Some l => match error_tokens f st k with Some l' => Some (l ++ l') | None => None end | None => None end) ks None = None).
  { clear. induction ks; auto. }
  induction l as [|k ks IH]; intros acc; cbn [fold_left].
  - split; [intros _ k []|eauto].
  - destruct (error_tokens f st k) as [l'|] eqn:Ek.
    + rewrite IH. split; [|auto with datatypes]. intros H x [<-|Hx]; eauto.
    + rewrite Hn. split; [intros [l H]; discriminate|]. intros H. destruct (H k (or_introl eq_refl)) as [l H1]. congruence.
Qed.


Lemma kid_none st f ks : (forall k, In k ks -> exists l, error_tokens f st k = Some l) \/
  (exists k, In k ks /\ error_tokens f st k = None).
Proof.
  induction ks as [|k ks IH]; [left; intros k []|].
  destruct (error_tokens f st k) as [l|] eqn:Ek; [|right; exists k; split; [now left|assumption]].
  destruct IH as [IH|(x & H1 & H2)].
  - left. intros x [<-|Hx]; eauto.
  - right. exists x. split; [now right|assumption].
Qed.

Lemma error_tokens_chain st : forall f a, error_tokens f st a = None -> (exists l, error_tokens (S f) st a = Some l) ->
  exists p, List.length p = f /\ NoDup p /\
    forall x, In x p -> (x < List.length (st_heap st))%nat /\ exists l, error_tokens (S f) st x = Some l.
Proof.
  induction f as [|f IH]; intros a Hn Hs.
  - exists []. split; [reflexivity|]. split; [constructor|intros x []].
  - destruct (kid_none st f (tk_kids (tok st a))) as [Hk|(k & Hk & Ek)].
    { apply error_tokens_some in Hk as [l Hl]. congruence. }
    assert (Hk1 : exists l, error_tokens (S f) st k = Some l).
    { exact (proj1 (error_tokens_some st (S f) a) Hs k Hk). }
    destruct (IH k Ek Hk1) as (p & Hp1 & Hp2 & Hp3). exists (a :: p). split; [cbn; lia|]. split.
    + constructor; [|assumption]. intros Ha. destruct (Hp3 a Ha) as (_ & l & Hl). congruence.
    + intros x [<-|Hx].
      * split; [|assumption]. destruct (Nat.lt_ge_cases a (List.length (st_heap st))) as [Hl|Hl]; [assumption|].
        unfold tok in Hk. rewrite nth_overflow in Hk by exact Hl. destruct Hk.
      * destruct (Hp3 x Hx) as (Hl & l & El). split; [assumption|]. exists l. eapply error_tokens_more; eauto.
Qed.

Lemma error_tokens_enough st f a l : error_tokens f st a = Some l ->
  error_tokens (S (List.length (st_heap st))) st a = Some l.
Proof.
  revert l. induction f as [|f IH]; intros l H; [easy|].
  destruct (error_tokens f st a) as [l'|] eqn:Ef.
  - rewrite (error_tokens_more _ _ _ _ Ef (S f)) in H by lia. injection H as <-. now apply IH.
  - destruct (error_tokens_chain st f a Ef (ex_intro _ l H)) as (p & Hp1 & Hp2 & Hp3).
    assert (Hf : (f <= List.length (st_heap st))%nat).
    { rewrite <- Hp1, <- (seq_length (List.length (st_heap st)) 0). apply NoDup_incl_length; [assumption|].
      intros x Hx. apply in_seq. destruct (Hp3 x Hx). lia. }
    eapply error_tokens_more; eauto. lia.
Qed.

Lemma error_tokens_fuel st a g : (S (List.length (st_heap st)) <= g)%nat ->
  error_tokens g st a = error_tokens (S (List.length (st_heap st))) st a.
Proof.
  intros Hg. destruct (error_tokens g st a) as [l|] eqn:Eg.
  - symmetry. now apply error_tokens_enough with g.
  - destruct (error_tokens (S (List.length (st_heap st))) st a) as [l|] eqn:Ek; [|reflexivity].
    rewrite (error_tokens_more _ _ _ _ Ek g Hg) in Eg. discriminate.
Qed.

Section Moving.
  Variables (H0 : list token) (S0 : list (list scope)).
  Notation ma := (moved_addr H0).
  Notation ms := (moved_sid S0).
  Notation mt := (moved_token H0).
  Notation mm := (moved_matcher S0).
  Notation mv := (moved_variable H0 S0).
  Notation mst := (moved_state H0 S0).
  Notation msu := (moved_success H0).
  Notation mre := (moved_result H0).

  (* ---------- the store ---------- *)

  Lemma mv_tok st a : tok (mst st) (ma a) = mt (tok st a).
  Proof.
    unfold tok, moved_state, moved_addr. cbn [st_heap]. rewrite app_nth2 by lia.
    replace (List.length H0 + a - List.length H0)%nat with a by lia.
    change dead_token with (mt dead_token) at 1. apply map_nth.
  Qed.
  Lemma map_upd {A B} (f : A -> B) n x l : map f (upd n x l) = upd n (f x) (map f l).
  Proof. revert n. induction l as [|y l IH]; intros [|n]; cbn; auto. now rewrite IH. Qed.
  Lemma upd_behind {A} (l0 : list A) n x l : upd (List.length l0 + n) x (l0 ++ l) = l0 ++ upd n x l.
  Proof. induction l0 as [|y l0 IH]; cbn; [reflexivity|]. now rewrite IH. Qed.
  Lemma mv_set_tok st a t : set_tok (mst st) (ma a) (mt t) = mst (set_tok st a t).
  Proof. unfold set_tok, moved_state, moved_addr. cbn [st_heap st_scopes]. now rewrite upd_behind, map_upd. Qed.
  Lemma mv_alloc st t : alloc (mst st) (mt t) = mst (alloc st t).
  Proof. unfold alloc, moved_state. cbn [st_heap st_scopes]. now rewrite map_app, app_assoc. Qed.
  Lemma mv_next st : next_addr (mst st) = ma (next_addr st).
  Proof. unfold next_addr, moved_state, moved_addr. cbn [st_heap]. now rewrite app_length, map_length. Qed.
  Lemma mv_next_sid st : next_sid (mst st) = ms (next_sid st).
  Proof. unfold next_sid, moved_state, moved_sid. cbn [st_scopes]. now rewrite app_length, map_length. Qed.
  Lemma mv_sc_new st : sc_new (mst st) = mst (sc_new st).
  Proof. unfold sc_new, moved_state. cbn [st_heap st_scopes]. now rewrite map_app, app_assoc. Qed.
  Lemma mv_stack_of st s : stack_of (mst st) (ms s) = map (moved_scope H0 S0) (stack_of st s).
  Proof.
    unfold stack_of, moved_state, moved_sid. cbn [st_scopes]. rewrite app_nth2 by lia.
    replace (List.length S0 + s - List.length S0)%nat with s by lia.
    change ([] : list scope) with (map (moved_scope H0 S0) []) at 1. apply map_nth.
  Qed.
  Lemma mv_set_stack st s l : set_stack (mst st) (ms s) (map (moved_scope H0 S0) l) = mst (set_stack st s l).
  Proof. unfold set_stack, moved_state, moved_sid. cbn [st_heap st_scopes]. now rewrite upd_behind, map_upd. Qed.
  Lemma mv_assoc_get n sc : assoc_get n (moved_scope H0 S0 sc) = option_map mv (assoc_get n sc).
  Proof. induction sc as [|[k v] sc IH]; cbn; [reflexivity|]. destruct (str_eqb n k); [reflexivity|exact IH]. Qed.
  Lemma mv_sc_get st s n : sc_get (mst st) (ms s) n = option_map mv (sc_get st s n).
  Proof.
    unfold sc_get. rewrite mv_stack_of. induction (stack_of st s) as [|sc l IH]; cbn [map stack_get]; [reflexivity|].
    rewrite mv_assoc_get. destruct (assoc_get n sc); [reflexivity|exact IH].
  Qed.
  Lemma mv_assoc_set n v sc : assoc_set n (mv v) (moved_scope H0 S0 sc) = moved_scope H0 S0 (assoc_set n v sc).
  Proof.
    unfold assoc_set. cbn [moved_scope map fst snd]. f_equal. induction sc as [|[k x] sc IH]; [reflexivity|].
    cbn [moved_scope map filter fst snd]. destruct (negb (str_eqb n k)); cbn [map fst snd]; now rewrite <- IH.
  Qed.
  Lemma mv_sc_set st s n v : sc_set (mst st) (ms s) n (mv v) = mst (sc_set st s n v).
  Proof.
    unfold sc_set. rewrite mv_stack_of, <- mv_set_stack. f_equal.
    destruct (stack_of st s) as [|sc l]; cbn [stack_set map]; [reflexivity|]. now rewrite mv_assoc_set.
  Qed.
  Lemma mv_sc_push st s : sc_push (mst st) (ms s) = mst (sc_push st s).
  Proof. unfold sc_push. now rewrite mv_stack_of, <- mv_set_stack. Qed.
  Lemma mv_sc_pop st s : sc_pop (mst st) (ms s) = mst (sc_pop st s).
  Proof. unfold sc_pop. rewrite mv_stack_of, <- mv_set_stack. now destruct (stack_of st s). Qed.

  (* ---------- matchers ---------- *)

  Lemma mv_name m : m_name (mm m) = m_name m.
  Proof. now destruct m. Qed.
  Lemma mv_custom m : m_custom (mm m) = m_custom m.
  Proof. now destruct m. Qed.
  Lemma mv_consuming m : m_consuming (mm m) = m_consuming m.
  Proof. destruct m as [| | | | | | | | | | | | | |[?|?] ? ?| | | | | | | |]; reflexivity. Qed.
  Lemma mv_before m s st : before_exec (mm m) (ms s) (mst st) = mst (before_exec m s st).
  Proof.
    unfold before_exec. rewrite mv_custom, mv_name. destruct (m_custom m); [|reflexivity].
    change (VMatcher (mm m)) with (mv (VMatcher m)). apply mv_sc_set.
  Qed.
  Lemma mv_register s l : forall st,
    fold_left (fun st m => sc_set st (ms s) (m_name m) (VMatcher m)) (map mm l) (mst st) =
    mst (fold_left (fun st m => sc_set st s (m_name m) (VMatcher m)) l st).
  Proof.
    induction l as [|m l IH]; intros st; cbn [map fold_left]; [reflexivity|].
    rewrite mv_name. change (VMatcher (mm m)) with (mv (VMatcher m)). now rewrite mv_sc_set, IH.
  Qed.

  (* ---------- tokens ---------- *)

  Lemma mv_get_attr k t : get_attr k (mt t) = get_attr k t.
  Proof. reflexivity. Qed.
  Lemma mv_std P n r : std_token P n r = mt (std_token P n r).
  Proof. reflexivity. Qed.
  Lemma mv_set_mr P r t : set_mr P r (mt t) = mt (set_mr P r t).
  Proof. reflexivity. Qed.
  Lemma mv_set_cr P r t : set_cr P r (mt t) = mt (set_cr P r t).
  Proof. reflexivity. Qed.
  Lemma mv_set_kids l t : set_kids (map ma l) (mt t) = mt (set_kids l t).
  Proof. reflexivity. Qed.
  Lemma mv_set_parent p t : set_parent (option_map ma p) (mt t) = mt (set_parent p t).
  Proof. reflexivity. Qed.
  Lemma mv_modify st a (f g : token -> token) : (forall t, g (mt t) = mt (f t)) ->
    modify (mst st) (ma a) g = mst (modify st a f).
  Proof. intros H. unfold modify. now rewrite mv_tok, H, mv_set_tok. Qed.
  Lemma ma_inj a b : ma a = ma b -> a = b.
  Proof. unfold moved_addr. lia. Qed.
  Lemma ma_eqb a b : Nat.eqb (ma a) (ma b) = Nat.eqb a b.
  Proof.
    destruct (Nat.eqb_spec a b) as [->|H]; [apply Nat.eqb_refl|]. apply Nat.eqb_neq. intros E. now apply ma_inj in E.
  Qed.

  Lemma mv_find_child st t n : find_child (mst st) (mt t) n = option_map ma (find_child st t n).
  Proof.
    unfold find_child. cbn [moved_token tk_kids]. induction (tk_kids t) as [|k l IH]; cbn [map find]; [reflexivity|].
    rewrite mv_tok. cbn [moved_token tk_name]. destruct (str_eqb (tk_name (tok st k)) n); [reflexivity|exact IH].
  Qed.
  Definition mtriple (p : addr * str * str) : addr * str * str := (ma (fst (fst p)), snd (fst p), snd p).
  Lemma mv_attr_pairs st l : attr_pairs (mst st) (map ma l) =
    match attr_pairs st l with Val x => Val (map mtriple x) | Die p => Die p end.
  Proof.
    induction l as [|a l IH]; cbn [map attr_pairs]; [reflexivity|].
    rewrite mv_tok. cbn [moved_token tk_kids]. destruct (tk_kids (tok st a)) as [|x [|y r]]; cbn [map]; try reflexivity.
    rewrite IH. destruct (attr_pairs st l); [|reflexivity]. now rewrite !mv_tok.
  Qed.
  Lemma mv_attributes st a : attributes_of (mst st) (ma a) =
    match attributes_of st a with Val x => Val (map mtriple x) | Die p => Die p end.
  Proof.
    unfold attributes_of. rewrite mv_tok, mv_find_child. destruct (find_child st (tok st a) "Attributes"); cbn [option_map]; [|reflexivity].
    rewrite mv_tok. apply mv_attr_pairs.
  Qed.
  Lemma mv_set_attrs l t : set_attrs (map mtriple l) (mt t) = mt (set_attrs l t).
  Proof.
    unfold set_attrs. revert t. induction l as [|p l IH]; intros t; cbn [map fold_left]; [reflexivity|].
    exact (IH (set_attr (snd (fst p)) (snd p) t)).
  Qed.
  Lemma mv_missing l t : add_missing_attrs l (mt t) = mt (add_missing_attrs l t).
  Proof.
    unfold add_missing_attrs. revert t. induction l as [|p l IH]; intros t; cbn [fold_left]; [reflexivity|].
    rewrite mv_get_attr. destruct (get_attr (fst p) t); [apply IH|exact (IH (set_attr (fst p) (snd p) t))].
  Qed.
  Lemma mv_hull st l : part_hull (mst st) (map ma l) = part_hull st l.
  Proof.
    unfold part_hull. generalize (mkR usize_max usize_max). induction l as [|a l IH]; intros r; cbn [map fold_left]; [reflexivity|].
    rewrite mv_tok. exact (IH _).
  Qed.
  Lemma mv_version l : version_attr (map mtriple l) = option_map ma (version_attr l).
  Proof.
    unfold version_attr. change (@None addr) with (option_map ma None) at 1. generalize (@None addr).
    induction l as [|p l IH]; intros o; cbn [map fold_left]; [reflexivity|].
    cbn [mtriple fst snd]. rewrite <- IH. now destruct (str_eqb (snd (fst p)) "version").
  Qed.
  Lemma mv_error_tokens st : forall g a, error_tokens g (mst st) (ma a) = option_map (map ma) (error_tokens g st a).
  Proof.
    induction g as [|g IH]; intros a; [reflexivity|]. cbn [error_tokens]. rewrite mv_tok. cbn [moved_token tk_kids].
    change (is_error (mt (tok st a))) with (is_error (tok st a)).
    replace (Some (if is_error (tok st a) then [ma a] else [])) with
      (option_map (map ma) (Some (if is_error (tok st a) then [a] else []))) by (cbn [option_map]; now destruct (is_error (tok st a))).
    generalize (Some (if is_error (tok st a) then [a] else [])). generalize (tk_kids (tok st a)).
    induction l as [|k l IHl]; intros o; cbn [map fold_left]; [reflexivity|].
    rewrite IH, <- IHl. f_equal. destruct o; cbn [option_map]; [|reflexivity].
    destruct (error_tokens g st k); cbn [option_map]; [|reflexivity]. now rewrite map_app.
  Qed.
  Lemma mv_errors st a : error_tokens (S (List.length (st_heap (mst st)))) (mst st) (ma a) =
    option_map (map ma) (error_tokens (S (List.length (st_heap st))) st a).
  Proof.
    rewrite mv_error_tokens. f_equal. apply error_tokens_fuel. cbn [moved_state st_heap].
    rewrite app_length, map_length. lia.
  Qed.
  Lemma mv_add_errors P st l : forall t, add_errors P (mst st) (map ma l) (mt t) = mt (add_errors P st l t).
  Proof.
    unfold add_errors. induction l as [|e l IH]; intros t; cbn [map fold_left]; [reflexivity|].
    rewrite mv_tok, <- IH. f_equal. unfold widen. cbn [moved_token tk_mr tk_kids set_kids].
    set (b := _ || _). destruct b.
    - unfold moved_token, set_mr, set_kids. cbn. now rewrite map_app.
    - unfold moved_token, set_kids. cbn. now rewrite map_app.
  Qed.

  (* ---------- executions ---------- *)

  Variables (U : call -> Prop) (E E' : env) (P : parser).
  Hypothesis Hmov : movable H0 S0 U E E'.
  Hypothesis Hchk : e_checks E' = e_checks E.
  Notation G := (scopes_call_only U).

  Definition sim {A} (f : A -> A) (r' r : res A) : Prop :=
    r' = moved_res H0 S0 f r /\ match r with Ret _ st => G st | _ => True end.
  Lemma sim_ret {A} (f : A -> A) x' x st' st : x' = f x -> st' = mst st -> G st -> sim f (Ret x' st') (Ret x st).
  Proof. intros -> -> H. split; [reflexivity|exact H]. Qed.
  Lemma sim_pan {A} (f : A -> A) p : sim f (Pan p) (Pan p).
  Proof. now split. Qed.
  Lemma sim_oof {A} (f : A -> A) : sim f OOF OOF.
  Proof. now split. Qed.
  Lemma sim_bind {A B} (f : A -> A) (g : B -> B) r' r (k' k : A -> state -> res B) :
    sim f r' r -> (forall x st, G st -> sim g (k' (f x) (mst st)) (k x st)) ->
    sim g (match r' with Ret x st => k' x st | Pan p => Pan p | OOF => OOF end)
          (match r with Ret x st => k x st | Pan p => Pan p | OOF => OOF end).
  Proof.
    intros [-> Hg] Hk. destruct r as [x st|p|]; cbn [moved_res]; [now apply Hk|now split|now split].
  Qed.
  Lemma sim_let {A B} (g : B -> B) (m : may A) (k' k : A -> res B) :
    (forall x, sim g (k' x) (k x)) ->
    sim g (match m with Val x => k' x | Die p => Pan p end) (match m with Val x => k x | Die p => Pan p end).
  Proof. intros H. destruct m; [apply H|apply sim_pan]. Qed.

  Lemma g_heap st st' : st_scopes st' = st_scopes st -> G st -> G st'.
  Proof. intros H. apply (all_same (calls_only U)); assumption. Qed.
  Lemma g_alloc st t : G st -> G (alloc st t).
  Proof. now apply g_heap. Qed.
  Lemma g_set st a t : G st -> G (set_tok st a t).
  Proof. now apply g_heap. Qed.
  Lemma g_modify st a f : G st -> G (modify st a f).
  Proof. now apply g_heap. Qed.
  Lemma mv_columns r : get_columns E' P r = get_columns E P r.
  Proof. unfold get_columns. now rewrite Hchk. Qed.
  Lemma mv_error_string msg r : error_string E' P msg r = error_string E P msg r.
  Proof. unfold error_string. now rewrite mv_columns. Qed.
  Lemma mv_error_at msg r st : G st -> sim mre (error_token_at E' P msg r (mst st)) (error_token_at E P msg r st).
  Proof.
    intros Hg. unfold error_token_at. rewrite mv_error_string. apply sim_let. intros x.
    apply sim_ret; [now rewrite mv_next| |now apply g_alloc]. now rewrite <- mv_alloc.
  Qed.

  (* contexts *)
  Lemma ctx_off c c' : moved_ctx H0 S0 c c' -> c_off c' = c_off c.
  Proof. now intros (_ & _ & _ & H). Qed.
  Lemma ctx_name c c' n n' : moved_ctx H0 S0 c c' -> moved_ctx H0 S0 (clone_with_name c n) (clone_with_name c' n').
  Proof. intros (H1 & H2 & H3 & H4). now repeat split. Qed.
  Lemma ctx_start c c' z : moved_ctx H0 S0 c c' -> moved_ctx H0 S0 (with_start c z) (with_start c' z).
  Proof. intros (H1 & H2 & H3 & H4). repeat split; cbn; auto. now rewrite H4. Qed.
  Lemma ctx_end c c' z : moved_ctx H0 S0 c c' -> moved_ctx H0 S0 (with_end c z) (with_end c' z).
  Proof. intros (H1 & H2 & H3 & H4). repeat split; cbn; auto. now rewrite H4. Qed.
  Lemma ctx_debug c c' d : moved_ctx H0 S0 c c' -> moved_ctx H0 S0 (with_debug c d) (with_debug c' d).
  Proof. intros (H1 & H2 & H3 & H4). now repeat split. Qed.
  Lemma ctx_push c c' a : moved_ctx H0 S0 c c' -> moved_ctx H0 S0 (push_tok c a) (push_tok c' (ma a)).
  Proof. intros (H1 & H2 & H3 & H4). repeat split; cbn; auto. now rewrite H3. Qed.
  Lemma mv_matches_str c c' p : moved_ctx H0 S0 c c' -> matches_str P c' p = matches_str P c p.
  Proof. intros H. unfold matches_str. now rewrite (ctx_off _ _ H). Qed.
  Lemma mv_matches_at c c' p i : moved_ctx H0 S0 c c' -> matches_str_at P c' p i = matches_str_at P c p i.
  Proof. intros H. unfold matches_str_at. now rewrite (ctx_off _ _ H). Qed.
  Lemma mv_regexp c c' f : moved_ctx H0 S0 c c' -> matches_regexp P c' f = matches_regexp P c f.
  Proof. intros H. unfold matches_regexp. now rewrite (ctx_off _ _ H). Qed.
  Lemma mv_debug_range c c' k : moved_ctx H0 S0 c c' -> debug_range E' P c' k = debug_range E P c k.
  Proof. intros H. unfold debug_range. now rewrite (ctx_off _ _ H), Hchk. Qed.
  Lemma mv_dbg c c' k : moved_ctx H0 S0 c c' -> dbg E' P c' k = dbg E P c k.
  Proof. intros H. unfold dbg. rewrite (mv_debug_range _ _ _ H). destruct H as (-> & _). reflexivity. Qed.
  Lemma mv_scan c c' ep esc : moved_ctx H0 S0 c c' -> forall f i p v,
    seq_scan f P c' ep esc i p v = seq_scan f P c ep esc i p v.
  Proof.
    intros H. induction f as [|f IH]; intros i p v; [reflexivity|]. cbn [seq_scan].
    rewrite (ctx_off _ _ H), !(mv_matches_at _ _ _ _ H).
    destruct (re (c_off c) <=? i); [reflexivity|].
    destruct (matches_str_at P c ep i) as [[r|]|q]; try reflexivity.
    destruct (matches_str_at P c esc i) as [[r|]|q]; try reflexivity; [|apply IH].
    destruct (if p <? i then src_slice P p i else Val []); [apply IH|reflexivity].
  Qed.

  (* references *)
  Definition mfetched (g : fetched) : fetched :=
    match g with GStr v => GStr v | GMatcher m => GMatcher (mm m) end.
  Lemma mv_fetch st s f : fetch_value (mst st) (ms s) (moved_fetchable S0 f) =
    match fetch_value st s f with Val g => Val (mfetched g) | Die p => Die p end.
  Proof.
    destruct f as [v|n|m]; cbn [moved_fetchable fetch_value]; try reflexivity.
    rewrite mv_sc_get. destruct (sc_get st s (hd [] (split "." n))) as [[a|v|m]|]; cbn [option_map moved_variable]; try reflexivity.
    - destruct (split "." n) as [|x [|y [|z l]]]; try reflexivity. rewrite mv_tok.
      change (fetch_token (mt (tok st a)) n y) with (fetch_token (tok st a) n y).
      destruct (fetch_token (tok st a) n y); reflexivity.
    - destruct (split "." n) as [|x [|y l]]; reflexivity.
  Qed.
  Lemma g_fetch st s f m : G st -> (forall x, f = FMatcher x -> calls_only U x) ->
    fetch_value st s f = Val (GMatcher m) -> calls_only U m.
  Proof.
    intros Hg Hf. destruct f as [v|n|x]; cbn [fetch_value]; [discriminate| |].
    - destruct (sc_get st s (hd [] (split "." n))) as [[a|v|y]|] eqn:Es; try discriminate.
      + destruct (split "." n) as [|x [|y [|z l]]]; try discriminate.
        destruct (fetch_token (tok st a) n y); discriminate.
      + destruct (split "." n) as [|x [|y l]]; discriminate.
      + intros H. injection H as <-. eapply all_get; eauto.
    - intros H. injection H as <-. now apply Hf.
  Qed.

  (* Map *)
  Lemma mv_map_ok f a c c' s st : G st -> moved_ctx H0 S0 c c' -> (forall k, f = MapUser k -> U (CallMap k)) ->
    sim mre (map_ok E' P f (ma a) c' (ms s) (mst st)) (map_ok E P f a c s st).
  Proof.
    intros Hg Hc Hf. destruct f as [k|msg|msg|msg|msg|l|n| | | | |]; cbn [map_ok].
    - apply (proj1 (Hmov st Hg c c' Hc)). now apply Hf.
    - rewrite mv_tok, mv_error_string. apply sim_let. intros x. now apply sim_ret.
    - now apply sim_ret.
    - rewrite mv_tok. now apply mv_error_at.
    - now apply sim_ret.
    - apply sim_ret; [reflexivity| |now apply g_modify]. apply mv_modify. apply mv_missing.
    - apply sim_ret; [reflexivity| |now apply g_modify]. apply mv_modify. reflexivity.
    - rewrite mv_attributes. destruct (attributes_of st a) as [l|]; [|apply sim_pan].
      apply sim_ret; [reflexivity| |now apply g_modify]. apply mv_modify. apply mv_set_attrs.
    - apply sim_ret; [reflexivity| |now apply g_modify]. apply mv_modify. intros t. rewrite mv_tok.
      cbn [moved_token tk_kids]. now rewrite mv_hull.
    - rewrite mv_attributes. destruct (attributes_of st a) as [l|]; [|apply sim_pan].
      assert (Hm : modify (mst st) (ma a) (set_attrs (map mtriple l)) = mst (modify st a (set_attrs l))).
      { apply mv_modify. apply mv_set_attrs. }
      rewrite Hm, mv_tok, mv_get_attr. set (st1 := modify st a (set_attrs l)).
      assert (Hg1 : G st1) by now apply g_modify. clearbody st1.
      destruct (get_attr "version" (tok st1 a)) as [v|].
      + destruct (parse_usize v); [now apply sim_ret|]. rewrite mv_version. destruct (version_attr l); [|apply sim_pan].
        cbn [option_map]. rewrite mv_tok. now apply mv_error_at.
      + rewrite mv_find_child. destruct (find_child st1 (tok st1 a) "EndOfScopeHeader"); cbn [option_map].
        * rewrite mv_tok. now apply mv_error_at.
        * now apply mv_error_at.
    - rewrite mv_tok. cbn [moved_token tk_mr]. destruct (re (tk_mr (tok st a)) <? slen (p_src P)); [|now apply sim_ret].
      apply sim_let. intros x. unfold error_token. rewrite (ctx_off _ _ Hc). now apply mv_error_at.
    - rewrite mv_tok, !mv_find_child. destruct (find_child st (tok st a) "AdextopaScope"); cbn [option_map]; [now apply sim_ret|].
      destruct (find_child st (tok st a) "PatternScope"); cbn [option_map]; [now apply sim_ret|]. now apply mv_error_at.
  Qed.
  Lemma mv_map_err f e c c' s st : G st -> moved_ctx H0 S0 c c' -> (forall k, f = MapUser k -> U (CallMap k)) ->
    sim mre (map_err E' P f e c' (ms s) (mst st)) (map_err E P f e c s st).
  Proof.
    intros Hg Hc Hf.
    destruct f as [k|msg|msg|msg|msg|l|n| | | | |]; cbn [map_err]; try (destruct e; now apply sim_ret).
    - apply (proj1 (proj2 (Hmov st Hg c c' Hc))). now apply Hf.
    - destruct e; [|now apply sim_ret]. rewrite mv_error_string, (ctx_off _ _ Hc). apply sim_let. intros x. now apply sim_ret.
    - destruct e; [|now apply sim_ret]. unfold error_token. rewrite (ctx_off _ _ Hc). now apply mv_error_at.
  Qed.

  (* Discard *)
  Lemma mv_skip_token start a st : G st -> sim msu (skip_token E' P start (ma a) (mst st)) (skip_token E P start a st).
  Proof.
    intros Hg. unfold skip_token. rewrite mv_errors, mv_tok.
    destruct (error_tokens (S (List.length (st_heap st))) st a) as [l|]; cbn [option_map]; [|apply sim_oof].
    cbn [moved_token tk_mr]. rewrite mv_std, mv_add_errors, mv_alloc, mv_next, Hchk.
    destruct l as [|x l]; cbn [map].
    - destruct (isize_sub (e_checks E) (as_isize (re (tk_mr (tok st a)))) (as_isize start)); cbn [or_die]; [|apply sim_pan].
      apply sim_ret; try reflexivity. now apply g_alloc.
    - apply sim_ret; try reflexivity. now apply g_alloc.
  Qed.
  Lemma mv_discard start r st : G st -> sim mre (discard_result E' P start (mre r) (mst st)) (discard_result E P start r st).
  Proof.
    intros Hg.
    assert (Hp : forall p, sim msu (discard_payload E' P start (msu p) (mst st)) (discard_payload E P start p st)).
    { intros [a|a|z|n p|n p| |]; cbn [moved_success discard_payload]; try (now apply mv_skip_token); try (now apply sim_ret); apply sim_pan. }
    destruct r as [[a|a|z|n p|n p| |]|e]; cbn [moved_result moved_success discard_result]; try now apply sim_ret.
    - eapply sim_bind; [now apply mv_skip_token|]. intros x st1 Hg1. now apply sim_ret.
    - eapply sim_bind; [now apply mv_skip_token|]. intros x st1 Hg1. now apply sim_ret.
    - eapply sim_bind; [apply Hp|]. intros x st1 Hg1. now apply sim_ret.
    - eapply sim_bind; [apply Hp|]. intros x st1 Hg1. now apply sim_ret.
  Qed.

  (* Pin *)
  Lemma mv_parse_offset a b v : parse_offset E' a b v = parse_offset E a b v.
  Proof. unfold parse_offset. now rewrite Hchk. Qed.
  Lemma mv_pin c c' v : moved_ctx H0 S0 c c' ->
    match pin_context E c v with
    | Val d => exists d', pin_context E' c' v = Val d' /\ moved_ctx H0 S0 d d'
    | Die p => pin_context E' c' v = Die p
    end.
  Proof.
    intros Hc. unfold pin_context. rewrite (ctx_off _ _ Hc), mv_parse_offset.
    destruct (parse_offset E (rs (c_off c)) (rs (c_off c)) (hd [] (split ".." v))) as [z|p]; [|reflexivity].
    destruct (split ".." v) as [|x [|y l]].
    - eexists. split; [reflexivity|]. now apply ctx_start.
    - eexists. split; [reflexivity|]. now apply ctx_start.
    - rewrite (ctx_off _ _ (ctx_start _ _ z Hc)), mv_parse_offset.
      destruct (parse_offset E (rs (c_off (with_start c z))) (re (c_off (with_start c z))) y); [|reflexivity].
      eexists. split; [reflexivity|]. apply ctx_end. now apply ctx_start.
  Qed.

  (* Sequence *)
  Lemma mv_sequence x y z n c c' s st : G st -> moved_ctx H0 S0 c c' ->
    sim mre (exec_sequence E' P (moved_fetchable S0 x) (moved_fetchable S0 y) (moved_fetchable S0 z) n c' (ms s) (mst st))
            (exec_sequence E P x y z n c s st).
  Proof.
    intros Hg Hc. unfold exec_sequence. pose proof (ctx_name _ _ n n Hc) as Hn.
    rewrite !mv_fetch. destruct (fetch_value st s x) as [[sp|m]|p]; cbn [mfetched]; [|now apply sim_ret|apply sim_pan].
    destruct (slen sp =? 0); [apply sim_pan|].
    destruct (fetch_value st s y) as [[ep|m]|p]; cbn [mfetched]; [|now apply sim_ret|apply sim_pan].
    destruct (slen ep =? 0); [apply sim_pan|].
    destruct (fetch_value st s z) as [[xp|m]|p]; cbn [mfetched]; [|now apply sim_ret|apply sim_pan].
    rewrite (mv_matches_str _ _ _ Hn). destruct (matches_str P (clone_with_name c n) sp) as [[r|]|p]; [| |apply sim_pan].
    - rewrite (mv_scan _ _ _ _ Hn).
      destruct (seq_scan (S (List.length (p_src P))) P (clone_with_name c n) ep xp (re r) (re r) []) as [[i v| |]|p]; try apply sim_pan; try apply sim_oof.
      + rewrite (mv_dbg _ _ _ Hn), (ctx_off _ _ Hn). apply sim_let. intros _.
        apply sim_ret; [now rewrite mv_next| |now apply g_alloc]. now rewrite <- mv_alloc.
      + rewrite (mv_dbg _ _ _ Hn). apply sim_let. intros _. now apply sim_ret.
    - rewrite (mv_dbg _ _ _ Hn). apply sim_let. intros _. now apply sim_ret.
  Qed.

  (* Program *)
  Definition mpst (ps : pst) : pst := mkPst (ps_off ps) (map ma (ps_kids ps)) (ps_cr ps) (ps_mr ps).
  Lemma mv_add pt a x y ps st : G st ->
    sim mpst (add_token P (ma pt) (ma a) x y (mpst ps) (mst st)) (add_token P pt a x y ps st).
  Proof.
    intros Hg. unfold add_token. rewrite mv_tok. cbn [mpst ps_off ps_kids ps_cr ps_mr].
    change (is_error (mt (tok st a))) with (is_error (tok st a)). change (tk_mr (mt (tok st a))) with (tk_mr (tok st a)).
    destruct (negb (is_error (tok st a)) && x && y && (re (tk_mr (tok st a)) =? ps_off ps)); [apply sim_pan|].
    destruct (is_error (tok st a) && (rs (tk_mr (tok st a)) =? re (tk_mr (tok st a)))).
    - apply sim_ret; [|now rewrite <- mv_set_tok|now apply g_set].
      unfold mpst. cbn [ps_off ps_kids ps_cr ps_mr]. now rewrite map_app.
    - apply sim_ret; [|now rewrite <- mv_set_tok|now apply g_set].
      unfold mpst. cbn [ps_off ps_kids ps_cr ps_mr]. now rewrite map_app.
  Qed.
  Lemma mv_handle pt a x y ps st : G st ->
    sim mpst (handle_token P (ma pt) (ma a) x y (mpst ps) (mst st)) (handle_token P pt a x y ps st).
  Proof. intros Hg. unfold handle_token. rewrite mv_tok. now apply mv_add. Qed.
  Lemma mv_extract_kids pt self u l : forall ps st, G st ->
    sim mpst (extract_children P (ma pt) (ma self) u (map ma l) (mpst ps) (mst st)) (extract_children P pt self u l ps st).
  Proof.
    induction l as [|k l IH]; intros ps st Hg; cbn [map extract_children]; [now apply sim_ret|].
    rewrite mv_tok, ma_eqb. change (should_discard (mt (tok st k))) with (should_discard (tok st k)).
    destruct (should_discard (tok st k)); [now apply IH|].
    destruct (Nat.eqb k self); [apply sim_pan|].
    eapply sim_bind; [now apply mv_add|]. intros ps1 st1 Hg1. now apply IH.
  Qed.
  Lemma mv_extract pt a u ps st : G st ->
    sim mpst (handle_extract P (ma pt) (ma a) u (mpst ps) (mst st)) (handle_extract P pt a u ps st).
  Proof.
    intros Hg. unfold handle_extract. rewrite mv_tok.
    change (should_discard (mt (tok st a))) with (should_discard (tok st a)).
    change (tk_kids (mt (tok st a))) with (map ma (tk_kids (tok st a))).
    destruct (u && negb (should_discard (tok st a))).
    - apply (mv_extract_kids pt a true _ (mkPst _ (ps_kids ps) _ _)). exact Hg.
    - now apply mv_extract_kids.
  Qed.
  Lemma mv_handle_skip start z ps st : G st ->
    sim mpst (handle_skip E' start z (mpst ps) (mst st)) (handle_skip E start z ps st).
  Proof. intros Hg. unfold handle_skip. rewrite Hchk. apply sim_let. intros x. now apply sim_ret. Qed.
  Lemma mv_finalize i pt ps n b st : G st ->
    sim mre (finalize P i (ma pt) (mpst ps) n b (mst st)) (finalize P i pt ps n b st).
  Proof.
    intros Hg. unfold finalize. cbn [mpst ps_cr ps_mr ps_kids].
    assert (Hc : sim mre
      (if (rs (ps_cr ps) =? usize_max) || (rs (ps_mr ps) =? usize_max) then Ret (Err FFail) (mst st)
       else match map ma (ps_kids ps) with
            | [] => Ret (Err FFail) (mst st)
            | _ => Ret (Ok (SToken (ma pt))) (modify (mst st) (ma pt) (fun t => set_mr P (ps_mr ps) (set_cr P (ps_cr ps) (set_kids (map ma (ps_kids ps)) t))))
            end)
      (if (rs (ps_cr ps) =? usize_max) || (rs (ps_mr ps) =? usize_max) then Ret (Err FFail) st
       else match ps_kids ps with
            | [] => Ret (Err FFail) st
            | _ => Ret (Ok (SToken pt)) (modify st pt (fun t => set_mr P (ps_mr ps) (set_cr P (ps_cr ps) (set_kids (ps_kids ps) t))))
            end)).
    { destruct ((rs (ps_cr ps) =? usize_max) || (rs (ps_mr ps) =? usize_max)); [now apply sim_ret|].
      destruct (ps_kids ps) as [|k l]; [now apply sim_ret|]. apply sim_ret; [reflexivity| |now apply g_modify].
      apply (mv_modify st pt). reflexivity. }
    destruct b; [|exact Hc]. destruct (pi_iter i) as [[lo hi]|]; [|exact Hc].
    replace (match map ma (ps_kids ps) with [] => true | _ => false end) with (match ps_kids ps with [] => true | _ => false end)
      by now destruct (ps_kids ps).
    destruct ((lo =? 0) && (n =? 0) && match ps_kids ps with [] => true | _ => false end); [now apply sim_ret|].
    destruct (n <? lo); [now apply sim_ret|exact Hc].
  Qed.

  Variables rec rec' : recT.
  Hypothesis Hrec : forall m c c' s st, calls_only U m -> moved_ctx H0 S0 c c' -> G st ->
    sim mre (rec' (mm m) c' (ms s) (mst st)) (rec m c s st).

  Definition mctl (k : ctl) : ctl :=
    match k with CDone => CDone | CAct x => CAct (msu x) | CRet r => CRet (mre r) end.
  Definition mrun (x : ctl * pst) : ctl * pst := (mctl (fst x), mpst (snd x)).

  Lemma mv_patterns i c c' s pt start n pats : moved_ctx H0 S0 c c' -> (forall m, In m pats -> calls_only U m) ->
    forall ps st, G st ->
    sim mrun (run_patterns E' P rec' i c' (ms s) (ma pt) start n (map mm pats) (mpst ps) (mst st))
             (run_patterns E P rec i c s pt start n pats ps st).
  Proof.
    intros Hc. induction pats as [|m pats IH]; intros Hp ps st Hg; cbn [map run_patterns]; [now apply sim_ret|].
    assert (IH' : forall ps st, G st ->
      sim mrun (run_patterns E' P rec' i c' (ms s) (ma pt) start n (map mm pats) (mpst ps) (mst st))
               (run_patterns E P rec i c s pt start n pats ps st)) by (apply IH; intros x Hx; apply Hp; now right).
    cbn [mpst ps_off]. eapply sim_bind.
    { apply Hrec; [apply Hp; now left| |exact Hg]. apply ctx_push. apply ctx_start. exact Hc. }
    intros r st1 Hg1. rewrite mv_consuming.
    destruct r as [[a|a|z|b p|b p| |]|e]; cbn [moved_result moved_success]; try now apply sim_ret.
    - rewrite mv_tok. change (should_discard (mt (tok st1 a))) with (should_discard (tok st1 a)).
      destruct (should_discard (tok st1 a)); [now apply IH'|]. destruct (pi_stop i); [now apply sim_ret|].
      eapply sim_bind; [now apply mv_handle|]. intros ps1 st2 Hg2. now apply IH'.
    - rewrite mv_tok. change (should_discard (mt (tok st1 a))) with (should_discard (tok st1 a)).
      destruct (should_discard (tok st1 a)); [now apply IH'|]. destruct (pi_stop i); [now apply sim_ret|].
      eapply sim_bind; [now apply mv_extract|]. intros ps1 st2 Hg2. now apply IH'.
    - destruct ((0 <? z)%Z && pi_stop i); [now apply sim_ret|].
      destruct (m_consuming m); [|now apply IH'].
      eapply sim_bind; [now apply mv_handle_skip|]. intros ps1 st2 Hg2. now apply IH'.
    - rewrite (mv_dbg _ _ 10 (ctx_start _ _ (ps_off ps) Hc)). apply sim_let. intros _.
      destruct e as [|e]; [|now apply sim_ret]. destruct (pi_stop i); [now apply IH'|].
      destruct (pi_iter i) as [r|]; [|now apply sim_ret].
      eapply sim_bind; [now apply mv_finalize|]. intros x st2 Hg2. now apply sim_ret.
  Qed.
  Lemma mv_payload pt start p ps st : G st ->
    sim mpst (handle_payload E' P (ma pt) start (msu p) (mpst ps) (mst st)) (handle_payload E P pt start p ps st).
  Proof.
    intros Hg. destruct p; cbn [moved_success handle_payload]; try (now apply sim_ret).
    - now apply mv_handle.
    - now apply mv_extract.
    - now apply mv_handle_skip.
  Qed.
  Lemma mv_iterate pats i c c' s pt start : moved_ctx H0 S0 c c' -> (forall m, In m pats -> calls_only U m) ->
    forall f left n ps st, G st ->
    sim mre (iterate f E' P rec' (map mm pats) i c' (ms s) (ma pt) start left n (mpst ps) (mst st))
            (iterate f E P rec pats i c s pt start left n ps st).
  Proof.
    intros Hc Hp. induction f as [|f IH]; intros left n ps st Hg; cbn [iterate].
    - destruct (left =? 0); [now apply mv_finalize|apply sim_oof].
    - destruct (left =? 0); [now apply mv_finalize|].
      eapply sim_bind; [now apply mv_patterns|]. intros [k ps1] st1 Hg1. cbn [mrun fst snd].
      destruct k as [|x|r]; cbn [mctl].
      + now apply IH.
      + destruct x as [a|a|z|b p|b p| |]; cbn [moved_success]; try apply sim_pan.
        * destruct (pi_stop i); [now apply sim_ret|].
          eapply sim_bind; [now apply mv_payload|]. intros ps2 st2 Hg2.
          eapply sim_bind; [now apply mv_finalize|]. intros r st3 Hg3.
          destruct (is_target i b); [now apply sim_ret|]. destruct r; now apply sim_ret.
        * destruct (pi_stop i); [now apply sim_ret|].
          eapply sim_bind; [now apply mv_payload|]. intros ps2 st2 Hg2.
          destruct (is_target i b); [now apply IH|now apply mv_finalize].
        * now apply mv_finalize.
      + now apply sim_ret.
  Qed.
  Lemma mv_program f pats i c c' s st : moved_ctx H0 S0 c c' -> (forall m, In m pats -> calls_only U m) -> G st ->
    sim mre (exec_program f E' P rec' (map mm pats) i c' (ms s) (mst st)) (exec_program f E P rec pats i c s st).
  Proof.
    intros Hc Hp Hg. unfold exec_program. rewrite mv_next, mv_std, mv_alloc.
    rewrite (ctx_off _ _ (ctx_name _ _ (pi_name i) (pi_name i) Hc)).
    apply (mv_iterate pats i _ _ s (next_addr st) _ (ctx_name _ _ _ _ Hc) Hp f _ _ (init_pst _)). now apply g_alloc.
  Qed.

  Lemma mv_step f m c c' s st : calls_only U m -> moved_ctx H0 S0 c c' -> G st ->
    sim mre (step f E' P rec' (mm m) c' (ms s) (mst st)) (step f E P rec m c s st).
  Proof.
    intros Hm Hc Hg0. unfold step. rewrite mv_before, mv_name.
    assert (Hg : G (before_exec m s st)) by (apply (all_before (calls_only U)); assumption).
    pose proof (ctx_name _ _ (m_name m) (m_name m) Hc) as Hn.
    set (st1 := before_exec m s st) in *. clearbody st1. clear st Hg0. rename st1 into st.
    inversion Hm as [m0 Hu Hparts]; subst m0.
    destruct m as [pats i|p n b|r n b|x y z n b|m1|m1|m1| |msg|msg|n|m1 k|m1 g|om off n b|p n b|n|l|t n b|os m1|m1 n b|m1|om d|k n b cs];
      cbn [moved_matcher parts own_calls] in *; cbv zeta.
    - now apply mv_program.
    - rewrite mv_fetch. destruct (fetch_value st s p) as [[v|m]|q]; cbn [mfetched]; [|now apply sim_ret|apply sim_pan].
      rewrite (mv_matches_str _ _ _ Hn), (mv_dbg _ _ _ Hn). apply sim_let. intros [r|]; apply sim_let; intros _; [|now apply sim_ret].
      apply sim_ret; [now rewrite mv_next|now rewrite <- mv_alloc|now apply g_alloc].
    - rewrite (mv_regexp _ _ _ Hn), (mv_dbg _ _ _ Hn). apply sim_let. intros [r'|].
      + destruct (rs r' =? re r'); [apply sim_let; intros _; now apply sim_ret|].
        apply sim_ret; [now rewrite mv_next|now rewrite <- mv_alloc|now apply g_alloc].
      + apply sim_let; intros _; now apply sim_ret.
    - now apply mv_sequence.
    - eapply sim_bind; [apply Hrec; auto; apply Hparts; now left|]. intros r st1 Hg1.
      destruct r as [[a|a|z|q p|q p| |]|[|e]]; cbn [moved_result moved_success]; try now apply sim_ret.
      destruct (z =? 0)%Z; now apply sim_ret.
    - eapply sim_bind; [apply Hrec; auto; apply Hparts; now left|]. intros r st1 Hg1.
      destruct r as [y|[|e]]; cbn [moved_result]; now apply sim_ret.
    - eapply sim_bind; [apply Hrec; auto; apply Hparts; now left|]. intros r st1 Hg1.
      rewrite (ctx_off _ _ Hc). now apply mv_discard.
    - now apply sim_ret.
    - unfold top_token. rewrite (ctx_off _ _ Hc), mv_error_string.
      replace (match hd_error (c_stack c') with
               | Some a => mkR (rs (tk_mr (tok (mst st) a))) (rs (c_off c))
               | None => mkR (rs (c_off c)) (rs (c_off c))
               end)
         with (match hd_error (c_stack c) with
               | Some a => mkR (rs (tk_mr (tok st a))) (rs (c_off c))
               | None => mkR (rs (c_off c)) (rs (c_off c))
               end).
      2:{ destruct Hc as (_ & _ & -> & _). destruct (c_stack c); cbn [map hd_error]; [reflexivity|]. now rewrite mv_tok. }
      apply sim_let. intros x. now apply sim_ret.
    - unfold error_token. rewrite (ctx_off _ _ Hc). now apply mv_error_at.
    - now apply sim_ret.
    - eapply sim_bind; [apply Hrec; auto; apply Hparts; now left|]. intros r st1 Hg1.
      destruct r as [y|e]; cbn [moved_result]; [now apply sim_ret|].
      apply (proj1 (proj2 (proj2 (Hmov st1 Hg1 _ _ Hn)))). apply Hu. now left.
    - assert (Hg' : forall k, g = MapUser k -> U (CallMap k)) by (intros k ->; apply Hu; now left).
      eapply sim_bind; [apply Hrec; auto; apply Hparts; now left|]. intros r st1 Hg1.
      destruct r as [[a|a|z|q p|q p| |]|e]; cbn [moved_result moved_success]; try (now apply sim_ret); try (now apply mv_map_ok). now apply mv_map_err.
    - rewrite mv_fetch. destruct (fetch_value st s off) as [[v|m]|q]; cbn [mfetched]; [|now apply sim_ret|apply sim_pan].
      pose proof (mv_pin _ _ v Hn) as Hpin. destruct (pin_context E (clone_with_name c (m_name (MPin om off n b))) v) as [d|q].
      + destruct Hpin as (d' & -> & Hd). destruct om as [m1|]; cbn [option_map].
        * apply Hrec; auto. apply Hparts. now left.
        * rewrite (ctx_off _ _ Hd). apply sim_ret; [now rewrite mv_next|now rewrite <- mv_alloc|now apply g_alloc].
      + rewrite Hpin. apply sim_pan.
    - destruct p as [m1|v]; cbn [moved_storepat].
      + eapply sim_bind; [apply Hrec; auto; apply Hparts; now left|]. intros r st1 Hg1.
        destruct r as [[a|a|z|q p|q p| |]|e]; cbn [moved_result moved_success]; try now apply sim_ret.
        apply sim_ret; [reflexivity|now rewrite <- mv_sc_set|]. now apply (all_set (calls_only U)).
      + apply sim_ret; [reflexivity|now rewrite <- mv_sc_set|]. now apply (all_set (calls_only U)).
    - now apply sim_ret.
    - apply sim_ret; [reflexivity|apply mv_register|]. now apply (all_register (calls_only U)).
    - rewrite mv_fetch. destruct (fetch_value st s t) as [[v|m]|q] eqn:Ef; cbn [mfetched]; [| |apply sim_pan].
      + rewrite mv_sc_get. destruct (sc_get st s v) as [[a|w|m]|] eqn:Es; cbn [option_map moved_variable]; try now apply sim_ret.
        apply Hrec; auto. eapply all_get; eauto.
      + apply Hrec; auto. eapply g_fetch; eauto. intros x ->. apply Hparts. now left.
    - destruct os as [s1|]; cbn [option_map].
      + apply Hrec; auto. apply Hparts. now left.
      + replace (c_scope c') with (ms (c_scope c)) by (symmetry; apply Hc). rewrite mv_sc_push.
        eapply sim_bind; [apply Hrec; auto; [apply Hparts; now left|now apply (all_push (calls_only U))]|]. intros r st1 Hg1.
        apply sim_ret; [reflexivity|apply mv_sc_pop|now apply (all_pop (calls_only U))].
    - eapply sim_bind; [apply Hrec; auto; apply Hparts; now left|]. intros r st1 Hg1.
      destruct r as [[a|a|z|q p|q p| |]|e]; cbn [moved_result moved_success]; try now apply sim_ret.
      + destruct p; now apply sim_ret.
      + destruct p; now apply sim_ret.
    - eapply sim_bind; [apply Hrec; auto; apply Hparts; now left|]. intros r st1 Hg1.
      destruct r as [[a|a|z|q p|q p| |]|e]; cbn [moved_result moved_success]; try now apply sim_ret.
      + apply sim_ret; [now rewrite mv_next| |now apply g_alloc]. rewrite mv_tok. now rewrite <- mv_alloc.
      + apply sim_ret; [reflexivity| |now apply g_modify]. apply mv_modify. intros t. now rewrite mv_tok.
    - destruct om as [m1|]; cbn [option_map].
      + rewrite (mv_debug_range _ _ _ (ctx_debug _ _ d Hn)). apply sim_let. intros _.
        apply Hrec; auto; [apply Hparts; now left|]. now apply ctx_debug.
      + rewrite (mv_debug_range _ _ _ Hc). apply sim_let. intros _. now apply sim_ret.
    - apply (proj2 (proj2 (proj2 (Hmov st Hg c c' Hc)))). apply Hu. now left.
  Qed.
End Moving.

Section MovedRuns.
  Variables (H0 : list token) (S0 : list (list scope)) (U : call -> Prop) (E E' : env) (P : parser).
  Hypothesis Hmov : movable H0 S0 U E E'.
  Hypothesis Hchk : e_checks E' = e_checks E.

  Lemma mv_exec : forall f m c c' s st, calls_only U m -> moved_ctx H0 S0 c c' -> scopes_call_only U st ->
    sim H0 S0 U (moved_result H0) (exec f E' P (moved_matcher S0 m) c' (moved_sid S0 s) (moved_state H0 S0 st)) (exec f E P m c s st).
  Proof.
    induction f as [|f IH]; intros m c c' s st Hm Hc Hg; cbn [exec]; [apply sim_oof|].
    apply mv_step; assumption.
  Qed.
End MovedRuns.

(* ---------- tokenizing ---------- *)

Section MovedTokens.
  Variables (H0 : list token) (S0 : list (list scope)).
  Notation ma := (moved_addr H0).
  Notation mst := (moved_state H0 S0).

  Lemma mv_filter st (f : token -> bool) l : (forall t, f (moved_token H0 t) = f t) ->
    filter (fun k => f (tok (mst st) k)) (map ma l) = map ma (filter (fun k => f (tok st k)) l).
  Proof.
    intros Hf. induction l as [|a l IH]; cbn [map filter]; [reflexivity|].
    rewrite mv_tok, Hf. destruct (f (tok st a)); cbn [map]; now rewrite IH.
  Qed.
  Lemma mv_hoist root a st : hoist (ma root) (ma a) (mst st) = mst (hoist root a st).
  Proof.
    unfold hoist. rewrite mv_tok. cbn [moved_token tk_kids].
    rewrite (mv_filter st is_error) by reflexivity. rewrite (mv_filter st (fun t => negb (is_error t))) by reflexivity.
    rewrite (mv_modify H0 S0 st a (set_kids (filter (fun k => negb (is_error (tok st k))) (tk_kids (tok st a))))) by reflexivity.
    apply mv_modify. intros t. unfold set_kids, moved_token. cbn. now rewrite map_app.
  Qed.
  Lemma mv_collect : forall f root a st,
    collect f (ma root) (ma a) (mst st) = option_map mst (collect f root a st).
  Proof.
    induction f as [|f IH]; intros root a st; [reflexivity|]. cbn [collect]. rewrite mv_tok. cbn [moved_token tk_kids].
    assert (Hl : forall l o, fold_left (fun o k => match o with Some st => collect f (ma root) k st | None => None end) (map ma l) (option_map mst o) =
      option_map mst (fold_left (fun o k => match o with Some st => collect f root k st | None => None end) l o)).
    { induction l as [|k l IHl]; intros o; cbn [map fold_left]; [reflexivity|].
      rewrite <- IHl. f_equal. destruct o; cbn [option_map]; [apply IH|reflexivity]. }
    change (Some (mst st)) with (option_map mst (Some st)). rewrite Hl.
    destruct (fold_left _ _ _); cbn [option_map]; [|reflexivity]. now rewrite mv_hoist.
  Qed.
  Lemma collect_more : forall f root a st st', collect f root a st = Some st' -> forall g, (f <= g)%nat -> collect g root a st = Some st'.
  Proof.
    induction f as [|f IH]; intros root a st st' H g Hg; [easy|]. destruct g as [|g]; [lia|]. cbn [collect] in *.
    assert (Hl : forall l o x, fold_left (fun o k => match o with Some st => collect f root k st | None => None end) l o = Some x ->
      fold_left (fun o k => match o with Some st => collect g root k st | None => None end) l o = Some x).
    { induction l as [|k l IHl]; intros o x Hx; cbn [fold_left] in *; [exact Hx|].
      destruct o as [s1|].
      - destruct (collect f root k s1) as [s2|] eqn:Ek.
        + rewrite (IH _ _ _ _ Ek g) by lia. now apply IHl.
        + exfalso. revert Hx. clear. induction l; cbn; [discriminate|assumption].
      - exfalso. revert Hx. clear. induction l; cbn; [discriminate|assumption]. }
    destruct (fold_left (fun o k => match o with Some st => collect f root k st | None => None end) (tk_kids (tok st a)) (Some st)) as [s1|] eqn:Es; [|discriminate].
    now rewrite (Hl _ _ _ Es).
  Qed.
  Lemma mv_collect_errors root st st' : collect_errors root st = Some st' ->
    collect_errors (ma root) (mst st) = Some (mst st').
  Proof.
    unfold collect_errors. rewrite mv_tok. cbn [moved_token tk_kids].
    set (f := S (List.length (st_heap st))). set (g := S (List.length (st_heap (mst st)))).
    assert (Hfg : (f <= g)%nat). { unfold f, g. cbn [moved_state st_heap]. rewrite app_length, map_length. lia. }
    clearbody f g.
    assert (Hl : forall l o x, fold_left (fun o k => match o with Some st => collect f root k st | None => None end) l o = Some x ->
      fold_left (fun o k => match o with Some st => collect g (ma root) k st | None => None end) (map ma l) (option_map mst o) = Some (mst x)).
    { induction l as [|k l IHl]; intros o x Hx; cbn [map fold_left] in *; [now rewrite Hx|].
      destruct o as [s1|]; cbn [option_map].
      - rewrite mv_collect. destruct (collect f root k s1) as [s2|] eqn:Ek.
        + rewrite (collect_more _ _ _ _ _ Ek g Hfg). now apply (IHl (Some s2)).
        + exfalso. revert Hx. clear. induction l; cbn; [discriminate|assumption].
      - exfalso. revert Hx. clear. induction l; cbn; [discriminate|assumption]. }
    intros H. exact (Hl _ (Some st) _ H).
  Qed.

  Definition moved_tres (r : tres) : tres := match r with TOk a => TOk (ma a) | TErr e => TErr e end.

  Lemma mv_finish a st r st' : finish_token a st = Ret r st' -> finish_token (ma a) (mst st) = Ret (moved_tres r) (mst st').
  Proof.
    unfold finish_token. destruct (collect_errors a st) as [s1|] eqn:Ec; [|discriminate].
    intros H. injection H as <- <-. now rewrite (mv_collect_errors _ _ _ Ec).
  Qed.
  Lemma mv_tokenize f U E E' P c c' m st : movable H0 S0 U E E' -> e_checks E' = e_checks E ->
    calls_only U m -> moved_ctx H0 S0 c c' -> scopes_call_only U st ->
    match tokenize f E P c m st with
    | Ret r st' => tokenize f E' P c' (moved_matcher S0 m) (mst st) = Ret (moved_tres r) (mst st')
    | Pan p => tokenize f E' P c' (moved_matcher S0 m) (mst st) = Pan p
    | OOF => True
    end.
  Proof.
    intros Hm He Hu Hc Hg. unfold tokenize.
    replace (c_scope c') with (moved_sid S0 (c_scope c)) by (symmetry; apply Hc).
    destruct (mv_exec H0 S0 U E E' P Hm He f m c c' (c_scope c) st Hu Hc Hg) as [-> _].
    destruct (exec f E P m c (c_scope c) st) as [r st1|p|]; cbn [moved_res]; [|reflexivity|exact I].
    assert (Hf : forall a, match finish_token a st1 with
      | Ret r st' => finish_token (ma a) (mst st1) = Ret (moved_tres r) (mst st')
      | Pan p => finish_token (ma a) (mst st1) = Pan p
      | OOF => True end).
    { intros a. destruct (finish_token a st1) as [r1 st'|p|] eqn:Ef; [now apply mv_finish| |exact I].
      unfold finish_token in Ef. destruct (collect_errors a st1); discriminate. }
    destruct r as [[a|a|z|b q|b q| |]|e]; cbn [moved_result moved_success]; try reflexivity; try apply Hf.
    - destruct q; cbn [moved_success]; try reflexivity; apply Hf.
    - destruct q; cbn [moved_success]; try reflexivity; apply Hf.
  Qed.

  Lemma mv_preorder st roots l : preorder st roots l -> preorder (mst st) (map ma roots) (map ma l).
  Proof.
    induction 1 as [|a roots l1 l2 H1 IH1 H2 IH2]; cbn [map]; [constructor|].
    rewrite map_app. constructor; [|exact IH2]. rewrite mv_tok. exact IH1.
  Qed.
End MovedTokens.
