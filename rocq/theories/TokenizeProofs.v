(* Tokenizing (C36, C37) and visiting (C39). *)
From Verif Require Export FetchProofs.
Open Scope string_scope.
Open Scope list_scope.
Open Scope N_scope.

(* ---------- the depth of trees ---------- *)

(* the trees under [roots] are at most [f] tokens high *)
Fixpoint height_le (f : nat) (st : state) (roots : list addr) : Prop :=
  match f with
  | O => roots = []
  | S f' => forall a, In a roots -> height_le f' st (tk_kids (tok st a))
  end.

Lemma preorder_height st roots l : preorder st roots l ->
  forall path f,
  NoDup path -> (forall x, In x path -> (x < List.length (st_heap st))%nat) ->
  (forall x lx, In x path -> preorder st [x] lx -> (List.length l < List.length lx)%nat) ->
  (List.length (st_heap st) < List.length path + f)%nat ->
  height_le f st roots.
Proof.
  induction 1 as [|a roots l1 l2 H1 IH1 H2 IH2]; intros path f Hnd Hin Hlong Hf.
  - destruct f; [reflexivity|intros a []].
  - assert (Hf1 : exists f', f = S f').
    { destruct f; [exfalso|eauto]. assert (List.length path <= List.length (st_heap st))%nat; [|lia].
      rewrite <- (seq_length (List.length (st_heap st)) 0). apply NoDup_incl_length; [assumption|].
      intros x Hx. apply in_seq. specialize (Hin x Hx). lia. }
    destruct Hf1 as [f' ->]. intros b [<-|Hb].
    + assert (Hself : preorder st [a] (a :: l1)) by now apply preorder_one.
      destruct (Nat.lt_ge_cases a (List.length (st_heap st))) as [Ha|Ha].
      * apply IH1 with (path := a :: path).
        -- constructor; [|assumption]. intros Hx. specialize (Hlong a _ Hx Hself). cbn in Hlong.
           rewrite app_length in Hlong. lia.
        -- intros x [<-|Hx]; auto.
        -- intros x lx [<-|Hx] Hlx.
           ++ rewrite (preorder_det _ _ _ Hlx _ Hself). cbn. lia.
           ++ specialize (Hlong x lx Hx Hlx). cbn in Hlong. rewrite app_length in Hlong. lia.
        -- cbn [List.length]. lia.
      * rewrite dead_tok by assumption. cbn [tk_kids dead_token]. destruct f'; [reflexivity|intros x []].
    + assert (Hr : height_le (S f') st roots); [|now apply Hr].
      apply IH2 with (path := path); auto.
      intros x lx Hx Hlx. specialize (Hlong x lx Hx Hlx). cbn in Hlong. rewrite app_length in Hlong. lia.
Qed.
Lemma height_bound st roots l : preorder st roots l -> height_le (S (heap_size st)) st roots.
Proof.
  intros H. eapply preorder_height with (path := []); [exact H|constructor|intros x []|intros x lx []|].
  unfold heap_size. cbn. lia.
Qed.

(* ---------- visiting ---------- *)

Section VisitProofs.
  Context {W : Type}.
  Variables (hooks : list (str * hook W)) (st : state).

  Lemma find_hook_some name h : find_hook hooks name = Some h -> first_hook hooks name h.
  Proof.
    unfold first_hook. induction hooks as [|[n g] l IH]; cbn [find_hook]; [discriminate|].
    destruct (str_eqb n name) eqn:En.
    - intros H. injection H as ->. apply str_eqb_eq in En as ->. exists [], l. split; [reflexivity|intros h' []].
    - intros H. destruct (IH H) as (before & after & -> & Hb). exists ((n, g) :: before), after.
      split; [reflexivity|]. intros h' [Hh|Hh]; [|eapply Hb; eauto].
      injection Hh as -> _. now rewrite str_eqb_refl in En.
  Qed.
  Lemma find_hook_none name : find_hook hooks name = None -> no_hook hooks name.
  Proof.
    unfold no_hook. induction hooks as [|[n g] l IH]; cbn [find_hook]; intros H h; [intros []|].
    destruct (str_eqb n name) eqn:En; [discriminate|].
    intros [Hh|Hh]; [|eapply IH; eauto]. injection Hh as -> _. now rewrite str_eqb_refl in En.
  Qed.
  Lemma run_hooked name a w : hooked hooks name a w (run_hook hooks name a w).
  Proof.
    unfold run_hook, pick_hook. destruct (find_hook hooks name) as [h|] eqn:E1.
    - apply hk_named. now apply find_hook_some.
    - apply find_hook_none in E1. destruct (find_hook hooks "*") as [h|] eqn:E2.
      + apply hk_default; [exact E1|now apply find_hook_some].
      + apply hk_none; [exact E1|now apply find_hook_none].
  Qed.

  (* the relation is functional *)
  Lemma first_hook_find name h : first_hook hooks name h -> find_hook hooks name = Some h.
  Proof.
    intros (before & after & -> & Hb). induction before as [|[n g] l IH]; cbn [app find_hook].
    - now rewrite str_eqb_refl.
    - destruct (str_eqb n name) eqn:En; [|apply IH; intros h' Hh; apply (Hb h'); now right].
      apply str_eqb_eq in En as ->. exfalso. apply (Hb g). now left.
  Qed.
  Lemma no_hook_find name : no_hook hooks name -> find_hook hooks name = None.
  Proof.
    unfold no_hook. induction hooks as [|[n g] l IH]; intros H; cbn [find_hook]; [reflexivity|].
    destruct (str_eqb n name) eqn:En; [|apply IH; intros h Hh; apply (H h); now right].
    apply str_eqb_eq in En as ->. exfalso. apply (H g). now left.
  Qed.
  Lemma hooked_run name a w r : hooked hooks name a w r -> r = run_hook hooks name a w.
  Proof.
    unfold run_hook, pick_hook. destruct 1 as [h H|h H1 H2|H1 H2].
    - now rewrite (first_hook_find _ _ H).
    - now rewrite (no_hook_find _ H1), (first_hook_find _ _ H2).
    - now rewrite (no_hook_find _ H1), (no_hook_find _ H2).
  Qed.

  Fixpoint walk (l : list addr) (w : W) : vres W :=
    match l with
    | [] => VOk w
    | a :: l => match run_hook hooks (tk_name (tok st a)) a w with
                | VOk w1 => walk l w1
                | r => r
                end
    end.
  Lemma walk_walks l : forall w, walks hooks st l w (walk l w).
  Proof.
    induction l as [|a l IH]; intros w; cbn [walk]; [constructor|].
    pose proof (run_hooked (tk_name (tok st a)) a w) as H.
    destruct (run_hook hooks (tk_name (tok st a)) a w) eqn:Er;
      [eapply wk_next; [exact H|apply IH]|apply wk_stop; [exact H|congruence]..].
  Qed.
  Lemma walks_walk l w r : walks hooks st l w r -> r = walk l w.
  Proof.
    induction 1 as [w|a l w w1 r Hh Hw IH|a l w r Hh Hr]; cbn [walk]; [reflexivity|..];
      apply hooked_run in Hh.
    - now rewrite <- Hh.
    - rewrite <- Hh. destruct r; try reflexivity. exfalso. eapply Hr; eauto.
  Qed.
  Lemma walk_app l1 l2 w :
    walk (l1 ++ l2) w = match walk l1 w with VOk w1 => walk l2 w1 | r => r end.
  Proof.
    revert w. induction l1 as [|a l1 IH]; intros w; cbn [app walk]; [reflexivity|].
    destruct (run_hook hooks (tk_name (tok st a)) a w); auto.
  Qed.

  Let visit_all f (roots : list addr) (o : vres W) : vres W :=
    fold_left (fun o k => match o with VOk w => visit_go f st hooks k w | _ => o end) roots o.
  Lemma visit_all_stop f roots o : (forall w, o <> VOk w) -> visit_all f roots o = o.
  Proof.
    intros H. induction roots as [|a roots IH]; [reflexivity|]. unfold visit_all. cbn [fold_left].
    destruct o; try exact IH. exfalso. eapply H; eauto.
  Qed.

  Lemma visit_all_walk roots l : preorder st roots l -> forall f w, height_le f st roots ->
    visit_all f roots (VOk w) = walk l w.
  Proof.
    induction 1 as [|a roots l1 l2 H1 IH1 H2 IH2]; intros f w Hh; [reflexivity|].
    destruct f as [|f]; [discriminate|].
    unfold visit_all. cbn [fold_left]. fold (visit_all (S f) roots (visit_go (S f) st hooks a w)).
    cbn [visit_go]. fold (visit_all f (tk_kids (tok st a)) (run_hook hooks (tk_name (tok st a)) a w)).
    cbn [walk]. destruct (run_hook hooks (tk_name (tok st a)) a w) as [w1|w1 e|p|] eqn:Er.
    - rewrite IH1 by (apply Hh; now left). rewrite walk_app.
      destruct (walk l1 w1) as [w2|w2 e|p|]; try (apply visit_all_stop; congruence).
      apply IH2. intros b Hb. apply Hh. now right.
    - rewrite (visit_all_stop f) by congruence. apply visit_all_stop. congruence.
    - rewrite (visit_all_stop f) by congruence. apply visit_all_stop. congruence.
    - rewrite (visit_all_stop f) by congruence. apply visit_all_stop. congruence.
  Qed.

  Lemma visit_walks a l w r : preorder st [a] l -> (visit st hooks a w = r <-> walks hooks st l w r).
  Proof.
    intros H. assert (Hv : visit st hooks a w = walk l w).
    { unfold visit. change (visit_all (S (List.length (st_heap st))) [a] (VOk w) = walk l w).
      apply visit_all_walk; [exact H|]. eapply height_bound; eauto. }
    rewrite Hv. split; [intros <-; apply walk_walks|intros Hw; now apply walks_walk in Hw].
  Qed.
End VisitProofs.

(* a cyclic token graph is visited forever: no depth is enough *)
Lemma visit_cycle {W} (hooks : list (str * hook W)) st a w :
  (forall n w, exists w', run_hook hooks n a w = VOk w') ->
  tk_kids (tok st a) = [a] -> forall f, visit_go f st hooks a w = VFuel.
Proof.
  intros Hh Hk f. revert w. induction f as [|f IH]; intros w; [reflexivity|].
  cbn [visit_go]. destruct (Hh (tk_name (tok st a)) w) as [w' ->]. rewrite Hk. cbn [fold_left]. apply IH.
Qed.

(* ---------- collecting errors ---------- *)

Lemma kids_set_kids l t : tk_kids (set_kids l t) = l.
Proof. reflexivity. Qed.
Lemma is_error_set_kids l t : is_error (set_kids l t) = is_error t.
Proof. reflexivity. Qed.

Lemma NoDup_split {A} (l1 l2 : list A) : NoDup (l1 ++ l2) ->
  NoDup l1 /\ NoDup l2 /\ forall x, In x l1 -> ~ In x l2.
Proof.
  induction l1 as [|y l1 IH]; cbn [app]; intros H.
  - repeat split; [constructor|exact H|intros x []].
  - inversion H as [|y' l' Hy Hn]; subst. destruct (IH Hn) as (N1 & N2 & N3).
    split; [constructor; [|exact N1]; intros Hin; apply Hy; apply in_or_app; now left|].
    split; [exact N2|]. intros x [<-|Hx]; [|now apply N3]. intros Hin. apply Hy. apply in_or_app. now right.
Qed.

Section Collect.
  Variables (st : state) (root : addr).
  Let collect_all f (roots : list addr) (o : option state) : option state :=
    fold_left (fun o k => match o with Some st => collect f root k st | None => None end) roots o.

  (* [st2] is [st1] after the trees over [l] with the nested errors [errs] were done *)
  Definition done_with (l errs : list addr) (st1 st2 : state) : Prop :=
    st_scopes st2 = st_scopes st1 /\ heap_size st2 = heap_size st1 /\
    tok st2 root = set_kids (tk_kids (tok st1 root) ++ errs) (tok st1 root) /\
    (forall a, In a l -> tok st2 a = set_kids (other_kids st a) (tok st a)) /\
    (forall a, a <> root -> ~ In a l -> tok st2 a = tok st1 a).

  Lemma set_kids_same t : set_kids (tk_kids t) t = t.
  Proof. destruct t; reflexivity. Qed.

  Lemma roots_in roots l : preorder st roots l -> forall a, In a roots -> In a l.
  Proof.
    induction 1 as [|a roots l1 l2 H1 IH1 H2 IH2]; intros b Hb; [destruct Hb|].
    destruct Hb as [<-|Hb]; [now left|]. right. apply in_or_app. right. auto.
  Qed.

  Lemma hoist_done a l1 errs st1 st2 :
    (root < heap_size st1)%nat -> a <> root -> ~ In a l1 -> ~ In root l1 ->
    (forall k, In k (tk_kids (tok st a)) -> In k l1) ->
    tok st1 a = tok st a -> heap_size st1 = heap_size st ->
    done_with l1 errs st1 st2 ->
    done_with (a :: l1) (errs ++ error_kids st a) st1 (hoist root a st2).
  Proof.
    intros Hroot Har Ha Hr Hk Hta Hsz (S1 & S2 & S3 & S4 & S5).
    assert (Ht2 : tok st2 a = tok st a) by (rewrite S5; auto).
    assert (He : forall k, In k (tk_kids (tok st a)) -> is_error (tok st2 k) = is_error (tok st k)).
    { intros k Hin. rewrite (S4 k) by auto. reflexivity. }
    assert (Hbad : filter (fun k => is_error (tok st2 k)) (tk_kids (tok st2 a)) = error_kids st a).
    { rewrite Ht2. unfold error_kids. apply filter_ext_in. exact He. }
    assert (Hgood : filter (fun k => negb (is_error (tok st2 k))) (tk_kids (tok st2 a)) = other_kids st a).
    { rewrite Ht2. unfold other_kids. apply filter_ext_in. intros k Hin. now rewrite He. }
    unfold hoist. rewrite Hbad, Hgood. unfold modify. rewrite Ht2.
    set (st3 := set_tok st2 a (set_kids (other_kids st a) (tok st a))).
    assert (H3r : tok st3 root = tok st2 root) by (unfold st3; rewrite tok_set_other; auto).
    assert (Hroot2 : (root < List.length (st_heap st3))%nat).
    { unfold st3. fold (heap_size (set_tok st2 a (set_kids (other_kids st a) (tok st a)))).
      rewrite heap_size_set. lia. }
    split; [exact S1|]. split; [rewrite heap_size_set; unfold st3; rewrite heap_size_set; exact S2|]. split; [|split].
    - rewrite tok_set_same by exact Hroot2. rewrite H3r, S3. cbn [tk_kids set_kids].
      now rewrite <- app_assoc.
    - intros b [<-|Hb].
      + rewrite tok_set_other by auto. unfold st3.
        destruct (Nat.lt_ge_cases a (List.length (st_heap st2))) as [Hl|Hl].
        * now rewrite tok_set_same.
        * rewrite tok_set_dead by exact Hl. rewrite dead_tok by exact Hl.
          assert (Hd : tok st a = dead_token) by (rewrite <- Ht2; now apply dead_tok).
          rewrite Hd. unfold other_kids. rewrite Hd. reflexivity.
      + assert (b <> root) by congruence. assert (b <> a) by congruence.
        rewrite tok_set_other by auto. unfold st3. rewrite tok_set_other by auto. now apply S4.
    - intros b Hb Hin. assert (b <> a) by (intros ->; apply Hin; now left).
      rewrite tok_set_other by auto. unfold st3. rewrite tok_set_other by auto.
      apply S5; [exact Hb|]. intros H'. apply Hin. now right.
  Qed.

  Lemma done_trans l1 l2 e1 e2 st1 st2 st3 :
    ~ In root l1 -> ~ In root l2 -> (forall a, In a l1 -> ~ In a l2) ->
    done_with l1 e1 st1 st2 -> done_with l2 e2 st2 st3 -> done_with (l1 ++ l2) (e1 ++ e2) st1 st3.
  Proof.
    intros R1 R2 Hd (A1 & A2 & A3 & A4 & A5) (B1 & B2 & B3 & B4 & B5).
    split; [congruence|]. split; [congruence|]. split; [|split].
    - rewrite B3, A3. cbn [tk_kids set_kids]. now rewrite <- app_assoc.
    - intros a Ha. apply in_app_or in Ha as [Ha|Ha]; [|auto].
      rewrite B5; [auto|congruence|auto].
    - intros a Ha Hin. rewrite B5, A5; auto; intros H; apply Hin; apply in_or_app; auto.
  Qed.

  Lemma nested_total roots l : preorder st roots l -> exists e, nested_errors st roots e.
  Proof.
    induction 1 as [|a roots l1 l2 H1 [e1 IH1] H2 [e2 IH2]]; [exists []; constructor|].
    eexists. constructor; eauto.
  Qed.

  Lemma collect_all_ok roots l : preorder st roots l -> forall errs f st1,
    nested_errors st roots errs -> height_le f st roots ->
    NoDup l -> ~ In root l -> (root < heap_size st1)%nat -> heap_size st1 = heap_size st ->
    (forall a, In a l -> tok st1 a = tok st a) ->
    exists st2, collect_all f roots (Some st1) = Some st2 /\ done_with l errs st1 st2.
  Proof.
    induction 1 as [|a roots l1 l2 H1 IH1 H2 IH2]; intros errs f st1 He Hh Hnd Hr Hroot Hsz Hst.
    - inversion He; subst. exists st1. split; [reflexivity|]. unfold done_with. rewrite app_nil_r, set_kids_same.
      repeat split; auto. intros a [].
    - inversion He as [|a' roots' e1 e2 He1 He2]; subst.
      destruct f as [|f]; [discriminate|].
      inversion Hnd as [|a' l' Hal Hnd']; subst.
      assert (Hnd1 : NoDup l1 /\ NoDup l2 /\ forall x, In x l1 -> ~ In x l2).
      { now apply NoDup_split. }
      destruct Hnd1 as (Hn1 & Hn2 & Hdis).
      assert (Hr1 : ~ In root l1) by (intros H; apply Hr; right; apply in_or_app; now left).
      assert (Hr2 : ~ In root l2) by (intros H; apply Hr; right; apply in_or_app; now right).
      assert (Hra : a <> root) by (intros ->; apply Hr; now left).
      assert (Ha1 : ~ In a l1) by (intros H; apply Hal; apply in_or_app; now left).
      assert (Ha2 : ~ In a l2) by (intros H; apply Hal; apply in_or_app; now right).
      destruct (IH1 e1 f st1 He1) as (st2 & Hc & Hd); auto.
      { apply Hh. now left. }
      { intros x Hx. apply Hst. right. apply in_or_app. now left. }
      assert (Hd3 : done_with (a :: l1) (e1 ++ error_kids st a) st1 (hoist root a st2)).
      { apply hoist_done; auto. 
        - intros k Hk. eapply roots_in; eauto.
        - apply Hst. now left. }
      unfold collect_all. cbn [fold_left collect].
      fold (collect_all f (tk_kids (tok st1 a)) (Some st1)).
      rewrite (Hst a) by now left. rewrite Hc.
      fold (collect_all (S f) roots (Some (hoist root a st2))).
      pose proof Hd3 as (D1 & D2 & D3 & D4 & D5).
      destruct (IH2 e2 (S f) (hoist root a st2) He2) as (st4 & Hc4 & Hd4); auto.
      { intros x Hx. apply Hh. now right. }
      { lia. }
      { lia. }
      { intros x Hx. rewrite D5; [apply Hst; right; apply in_or_app; now right| |].
        - congruence.
        - intros [->|H']; [contradiction|]. exact (Hdis x H' Hx). }
      exists st4. split; [exact Hc4|].
      replace (e1 ++ error_kids st a ++ e2) with ((e1 ++ error_kids st a) ++ e2) by now rewrite <- app_assoc.
      apply (done_trans (a :: l1) l2 _ _ st1 (hoist root a st2)); auto.
      + intros [->|H']; auto.
      + intros x [<-|Hx]; auto.
  Qed.
End Collect.

Lemma collect_errors_ok st root : (root < heap_size st)%nat -> is_tree st root ->
  exists st', collect_errors root st = Some st' /\ hoisted st root st'.
Proof.
  intros Hroot (l & Hp & Hnd). inversion Hp as [|a roots l1 l2 H1 H2]; subst. inversion H2; subst.
  rewrite app_nil_r in *. inversion Hnd as [|a' l' Hal Hnd']; subst.
  destruct (nested_total st _ _ H1) as [errs He].
  destruct (collect_all_ok st root _ _ H1 errs (S (heap_size st)) st He) as (st' & Hc & D); auto.
  { eapply height_bound; eauto. }
  exists st'. split; [exact Hc|]. destruct D as (D1 & D2 & D3 & D4 & D5).
  split; [exact D1|]. split; [exact D2|]. exists l1, errs. auto.
Qed.

(* ---------- what hoisting means ---------- *)

(* no token below the root has errors among its children *)
Lemma hoisted_clean st root st' l : hoisted st root st' -> preorder st (tk_kids (tok st root)) l -> ~ In root l ->
  forall a, In a l -> error_kids st' a = [].
Proof.
  intros (_ & _ & l' & errs & Hp & Hn & Hr & Hl & Ho) Hp' Hroot a Ha.
  rewrite (preorder_det _ _ _ Hp' _ Hp) in *.
  unfold error_kids. rewrite Hl by exact Ha. cbn [tk_kids set_kids].
  assert (He : forall x, In x l' -> is_error (tok st' x) = is_error (tok st x))
    by (intros x Hx; now rewrite Hl).
  assert (Hin : forall k, In k (other_kids st a) -> is_error (tok st' k) = false).
  { intros k Hk. unfold other_kids in Hk. apply filter_In in Hk as [Hk Hf].
    rewrite He; [now destruct (is_error (tok st k))|].
    clear -Hp Ha Hk. induction Hp as [|b roots l1 l2 H1 IH1 H2 IH2]; [destruct Ha|].
    destruct Ha as [<-|Ha].
    - right. apply in_or_app. left. eapply roots_in; eauto.
    - right. apply in_or_app. apply in_app_or in Ha as [Ha|Ha]; auto. }
  induction (other_kids st a) as [|k ks IH]; [reflexivity|]. cbn [filter].
  rewrite Hin by now left. apply IH. intros x Hx. apply Hin. now right.
Qed.

(* every token of a tree is a root or the child of another one *)
Lemma nested_complete st roots l : preorder st roots l -> forall e, nested_errors st roots e ->
  Permutation (filter (fun x => is_error (tok st x)) l) (filter (fun x => is_error (tok st x)) roots ++ e).
Proof.
  induction 1 as [|a roots l1 l2 H1 IH1 H2 IH2]; intros e He; inversion He as [|a' r' e1 e2 He1 He2]; subst.
  - constructor.
  - cbn [filter]. rewrite filter_app. specialize (IH1 _ He1). specialize (IH2 _ He2).
    fold (error_kids st a) in IH1.
    assert (Hmain : Permutation (filter (fun x => is_error (tok st x)) l1 ++ filter (fun x => is_error (tok st x)) l2)
                    (filter (fun x => is_error (tok st x)) roots ++ e1 ++ error_kids st a ++ e2)).
    { rewrite IH1, IH2. rewrite (Permutation_app_comm (error_kids st a) e1).
      rewrite !app_assoc. rewrite (Permutation_app_comm _ e2) at 1. symmetry. rewrite (Permutation_app_comm _ e2).
      apply Permutation_app_head. rewrite <- !app_assoc. rewrite (Permutation_app_comm (filter _ roots)).
      now rewrite <- !app_assoc. }
    destruct (is_error (tok st a)); [|exact Hmain]. cbn [app]. now constructor.
Qed.

(* every error of the tree is now a direct child of the root, once *)
Lemma hoisted_errors st root st' l : hoisted st root st' -> preorder st (tk_kids (tok st root)) l -> ~ In root l ->
  Permutation (error_kids st' root) (filter (fun x => is_error (tok st x)) l).
Proof.
  intros (_ & _ & l' & errs & Hp & Hn & Hr & Hl & Ho) Hp' Hroot.
  rewrite (preorder_det _ _ _ Hp' _ Hp) in *.
  rewrite (nested_complete _ _ _ Hp _ Hn). unfold error_kids. rewrite Hr. cbn [tk_kids set_kids].
  rewrite filter_app. apply Permutation_app.
  - erewrite filter_ext_in; [reflexivity|]. intros x Hx. cbn. rewrite Hl; [reflexivity|]. eapply roots_in; eauto.
  - assert (Hall : forall x, In x errs -> is_error (tok st' x) = true).
    { intros x Hx.
      assert (Hin : In x (filter (fun x => is_error (tok st x)) l')).
      { eapply Permutation_in; [symmetry; apply (nested_complete _ _ _ Hp _ Hn)|]. apply in_or_app. now right. }
      apply filter_In in Hin as [Hin He]. now rewrite Hl. }
    clear -Hall. induction errs as [|x errs IH]; [reflexivity|]. cbn [filter]. rewrite Hall by now left.
    constructor. apply IH. intros y Hy. apply Hall. now right.
Qed.

(* ---------- C37 ---------- *)

Lemma tokenize_err E P c m st e st' :
  Runs E P m c (c_scope c) st (Err e) st' -> Tokenizes E P c m st (TErr e) st'.
Proof. intros [n H]. exists n. unfold tokenize. now rewrite H. Qed.
Lemma tokenize_no_root E P c m st x st' :
  Runs E P m c (c_scope c) st (Ok x) st' -> (forall a, ~ root_of x a) -> Tokenizes E P c m st (TErr FFail) st'.
Proof.
  intros [n H] Hx. exists n. unfold tokenize. rewrite H.
  destruct x as [a|a|z|b p|b p| |]; try reflexivity;
    try (exfalso; eapply Hx; constructor); destruct p; try reflexivity; exfalso; eapply Hx; constructor.
Qed.
Lemma tokenize_root E P c m st x a st1 :
  Runs E P m c (c_scope c) st (Ok x) st1 -> root_of x a -> (a < heap_size st1)%nat -> is_tree st1 a ->
  exists st', Tokenizes E P c m st (TOk a) st' /\ hoisted st1 a st'.
Proof.
  intros [n H] Hx Ha Ht. destruct (collect_errors_ok st1 a Ha Ht) as (st' & Hc & Hh).
  exists st'. split; [|exact Hh]. exists n. unfold tokenize. rewrite H.
  destruct Hx; unfold finish_token; now rewrite Hc.
Qed.
(* and that is all *)
Lemma tokenize_only E P c m st r st' : Tokenizes E P c m st r st' ->
  exists r0 st1, Runs E P m c (c_scope c) st r0 st1 /\
    match r with
    | TOk a => exists x, r0 = Ok x /\ root_of x a
    | TErr e => st' = st1 /\ (r0 = Err e \/ (e = FFail /\ exists x, r0 = Ok x /\ forall a, ~ root_of x a))
    end.
Proof.
  intros [n H]. unfold tokenize in H.
  destruct (exec n E P m c (c_scope c) st) as [r0 st1|p|] eqn:Ex; try discriminate.
  exists r0, st1. split; [now exists n|].
  assert (Hf : forall a, finish_token a st1 = Ret r st' -> r = TOk a).
  { intros a. unfold finish_token. destruct (collect_errors a st1); congruence. }
  assert (Hn : forall x, Ret (TErr FFail) st1 = Ret r st' -> (forall a, ~ root_of x a) -> r0 = Ok x ->
    match r with
    | TOk a => exists x, r0 = Ok x /\ root_of x a
    | TErr e => st' = st1 /\ (r0 = Err e \/ (e = FFail /\ exists x, r0 = Ok x /\ forall a, ~ root_of x a))
    end).
  { intros x Hr Hx ->. injection Hr as <- <-. split; [reflexivity|]. right. split; [reflexivity|]. eauto. }
  destruct r0 as [[a|a|z|b p|b p| |]|e];
    try (apply Hf in H; subst r; eexists; split; [reflexivity|constructor]);
    try (eapply Hn; [exact H| |reflexivity]; intros a' Ha'; inversion Ha').
  - destruct p; try (apply Hf in H; subst r; eexists; split; [reflexivity|constructor]);
      (eapply Hn; [exact H| |reflexivity]; intros a' Ha'; inversion Ha').
  - destruct p; try (apply Hf in H; subst r; eexists; split; [reflexivity|constructor]);
      (eapply Hn; [exact H| |reflexivity]; intros a' Ha'; inversion Ha').
  - injection H as <- <-. auto.
Qed.
