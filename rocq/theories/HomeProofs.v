(* Grammars that stay in one scope context. *)
From Verif Require Import BoundsProofs FlowProofs SpecNames.
Open Scope string_scope.
Open Scope list_scope.
Open Scope N_scope.

Definition homely (s : sid) (st st' : state) : Prop := home_scope s st -> elsewhere s st st' /\ home_scope s st'.

Lemma homely_same s st st' : st_scopes st' = st_scopes st -> homely s st st'.
Proof. intros H Hs. unfold elsewhere, home_scope, stack_of in *. rewrite H. auto. Qed.
Lemma homely_trans s st1 st2 st3 : homely s st1 st2 -> homely s st2 st3 -> homely s st1 st3.
Proof.
  intros H1 H2 Hs. destruct (H1 Hs) as [[A1 A2] A3]. destruct (H2 A3) as [[B1 B2] B3].
  split; [|exact B3]. split; [congruence|]. intros s' Hn. rewrite B2, A2; auto.
Qed.
Lemma homely_refl s st : homely s st st.
Proof. now apply homely_same. Qed.
Lemma homely_set s st n v : (forall m, v = VMatcher m -> home m) -> homely s st (sc_set st s n v).
Proof.
  intros Hv Hs. split.
  - unfold sc_set, set_stack, elsewhere, stack_of. cbn [st_scopes]. split; [apply upd_length|].
    intros s' Hn. apply nth_upd_other. congruence.
  - intros sc k m Hsc Hin. unfold sc_set, set_stack, stack_of in Hsc. cbn [st_scopes] in Hsc.
    destruct (Nat.lt_ge_cases s (List.length (st_scopes st))) as [Hl|Hl].
    + rewrite nth_upd_same in Hsc by exact Hl. fold (stack_of st s) in Hsc. pose proof (Hs sc k m) as Ho.
      pose proof Hs as Hs'. unfold home_scope in Hs'.
      destruct (stack_of st s) as [|sc0 l]; cbn [stack_set] in Hsc.
      * destruct Hsc as [<-|[]]. apply assoc_set_in in Hin as [Hin|[]]. symmetry in Hin. now apply Hv.
      * destruct Hsc as [<-|H1]; [|exact (Ho (or_intror H1) Hin)].
        apply assoc_set_in in Hin as [H2|H2]; [symmetry in H2; now apply Hv|]. exact (Hs' sc0 k m (or_introl eq_refl) H2).
    + rewrite nth_overflow in Hsc by (rewrite upd_length; exact Hl). destruct Hsc.
Qed.
Lemma homely_get s st n m : home_scope s st -> sc_get st s n = Some (VMatcher m) -> home m.
Proof. intros Hs H. apply stack_get_in in H as (sc & H1 & H2). eapply Hs; eauto. Qed.
Lemma homely_before m s st : home m -> homely s st (before_exec m s st).
Proof.
  intros Hm. unfold before_exec. destruct (m_custom m); [|apply homely_refl]. apply homely_set.
  intros x Hx. now injection Hx as <-.
Qed.

(* the same environment without user code *)
Definition hushed (E : env) : env :=
  mkEnv (e_checks E) (fun _ _ _ _ _ => OOF) (fun _ _ _ _ _ => OOF) (fun _ _ _ _ => OOF) (fun _ _ _ _ => OOF)
        (e_word E) (e_space E) (e_digit E) (e_regex E).

Definition stays_home (rec : recT) : Prop :=
  forall m c s st r st', home m -> rec m c s st = Ret r st' -> homely s st st'.

Lemma step_home E P rec fuel : stays_home rec -> stays_home (step fuel E P rec).
Proof.
  intros Hrec m c s st0 r st' Hm H. unfold step in H.
  apply (homely_trans s st0 (before_exec m s st0)); [now apply homely_before|].
  set (st := before_exec m s st0) in *. clearbody st. clear st0.
  assert (Hp : forall x, In x (parts m) -> home x) by now inversion Hm.
  assert (Ha : match m with MSetScope _ _ | MUser _ _ _ _ | MCatch _ _ | MMap _ (MapUser _) => False | _ => True end) by now inversion Hm.
  clear Hm.
  pose proof (homely_refl s st) as Hrefl.
  assert (Halloc : forall t, homely s st (alloc st t)) by (intros; now apply homely_same).
  pose proof (homely_same s) as Hsame. pose proof (homely_trans s) as Htrans.
  destruct m as [pats i|p name cust|f name cust|fs fe fx name cust|m1|m1|m1| |msg|msg|nm|m1 k|m1 f
                |om off name cust|p name cust|name|ms|t name cust|o m1|m1 name cust|m1|om d|k name cust cons];
    cbn [m_name m_custom parts] in *; try (now destruct Ha).
  - unfold exec_program in H. eapply Htrans; [apply Halloc|].
    eapply (iterate_flow (homely s) Hsame Htrans); [|exact H]. intros m c' st1 r1 st2 Hi. apply Hrec. auto.
  - repeat match type of H with
    | (let! _ := ?x in _) = _ => destruct x; [|discriminate]
    | (match ?x with _ => _ end) = _ => destruct x
    end; try discriminate; injection H as _ <-; auto.
  - repeat match type of H with
    | (let! _ := ?x in _) = _ => destruct x; [|discriminate]
    | (match ?x with _ => _ end) = _ => destruct x
    end; try discriminate; injection H as _ <-; auto.
  - unfold exec_sequence in H. repeat match type of H with
    | (let! _ := ?x in _) = _ => destruct x; [|discriminate]
    | (match ?x with _ => _ end) = _ => destruct x
    end; try discriminate; injection H as _ <-; auto.
  - assert (Hm1 : home m1) by (apply Hp; now left).
    destruct (rec m1 _ s st) as [r0 st1|p|] eqn:E1; try discriminate. apply Hrec in E1; [|exact Hm1].
    destruct r0 as [[a|a|z|b q|b q| |]|[|e]]; try (injection H as _ <-; exact E1).
    destruct (z =? 0)%Z; injection H as _ <-; exact E1.
  - assert (Hm1 : home m1) by (apply Hp; now left).
    destruct (rec m1 _ s st) as [r0 st1|p|] eqn:E1; try discriminate. apply Hrec in E1; [|exact Hm1].
    destruct r0 as [x|[|e]]; injection H as _ <-; exact E1.
  - assert (Hm1 : home m1) by (apply Hp; now left).
    destruct (rec m1 _ s st) as [r0 st1|p|] eqn:E1; try discriminate. apply Hrec in E1; [|exact Hm1].
    eapply Htrans; [exact E1|eapply (discard_flow (homely s) Hsame); eauto].
  - injection H as _ <-. auto.
  - destruct (error_string E P msg _); [|discriminate]. injection H as _ <-. auto.
  - eapply (error_token_at_flow (homely s) Hsame); eauto.
  - injection H as _ <-. auto.
  - assert (Hm1 : home m1) by (apply Hp; now left).
    destruct (rec m1 _ s st) as [r0 st1|p|] eqn:E1; try discriminate. apply Hrec in E1; [|exact Hm1].
    assert (Hf : forall k, f <> MapUser k) by (intros k ->; exact Ha).
    assert (Hok : forall a c r st', map_ok E P f a c s st1 = Ret r st' -> homely s st1 st').
    { intros a c1 r1 st2 Hr. apply (map_ok_flow (homely s) Hsame Htrans (hushed E) P f a c1 s st1 r1 st2); [discriminate|].
      rewrite <- Hr. destruct f; try reflexivity. now destruct (Hf k). }
    destruct r0 as [[a|a|z|b q|b q| |]|e]; try (injection H as _ <-; exact E1).
    + eapply Htrans; [exact E1|eapply Hok; eauto].
    + eapply Htrans; [exact E1|eapply Hok; eauto].
    + eapply Htrans; [exact E1|].
      eapply (map_err_flow (homely s) Hsame (hushed E) P f e _ s st1 r st'); [discriminate|].
      rewrite <- H. destruct f; try reflexivity. now destruct (Hf k).
  - destruct (fetch_value st s off) as [[v|m2]|]; [| |discriminate]; [|injection H as _ <-; auto].
    destruct (pin_context E _ v); [|discriminate]. destruct om as [m1|].
    + eapply Hrec; [|exact H]. apply Hp. now left.
    + injection H as _ <-. auto.
  - destruct p as [m1|v].
    + assert (Hm1 : home m1) by (apply Hp; now left).
      destruct (rec m1 _ s st) as [r0 st1|p|] eqn:E1; try discriminate. apply Hrec in E1; [|exact Hm1].
      destruct r0 as [[a|a|z|b q|b q| |]|e]; injection H as _ <-; try exact E1.
      eapply Htrans; [exact E1|]. apply homely_set. discriminate.
    + injection H as _ <-. apply homely_set. discriminate.
  - injection H as _ <-. auto.
  - injection H as _ <-. clear Hrefl Halloc. revert st. induction ms as [|m ms IH]; intros st; cbn [fold_left]; [apply homely_refl|].
    eapply Htrans; [|apply IH; intros x Hx; apply Hp; now right].
    apply homely_set. intros x Hx. injection Hx as <-. apply Hp. now left.
  - intros Hs. destruct (fetch_value st s t) as [[v|m1]|] eqn:Ef; [| |discriminate].
    + destruct (sc_get st s v) as [[ | | ]|] eqn:Eg; try (injection H as _ <-; now apply Hrefl).
      eapply Hrec; [eapply homely_get; eauto|exact H|exact Hs].
    + assert (Hm1 : home m1).
      { unfold fetch_value in Ef. destruct t as [v|n|m2].
        - discriminate.
        - destruct (sc_get st s (hd [] (split "." n))) as [[x|x|x]|] eqn:Eg.
          + destruct (split "." n) as [|? [|? [|? ?]]]; try discriminate.
            destruct (fetch_token _ _ _); discriminate.
          + destruct (split "." n) as [|? [|? [|? ?]]]; discriminate.
          + injection Ef as <-. eapply homely_get; eauto.
          + discriminate.
        - injection Ef as <-. apply Hp. now left. }
      eapply Hrec; [exact Hm1|exact H|exact Hs].
  - assert (Hm1 : home m1) by (apply Hp; now left).
    destruct (rec m1 _ s st) as [r0 st1|p|] eqn:E1; try discriminate. apply Hrec in E1; [|exact Hm1].
    destruct r0 as [[a|a|z|b q|b q| |]|e]; try (injection H as _ <-; exact E1);
      destruct q; injection H as _ <-; exact E1.
  - assert (Hm1 : home m1) by (apply Hp; now left).
    destruct (rec m1 _ s st) as [r0 st1|p|] eqn:E1; try discriminate. apply Hrec in E1; [|exact Hm1].
    destruct r0 as [[a|a|z|b q|b q| |]|e]; injection H as _ <-;
      first [exact E1|eapply Htrans; [exact E1|now apply homely_same]].
  - destruct om as [m1|].
    + destruct (debug_range E P _ 10); [|discriminate]. eapply Hrec; [apply Hp; now left|eauto].
    + destruct (debug_range E P _ 10); [|discriminate]. injection H as _ <-. auto.
Qed.
Lemma exec_home E P : forall n, stays_home (exec n E P).
Proof.
  induction n as [|n IH]; [intros m c s st r st' _ H; discriminate|]. now apply step_home.
Qed.
