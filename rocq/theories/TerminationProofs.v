(* Grammars without references finish (C47). *)
From Verif Require Import Macros Spec SpecMore Mono FrameProofs CombProofs AtomProofs BoundsProofs.
From Coq Require Import Sorted.
Open Scope string_scope.
Open Scope list_scope.
Open Scope N_scope.

Lemma parts_ind (Q : matcher -> Prop) :
  (forall m, (forall x, In x (parts m) -> Q x) -> Q m) -> forall m, Q m.
Proof.
  intros H. fix IH 1. intros m. apply H.
  destruct m as [pats i|p name cust|f name cust|fs fe fx name cust|m1|m1|m1| |msg|msg|nm|m1 k|m1 f
                  |om off name cust|p name cust|name|ms|t name cust|o m1|m1 name cust|m1|om d|k name cust cons];
    cbn [parts]; try (intros x []; fail);
    try (intros x [<-|[]]; apply IH; fail).
  - induction pats as [|m pats IHp]; intros x Hx; [destruct Hx|]. destruct Hx as [<-|Hx]; [apply IH|apply IHp, Hx].
  - destruct om as [m1|]; intros x Hx; [destruct Hx as [<-|[]]; apply IH|destruct Hx].
  - destruct p as [m1|v]; intros x Hx; [destruct Hx as [<-|[]]; apply IH|destruct Hx].
  - induction ms as [|m ms IHp]; intros x Hx; [destruct Hx|]. destruct Hx as [<-|Hx]; [apply IH|apply IHp, Hx].
  - destruct t as [v|v|m1]; intros x Hx; [destruct Hx|destruct Hx|destruct Hx as [<-|[]]; apply IH].
  - destruct om as [m1|]; intros x Hx; [destruct Hx as [<-|[]]; apply IH|destruct Hx].
Qed.

(* finitely many parts have a common bound *)
Lemma nested_more d m : nested d m -> forall d', (d <= d')%nat -> nested d' m.
Proof.
  induction 1 as [d m Hp IH]; intros d' Hd. destruct d' as [|d']; [lia|]. constructor. intros x Hx. apply IH; auto. lia.
Qed.
Lemma nested_all l : (forall x, In x l -> exists d, nested d x) -> exists d, forall x, In x l -> nested d x.
Proof.
  induction l as [|m l IH]; intros H; [exists O; intros x []|].
  destruct IH as [d Hd]; [intros; apply H; now right|]. destruct (H m (or_introl eq_refl)) as [d' Hd'].
  exists (Nat.max d d'). intros x [<-|Hx]; eapply nested_more; eauto; lia.
Qed.
Lemma nested_some m : exists d, nested d m.
Proof.
  induction m as [m IH] using parts_ind. apply nested_all in IH as [d Hd]. exists (S d). now constructor.
Qed.
Lemma iterates_more k m : iterates k m -> forall k', k <= k' -> iterates k' m.
Proof.
  induction 1 as [m Hi Hp IH]; intros k' Hk. constructor; [|intros x Hx; apply IH; auto].
  intros ps i a b Hm Ha. specialize (Hi ps i a b Hm Ha). lia.
Qed.
Lemma iterates_all l : (forall x, In x l -> exists d, iterates d x) -> exists d, forall x, In x l -> iterates d x.
Proof.
  induction l as [|m l IH]; intros H; [exists 0; intros x []|].
  destruct IH as [d Hd]; [intros; apply H; now right|]. destruct (H m (or_introl eq_refl)) as [d' Hd'].
  exists (N.max d d'). intros x [<-|Hx]; eapply iterates_more; eauto; lia.
Qed.
Lemma iterates_some m : exists k, iterates k m.
Proof.
  induction m as [m IH] using parts_ind. apply iterates_all in IH as [d Hd].
  exists (N.max d (match m with MProgram _ i => match pi_iter i with Some (a, b) => b - a | None => 0 end | _ => 0 end)).
  constructor.
  - intros ps i a b -> Ha. rewrite Ha. lia.
  - intros x Hx. eapply iterates_more; [now apply Hd|lia].
Qed.

(* ---------- what comes back ---------- *)

Lemma skip_token_back E P lo h a st : forest h st -> (h <= a < heap_size st)%nat -> skip_token E P lo a st <> OOF.
Proof.
  intros Hf Ha. unfold skip_token. destruct (Hf a Ha) as (_ & l & Hl).
  rewrite (error_tokens_spec st a _ (ex_intro _ l (conj Hl eq_refl))).
  destruct (filter _ l); [|discriminate]. destruct (or_die _ _); discriminate.
Qed.
Lemma discard_back E P lo h r st : forest h st ->
  (forall a, In a (result_tokens r) -> (h <= a < heap_size st)%nat) -> discard_result E P lo r st <> OOF.
Proof.
  intros Hf Hr.
  assert (Hs : forall a, In a (result_tokens r) -> skip_token E P lo a st <> OOF)
    by (intros; eapply skip_token_back; eauto).
  assert (Hp : forall p, (forall a, In a (success_tokens p) -> skip_token E P lo a st <> OOF) ->
    discard_payload E P lo p st <> OOF).
  { intros p Hp. destruct p; cbn [discard_payload]; try discriminate; apply Hp; now left. }
  destruct r as [[a|a|z|b q|b q| |]|e]; cbn [discard_result]; try discriminate.
  - specialize (Hs a (or_introl eq_refl)). destruct (skip_token E P lo a st); congruence.
  - specialize (Hs a (or_introl eq_refl)). destruct (skip_token E P lo a st); congruence.
  - specialize (Hp q Hs). destruct (discard_payload E P lo q st); congruence.
  - specialize (Hp q Hs). destruct (discard_payload E P lo q st); congruence.
Qed.
Lemma error_back E P msg r st : error_token_at E P msg r st <> OOF.
Proof. unfold error_token_at. destruct (error_string E P msg r); discriminate. Qed.
Lemma finalize_back P i pt ps count strict st : finalize P i pt ps count strict st <> OOF.
Proof.
  unfold finalize. assert (Hc : (if (rs (ps_cr ps) =? usize_max) || (rs (ps_mr ps) =? usize_max) then Ret (Err FFail) st
    else match ps_kids ps with
         | [] => Ret (Err FFail) st
         | _ => Ret (Ok (SToken pt))
                  (modify st pt (fun t => set_mr P (ps_mr ps) (set_cr P (ps_cr ps) (set_kids (ps_kids ps) t))))
         end) <> OOF).
  { destruct (_ || _); [discriminate|]. destruct (ps_kids ps); discriminate. }
  destruct strict; [|exact Hc]. destruct (pi_iter i) as [[a b]|]; [|exact Hc].
  destruct (_ && _ && _); [discriminate|]. destruct (count <? a); [discriminate|exact Hc].
Qed.
Lemma add_back P pt a fwd upd ps st : add_token P pt a fwd upd ps st <> OOF.
Proof. unfold add_token. destruct (_ && _ && _ && _); discriminate. Qed.
Lemma extract_back P pt self u l : forall ps st, extract_children P pt self u l ps st <> OOF.
Proof.
  induction l as [|k l IH]; intros ps st; cbn [extract_children]; [discriminate|].
  destruct (should_discard _); [apply IH|]. destruct (Nat.eqb k self); [discriminate|].
  pose proof (add_back P pt k false u ps st). destruct (add_token P pt k false u ps st); [apply IH|discriminate|congruence].
Qed.
Lemma handle_skip_back E lo z ps st : handle_skip E lo z ps st <> OOF.
Proof. unfold handle_skip. destruct (or_die _ _); discriminate. Qed.
Lemma payload_back E P pt lo p ps st : handle_payload E P pt lo p ps st <> OOF.
Proof.
  destruct p; cbn [handle_payload]; try discriminate; [apply add_back|apply extract_back|apply handle_skip_back].
Qed.

Lemma run_back E P rec i c s pt lo count pats :
  forall (Q : pst -> state -> Prop),
  (forall m ps st, In m pats -> Q ps st -> rec m (push_tok (with_start c (ps_off ps)) pt) s st <> OOF) ->
  (forall m ps st r st1, In m pats -> Q ps st -> rec m (push_tok (with_start c (ps_off ps)) pt) s st = Ret r st1 ->
     Q ps st1 /\
     match r with
     | Ok (SToken a) => should_discard (tok st1 a) = false -> forall ps2 st2, pi_stop i = false ->
         handle_token P pt a (m_consuming m) (m_consuming m) ps st1 = Ret ps2 st2 -> Q ps2 st2
     | Ok (SProxy a) => should_discard (tok st1 a) = false -> forall ps2 st2, pi_stop i = false ->
         handle_extract P pt a (m_consuming m) ps st1 = Ret ps2 st2 -> Q ps2 st2
     | Ok (SSkip z) => m_consuming m = true -> (0 <? z)%Z && pi_stop i = false -> forall ps2 st2,
         handle_skip E lo z ps st1 = Ret ps2 st2 -> Q ps2 st2
     | _ => True
     end) ->
  forall ps st, Q ps st -> run_patterns E P rec i c s pt lo count pats ps st <> OOF.
Proof.
  intros Q. induction pats as [|m pats IH]; intros Hrec Hnext ps st Hq; cbn [run_patterns]; [discriminate|].
  assert (IH' : forall ps st, Q ps st -> run_patterns E P rec i c s pt lo count pats ps st <> OOF).
  { apply IH; intros m1 ps1 st1; [intros; apply Hrec; auto; now right|]. intros r st2 Hm1 Hq1 Hr1.
    eapply Hnext; eauto. now right. }
  pose proof (Hrec m ps st (or_introl eq_refl) Hq) as Hr.
  destruct (rec m _ s st) as [r st1|p|] eqn:Er; [|discriminate|congruence].
  apply Hnext in Er as [Hq1 Hn]; [|now left|exact Hq]. clear Hr Hq.
  destruct r as [[a|a|z|b q|b q| |]|e]; try discriminate.
  - destruct (should_discard (tok st1 a)) eqn:Ed; [now apply IH'|]. destruct (pi_stop i) eqn:Ei; [discriminate|].
    pose proof (add_back P pt a (m_consuming m) (m_consuming m && negb (should_discard (tok st1 a))) ps st1) as Ha.
    change (add_token _ _ _ _ _ _ _) with (handle_token P pt a (m_consuming m) (m_consuming m) ps st1) in Ha.
    destruct (handle_token P pt a _ _ ps st1) as [ps2 st2|p|] eqn:Eh; [|discriminate|congruence].
    apply IH'. eapply Hn; eauto.
  - destruct (should_discard (tok st1 a)) eqn:Ed; [now apply IH'|]. destruct (pi_stop i) eqn:Ei; [discriminate|].
    destruct (handle_extract P pt a _ ps st1) as [ps2 st2|p|] eqn:Eh; [|discriminate|].
    + apply IH'. eapply Hn; eauto.
    + exfalso. revert Eh. apply extract_back.
  - destruct ((0 <? z)%Z && pi_stop i) eqn:Ez; [discriminate|]. destruct (m_consuming m) eqn:Ec; [|now apply IH'].
    pose proof (handle_skip_back E lo z ps st1) as Ha.
    destruct (handle_skip E lo z ps st1) as [ps2 st2|p|] eqn:Eh; [|discriminate|congruence].
    apply IH'. eapply Hn; eauto.
  - destruct (dbg E P _ 10); [|discriminate]. destruct e; [|discriminate].
    destruct (pi_stop i); [now apply IH'|]. destruct (pi_iter i); [|discriminate].
    pose proof (finalize_back P i pt ps count false st1). destruct (finalize P i pt ps count false st1); congruence.
Qed.

Lemma map_ok_back E P f a c s st : returning E -> map_ok E P f a c s st <> OOF.
Proof.
  intros (Hu1 & Hu2 & Hu3 & Hu4).
  destruct f; cbn [map_ok]; try discriminate; try apply Hu1; try apply error_back.
  - destruct (error_string E P _ _); discriminate.
  - destruct (attributes_of st a); discriminate.
  - destruct (attributes_of st a) as [l|]; [|discriminate].
    destruct (get_attr _ _); [|apply error_back]. destruct (parse_usize _); [discriminate|].
    destruct (version_attr l); [apply error_back|discriminate].
  - destruct (_ <? _); [|discriminate]. destruct (src_slice _ _ _); [|discriminate]. apply error_back.
  - destruct (find_child _ _ _); [discriminate|]. destruct (find_child _ _ _); [discriminate|]. apply error_back.
Qed.
Lemma map_err_back E P f e c s st : returning E -> map_err E P f e c s st <> OOF.
Proof.
  intros (Hu1 & Hu2 & Hu3 & Hu4).
  destruct f, e; cbn [map_err]; try discriminate; try apply Hu2; try apply error_back.
  destruct (error_string E P _ _); discriminate.
Qed.

Ltac inner m1 :=
  match goal with Hp : (forall x c1 s1 st1, In x _ -> _ -> _ -> _ -> _ -> ?rec x c1 s1 st1 <> OOF) |- context [?rec m1 ?c1 ?s1 ?st1] =>
    let Hx := fresh in let Er := fresh "Er" in let r := fresh "r" in let st2 := fresh "st2" in let p := fresh "p" in
    assert (Hx : rec m1 c1 s1 st1 <> OOF) by (apply Hp; [now left|discriminate|discriminate|reflexivity|eauto 6]);
    destruct (rec m1 c1 s1 st1) as [r st2|p|] eqn:Er; [|discriminate|congruence]
  end.

(* one level of execution comes back when the inner matchers do *)
Lemma step_returns E P fuel rec m c s st0 :
  let st := before_exec m s st0 in
  returning E -> (forall h, sound h rec) ->
  (forall t n b x c1, m = MRef t n b ->
     fetch_value st s t = Val (GMatcher x) \/
     (exists v, fetch_value st s t = Val (GStr v) /\ sc_get st s v = Some (VMatcher x)) ->
     c_off c1 = c_off c -> rec x c1 s st <> OOF) ->
  (forall pats i, m = MProgram pats i -> exec_program fuel E P rec pats i c s st <> OOF) ->
  (forall x v n b w c1, m = MPin (Some x) v n b -> fetch_value st s v = Val (GStr w) ->
     pin_context E (clone_with_name c n) w = Val c1 -> rec x c1 s st <> OOF) ->
  (forall x c1 s1 st1, In x (parts m) -> (forall om v n b, m <> MPin om v n b) -> (forall ps i, m <> MProgram ps i) -> c_off c1 = c_off c ->
     (s1 = s /\ st1 = st) \/ ((exists o y, m = MSetScope o y) /\ (st1 = st \/ st1 = sc_push st (c_scope c))) ->
     rec x c1 s1 st1 <> OOF) ->
  step fuel E P rec m c s st0 <> OOF.
Proof.
  intros st Hu Hsound Href Hprog Hpin Hpart. unfold step. fold st. clearbody st. clear st0. pose proof Hu as (Hu1 & Hu2 & Hu3 & Hu4).
  assert (Hd : (exists ps i, m = MProgram ps i) \/ forall ps i, m <> MProgram ps i)
    by (destruct m; [left; eauto|..]; right; discriminate).
  destruct Hd as [(ps & i & ->)|Hnp]; [now apply Hprog|].
  assert (Hone : forall x c1, In x (parts m) -> (forall om v n b, m <> MPin om v n b) -> c_off c1 = c_off c ->
    rec x c1 s st <> OOF) by (intros; apply Hpart; auto).
  destruct m as [pats i|p name cust|f name cust|fs fe fx name cust|m1|m1|m1| |msg|msg|nm|m1 k|m1 f
                |om off name cust|p name cust|name|ms|t name cust|o m1|m1 name cust|m1|om d|k name cust cons];
    cbn [m_name] in *; try discriminate.
  - now elim (Hnp pats i).
  - destruct (fetch_value st s p) as [[v|m1]|]; try discriminate.
    destruct (matches_str _ _ _) as [[r|]|]; try discriminate; destruct (dbg E P _ 10); discriminate.
  - destruct (matches_regexp _ _ _) as [[r|]|]; try discriminate.
    + destruct (rs r =? re r); [|discriminate]. destruct (dbg E P _ 10); discriminate.
    + destruct (dbg E P _ 10); discriminate.
  - unfold exec_sequence. destruct (fetch_value st s fs) as [[sp|]|]; try discriminate.
    destruct (slen sp =? 0); [discriminate|]. destruct (fetch_value st s fe) as [[ep|]|]; try discriminate.
    destruct (slen ep =? 0); [discriminate|]. destruct (fetch_value st s fx) as [[esc|]|]; try discriminate.
    destruct (matches_str _ _ _) as [[r|]|] eqn:Em; try discriminate.
    + pose proof (seq_scan_fuel P (clone_with_name c name) ep esc (S (List.length (p_src P))) (re r) (re r) []) as Hx.
      destruct (seq_scan _ _ _ _ _ _ _ _) as [[j v| |]|] eqn:Es; try discriminate.
      * destruct (dbg E P _ _); discriminate.
      * destruct (dbg E P _ 10); discriminate.
      * exfalso. apply Hx; [|reflexivity]. unfold matches_str in Em.
        destruct (slen sp =? 0); [discriminate|]. unfold src_slice in Em.
        destruct (slice _ _ _) as [w|] eqn:Ew; [|discriminate]. apply slice_some in Ew as (pre & post & Ew & Ep & Eb & _).
        cbn [c_off clone_with_name] in *. rewrite Ew, !app_length. rewrite !slen_length in *. lia.
    + destruct (dbg E P _ 10); discriminate.
  - inner m1. destruct r as [[a|a|z|b q|b q| |]|[|e]]; try discriminate. destruct (z =? 0)%Z; discriminate.
  - inner m1. destruct r as [x|[|e]]; discriminate.
  - inner m1. pose proof (Hsound (heap_size st) _ _ _ _ _ _ (le_n _) (forest_top st) Er) as (P1 & P2 & P3).
    eapply discard_back; eauto.
  - destruct (error_string E P msg _); discriminate.
  - apply error_back.
  - inner m1. destruct r as [x|e]; [discriminate|apply Hu3].
  - inner m1. destruct r as [[a|a|z|b q|b q| |]|e]; try discriminate.
    + now apply map_ok_back.
    + now apply map_ok_back.
    + now apply map_err_back.
  - destruct (fetch_value st s off) as [[v|m1]|] eqn:Ef; try discriminate.
    destruct (pin_context _ _ _) as [c1|] eqn:Ec; [|discriminate]. destruct om as [m1|]; [|discriminate].
    eapply Hpin; [reflexivity|exact Ef|exact Ec].
  - destruct p as [m1|v]; [|discriminate]. inner m1. destruct r as [[a|a|z|b q|b q| |]|e]; discriminate.
  - destruct (fetch_value st s t) as [[v|m1]|] eqn:Ef; try discriminate.
    + destruct (sc_get st s v) as [[a|w|m1]|] eqn:Eg; try discriminate. eapply Href; [reflexivity|eauto|reflexivity].
    + eapply Href; [reflexivity|eauto|reflexivity].
  - destruct o as [s1|]; [apply Hpart; [now left|discriminate|discriminate|reflexivity|eauto 6]|].
    inner m1. discriminate.
  - inner m1. destruct r as [[a|a|z|b q|b q| |]|e]; try discriminate; destruct q; discriminate.
  - inner m1. destruct r as [[a|a|z|b q|b q| |]|e]; discriminate.
  - destruct om as [m1|]; destruct (debug_range E P _ 10); try discriminate.
    apply Hone; [now left|discriminate|reflexivity].
  - apply Hu4.
Qed.
Lemma step_back E P fuel rec m c s st0 :
  let st := before_exec m s st0 in
  returning E -> (forall h, sound h rec) ->
  (forall t n b, m = MRef t n b -> exists x, t = FMatcher x) ->
  (forall pats i, m = MProgram pats i -> exec_program fuel E P rec pats i c s st <> OOF) ->
  (forall x v n b c1, m = MPin (Some x) v n b -> rec x c1 s st <> OOF) ->
  (forall x c1 s1 st1, In x (parts m) -> (forall om v n b, m <> MPin om v n b) -> c_off c1 = c_off c ->
     st1 = st \/ st1 = sc_push st (c_scope c) -> rec x c1 s1 st1 <> OOF) ->
  step fuel E P rec m c s st0 <> OOF.
Proof.
  intros st Hu Hsound Href Hprog Hpin Hpart. apply step_returns; auto.
  - intros t n b x c1 -> Hx Hc. destruct (Href _ _ _ eq_refl) as [y ->]. cbn [fetch_value] in Hx.
    destruct Hx as [Hx|(v & Hx & _)]; [|discriminate]. injection Hx as <-. apply Hpart; auto; [now left|discriminate].
  - intros x v n b w c1 -> _ _. eapply Hpin. reflexivity.
  - intros x c1 s1 st1 Hx Hp _ Hc [[-> ->]|[_ H1]]; apply Hpart; auto.
Qed.

(* ---------- as many iterations as the loops are allowed ---------- *)

Lemma iterate_counts E P rec pats i c s pt lo :
  (forall m c s st, In m pats -> rec m c s st <> OOF) ->
  forall f left count ps st, left <= N.of_nat f -> iterate f E P rec pats i c s pt lo left count ps st <> OOF.
Proof.
  intros Hrec. induction f as [|f IH]; intros left count ps st Hl; cbn [iterate].
  - destruct (N.eqb_spec left 0); [apply finalize_back|lia].
  - destruct (N.eqb_spec left 0); [apply finalize_back|].
    assert (Hr : run_patterns E P rec i c s pt lo count pats ps st <> OOF).
    { apply (run_back E P rec i c s pt lo count pats (fun _ _ => True)); auto.
      intros m ps0 st0 r st1 _ _ _. split; [exact Logic.I|]. destruct r as [[]|]; auto. }
    destruct (run_patterns _ _ _ _ _ _ _ _ _ _ _ _) as [[k ps1] st1|p|]; [|discriminate|congruence].
    destruct k as [|x|r]; [apply IH; lia| |discriminate].
    destruct x as [a|a|z|b q|b q| |]; try discriminate.
    + destruct (pi_stop i); [discriminate|]. pose proof (payload_back E P pt lo q ps1 st1).
      destruct (handle_payload E P pt lo q ps1 st1) as [ps2 st2|p|]; [|discriminate|congruence].
      pose proof (finalize_back P i pt ps2 count false st2).
      destruct (finalize P i pt ps2 count false st2) as [r st3|p|]; [|discriminate|congruence].
      destruct (is_target i b); [discriminate|]. destruct r; discriminate.
    + destruct (pi_stop i); [discriminate|]. pose proof (payload_back E P pt lo q ps1 st1).
      destruct (handle_payload E P pt lo q ps1 st1) as [ps2 st2|p|]; [|discriminate|congruence].
      destruct (is_target i b); [apply IH; lia|apply finalize_back].
    + apply finalize_back.
Qed.

Lemma exec_counts E P k : tame E -> returning E ->
  forall n d m, nested d m -> iterates k m -> no_references m -> (d + N.to_nat (N.max k 1) <= n)%nat ->
  forall c s st, exec n E P m c s st <> OOF.
Proof.
  intros HE Hu. induction n as [|n IH]; intros d m Hd Hk Hr Hn c s st.
  - inversion Hd; subst. lia.
  - cbn [exec]. inversion Hd as [d' m' Hd']; subst. inversion Hk as [m' Hk1 Hk2]; subst. inversion Hr as [m' Hr1 Hr2]; subst.
    assert (Hx : forall x c s st, In x (parts m) -> exec n E P x c s st <> OOF) by (intros; eapply IH; auto; lia).
    apply step_back; auto.
    + intros h. now apply exec_sound.
    + intros pats i ->. unfold exec_program. apply iterate_counts; [intros; now apply Hx|].
      unfold iterations. destruct (pi_iter i) as [[a b]|] eqn:Ei; [|lia]. specialize (Hk1 _ _ _ _ eq_refl Ei). lia.
    + intros x v nm b c1 ->. apply Hx. now left.
Qed.

Theorem counts_bound : forall E P m c s st d k n, tame E -> returning E ->
  no_references m -> nested d m -> iterates k m -> (d + N.to_nat (N.max k 1) <= n)%nat ->
  exec n E P m c s st <> OOF.
Proof. intros. eapply exec_counts; eauto. Qed.

Theorem ends : forall E P m c s st, tame E -> returning E -> no_references m ->
  (exists r st', Runs E P m c s st r st') \/ (exists p, Panics E P m c s st p).
Proof.
  intros E P m c s st HE Hu Hr. destruct (nested_some m) as [d Hd]. destruct (iterates_some m) as [k Hk].
  pose proof (counts_bound E P m c s st d k _ HE Hu Hr Hd Hk (le_n _)) as H.
  destruct (exec _ E P m c s st) as [r st'|p|] eqn:En; [left|right|congruence].
  - exists r, st'. eexists. exact En.
  - exists p. eexists. exact En.
Qed.

(* ---------- loops that move forward ---------- *)

Definition any_pos (_ : N) : Prop := True.
Definition any_str (_ : str) : Prop := True.

(* [a] and its children end at [t] or behind it *)
Definition past (t : N) (st : state) (a : addr) : Prop :=
  t <= re (tk_mr (tok st a)) /\ forall k, In k (tk_kids (tok st a)) -> t <= re (tk_mr (tok st k)).
Definition past_success (t : N) (st : state) (x : success) : Prop :=
  forall a, In a (success_tokens x) -> past t st a.
(* moved from [lo] to [t] *)
Definition over (t lo : N) (st : state) (r : mres) : Prop :=
  match r with
  | Ok (SContinue _ _) => False
  | Ok (SSkip z) => t <= lo + Z.to_N z
  | Ok x => past_success t st x
  | Err _ => True
  end.
Definition kids_over (u : N) (st : state) (ps : pst) : Prop :=
  forall k, In k (ps_kids ps) -> u <= re (tk_mr (tok st k)).

(* same ranges and children *)
Definition same_ends (st st' : state) : Prop :=
  forall x, tk_mr (tok st' x) = tk_mr (tok st x) /\ tk_kids (tok st' x) = tk_kids (tok st x).
Lemma same_past t st st' a : same_ends st st' -> past t st a -> past t st' a.
Proof.
  intros H [H1 H2]. unfold past. destruct (H a) as [-> ->]. split; [exact H1|].
  intros k Hk. destruct (H k) as [-> _]. auto.
Qed.
Lemma same_set st a t : tk_mr t = tk_mr (tok st a) -> tk_kids t = tk_kids (tok st a) -> same_ends st (set_tok st a t).
Proof.
  intros H1 H2 x. destruct (Nat.eq_dec a x) as [<-|Hn].
  - destruct (Nat.lt_ge_cases a (heap_size st)) as [Hl|Hl].
    + now rewrite tok_set_same.
    + now rewrite tok_set_dead.
  - now rewrite tok_set_other.
Qed.

Lemma add_grown P pt a fwd ps st ps' st' : is_error (tok st a) = false ->
  add_token P pt a fwd true ps st = Ret ps' st' ->
  ps_off ps' = re (tk_mr (tok st a)) /\ ps_kids ps' = ps_kids ps ++ [a] /\ same_ends st st' /\
  forall x, is_error (tok st' x) = is_error (tok st x) /\ should_discard (tok st' x) = should_discard (tok st x).
Proof.
  intros He H. unfold add_token in H. rewrite He in H. cbn [negb andb] in H.
  destruct (_ && _); [discriminate|]. injection H as <- <-. cbn [ps_off ps_kids].
  split; [reflexivity|]. split; [reflexivity|]. split; [now apply same_set|].
  intros x. destruct (Nat.eq_dec a x) as [<-|Hn]; [|now rewrite tok_set_other].
  destruct (Nat.lt_ge_cases a (heap_size st)) as [Hl|Hl]; [|now rewrite tok_set_dead].
  rewrite tok_set_same by exact Hl. split; reflexivity.
Qed.
Lemma kids_over_add u st st' ps ps' a : same_ends st st' -> ps_kids ps' = ps_kids ps ++ [a] ->
  kids_over u st ps -> u <= re (tk_mr (tok st a)) -> kids_over u st' ps'.
Proof.
  intros Hs Hk Ho Ha k Hin. destruct (Hs k) as [-> _]. rewrite Hk in Hin.
  apply in_app_or in Hin as [Hin|[<-|[]]]; auto.
Qed.
Lemma extract_grown P pt self l : forall ps st ps' st', 
  (forall k, In k l -> is_error (tok st k) = false) ->
  extract_children P pt self true l ps st = Ret ps' st' ->
  same_ends st st' /\
  (forall t, t <= ps_off ps -> (forall k, In k l -> t <= re (tk_mr (tok st k))) -> t <= ps_off ps') /\
  (forall u, kids_over u st ps -> (forall k, In k l -> u <= re (tk_mr (tok st k))) -> kids_over u st' ps').
Proof.
  induction l as [|k l IH]; intros ps st ps' st' He H; cbn [extract_children] in H.
  - injection H as <- <-. split; [intros x; auto|]. auto.
  - destruct (should_discard (tok st k)).
    + apply IH in H as (H1 & H2 & H3); [|intros; apply He; now right]. split; [exact H1|].
      split; [intros; apply H2; auto; intros; auto using in_cons|intros; apply H3; auto using in_cons].
    + destruct (Nat.eqb k self); [discriminate|].
      destruct (add_token P pt k false true ps st) as [ps1 st1|p|] eqn:Ea; try discriminate.
      apply add_grown in Ea as (A1 & A2 & A3 & A4); [|apply He; now left].
      apply IH in H as (H1 & H2 & H3); [|intros x Hx; destruct (A4 x) as [-> _]; apply He; now right].
      split; [intros x; destruct (H1 x) as [-> ->]; apply A3|]. split.
      * intros t Ht Hl. apply H2; [rewrite A1; apply Hl; now left|].
        intros x Hx. destruct (A3 x) as [-> _]. apply Hl. now right.
      * intros u Hu Hl. apply H3; [eapply kids_over_add; eauto; apply Hl; now left|].
        intros x Hx. destruct (A3 x) as [-> _]. apply Hl. now right.
Qed.

Section Fits.
  Variables (lo hi : N) (st : state) (a : addr).
  Hypothesis Ha : tree_fits any_pos lo hi st a.
  Lemma fits_error : is_error (tok st a) = false.
  Proof. destruct (tree_root _ _ _ _ _ Ha) as [(_ & _ & _ & _ & _ & _ & _ & H & _) _]. exact H. Qed.
  Lemma fits_standard : should_discard (tok st a) = false.
  Proof.
    destruct (tree_root _ _ _ _ _ Ha) as [(_ & _ & _ & _ & _ & _ & _ & _ & H) _]. unfold should_discard. now rewrite H.
  Qed.
  Lemma fits_kid_error k : In k (tk_kids (tok st a)) -> is_error (tok st k) = false.
  Proof.
    intros Hk. destruct (tree_root _ _ _ _ _ (tree_kids _ _ _ _ _ Ha k Hk)) as [(_ & _ & _ & _ & _ & _ & _ & H & _) _].
    exact H.
  Qed.
  Lemma fits_past t : t <= lo -> past t st a.
  Proof.
    intros Ht. destruct (tree_root _ _ _ _ _ Ha) as [(A1 & A2 & A3 & _) _]. split; [lia|].
    intros k Hk. destruct (tree_root _ _ _ _ _ (tree_kids _ _ _ _ _ Ha k Hk)) as [(B1 & B2 & B3 & _) _]. lia.
  Qed.

  Lemma token_grown P pt fwd ps ps' st' : handle_token P pt a fwd true ps st = Ret ps' st' ->
    same_ends st st' /\
    (forall t, past t st a -> t <= ps_off ps') /\
    (forall u, kids_over u st ps -> past u st a -> kids_over u st' ps').
  Proof.
    unfold handle_token. rewrite fits_standard. intros H. apply add_grown in H as (A1 & A2 & A3 & _); [|apply fits_error].
    split; [exact A3|]. split; [intros t [Ht _]; lia|]. intros u Hu [Hp _]. eapply kids_over_add; eauto.
  Qed.
  Lemma proxy_grown P pt ps ps' st' : handle_extract P pt a true ps st = Ret ps' st' ->
    same_ends st st' /\
    (forall t, past t st a -> t <= ps_off ps') /\
    (forall u, kids_over u st ps -> past u st a -> kids_over u st' ps').
  Proof.
    unfold handle_extract. rewrite fits_standard. cbn [negb andb]. intros H.
    apply extract_grown in H as (H1 & H2 & H3); [|apply fits_kid_error].
    split; [exact H1|]. split; [intros t [Ht Hk]; now apply H2|]. intros u Hu [_ Hk]. apply H3; [|exact Hk].
    exact Hu.
  Qed.
End Fits.

Lemma skip_grown E lo z ps st ps' st' : (0 <= z)%Z -> ps_off ps + Z.to_N z < isize_bound ->
  handle_skip E lo z ps st = Ret ps' st' ->
  st' = st /\ ps_off ps' = ps_off ps + Z.to_N z /\ ps_kids ps' = ps_kids ps.
Proof.
  intros Hz Hs H. unfold handle_skip in H.
  assert (Ha : usize_add (e_checks E) (ps_off ps) (as_usize z) = Some (ps_off ps + Z.to_N z)).
  { apply skips_to_add. apply skips_to_small; [lia|]. unfold isize_bound, usize_max in *. lia. }
  rewrite Ha in H. cbn [or_die] in H. injection H as <- <-. auto.
Qed.

Lemma payload_grown E P pt lo hi p ps st ps' st' : hi < isize_bound ->
  success_fits any_pos (ps_off ps) hi st p ->
  handle_payload E P pt lo p ps st = Ret ps' st' ->
  same_ends st st' /\ ps_off ps <= ps_off ps' /\
  (forall u, kids_over u st ps -> past_success u st p -> kids_over u st' ps').
Proof.
  intros Hhi Hf H. destruct p as [a|a|z|b q|b q| |]; cbn [handle_payload] in H;
    try (injection H as <- <-; split; [intros x; auto|split; [lia|auto]]).
  - pose proof (token_grown _ _ _ _ Hf _ _ _ _ _ _ H) as (H1 & H2 & H3). split; [exact H1|]. split.
    + apply H2. eapply fits_past; eauto. lia.
    + intros u Hu Hp. apply H3; [exact Hu|]. apply Hp. now left.
  - pose proof (proxy_grown _ _ _ _ Hf _ _ _ _ _ H) as (H1 & H2 & H3). split; [exact H1|]. split.
    + apply H2. eapply fits_past; eauto. lia.
    + intros u Hu Hp. apply H3; [exact Hu|]. apply Hp. now left.
  - destruct Hf as (F1 & F2 & _). apply skip_grown in H as (-> & -> & Hk); [|exact F1|lia].
    split; [intros x; auto|]. split; [lia|]. intros u Hu _ k. rewrite Hk. apply Hu.
Qed.

Section Progress.
  Variables (E : env) (P : parser).
  Hypothesis HE : tame E.
  Hypothesis Hu : returning E.
  Hypothesis Hstops : never_stops E.
  Hypothesis Hfit : fitting (p_src P) any_pos any_str sane_find E.
  Hypothesis Hlen : slen (p_src P) < isize_bound.

  Lemma any_slice a b w : slice (p_src P) a b = Some w -> any_pos a /\ any_pos b.
  Proof. split; exact Logic.I. Qed.
  Lemma any_strs v (rest : list ascii) a b : any_str v -> slice (p_src P) a b = Some (v ++ rest) -> any_pos (a + slen v).
  Proof. intros; exact Logic.I. Qed.
  Lemma any_find (f : finder) w a b me : sane_find f -> slice (p_src P) a b = Some w -> f w = Some (0, me) ->
    me <= slen w /\ any_pos (a + me).
  Proof. intros H _ H1. split; [|exact Logic.I]. now apply (H w 0 me). Qed.

  Notation bnd := (bounded any_str sane_find).
  Notation sbnd := (scopes_bounded any_str sane_find).
  Notation win := (window_ok (p_src P) any_pos).

  Definition eating (rec : recT) : Prop :=
    forall m c s st r st', bnd m -> eats m -> sbnd st -> win c -> rec m c s st = Ret r st' ->
      over (rs (c_off c) + 1) (rs (c_off c)) st' r.

  Definition unstopping (rec : recT) : Prop :=
    forall m c s st st', rec m c s st <> Ret (Ok SStop) st'.

  Section Pass.
    Variables (rec : recT) (pt : addr) (st_s : state) (lo hi : N) (i : pinfo) (c : ctx).
    Hypothesis Hsound : forall h, sound h rec.
    Hypothesis Hkeep : keeps P any_pos any_str sane_find rec.
    Hypothesis Hpt : heap_size st_s = pt.
    Hypothesis Hlo : lo <= hi.
    Hypothesis Hhi : hi <= slen (p_src P).
    Hypothesis Hc : re (c_off c) = hi.
    Hypothesis Hns : unstopping rec.

    Notation inv := (pinv any_pos any_str sane_find pt st_s lo hi).

    Lemma hi_small' : hi < isize_bound.
    Proof. lia. Qed.

    Lemma inner_win m s ps st r st1 : bnd m -> eats m -> eating rec -> inv st ps ->
      rec m (push_tok (with_start c (ps_off ps)) pt) s st = Ret r st1 ->
      over (ps_off ps + 1) (ps_off ps) st1 r.
    Proof.
      intros Hb He Heat Hinv H. apply Heat in H; auto.
      - apply Hinv.
      - destruct Hinv as (_ & _ & (I3 & _) & _). split; [|split; exact Logic.I].
        cbn [c_off push_tok with_start rs re]. rewrite Hc. lia.
    Qed.
    Lemma rec_inv m s ps st r st1 : bnd m -> inv st ps ->
      rec m (push_tok (with_start c (ps_off ps)) pt) s st = Ret r st1 ->
      inv st1 ps /\ result_fits any_pos (ps_off ps) hi st1 r /\
      (forall a, In a (result_tokens r) -> (S pt <= a < heap_size st1)%nat) /\
      (m_consuming m = false -> result_tokens r = []) /\
      (forall u, kids_over u st ps -> kids_over u st1 ps).
    Proof.
      intros Hb Hinv H. pose proof (Hsound (heap_size st) _ _ _ st r st1 (le_n _) (forest_top st) H) as ((_ & Hp) & _).
      pose proof Hinv as ((_ & _ & _ & _ & T5) & _).
      apply (rec_pinv P any_pos any_str sane_find Hlen any_slice rec pt st_s lo hi c Hsound Hkeep Hpt Hlo Hhi Logic.I Hc)
        in H as (H1 & H2 & H3 & H4); auto.
      repeat (split; [assumption|]). intros u Hk k Hin. rewrite Hp by (apply T5 in Hin; lia). auto.
    Qed.

    Lemma finalize_past ps count strict st r st' u : (strict = true -> 0 < count) ->
      inv st ps -> kids_over u st ps -> finalize P i pt ps count strict st = Ret r st' ->
      match r with Ok (SToken a) => a = pt /\ past u st' pt | Ok _ => False | Err _ => True end.
    Proof.
      intros Hs Hinv Hk H.
      assert (Hc' : (if (rs (ps_cr ps) =? usize_max) || (rs (ps_mr ps) =? usize_max) then Ret (Err FFail) st
        else match ps_kids ps with
             | [] => Ret (Err FFail) st
             | _ => Ret (Ok (SToken pt))
                      (modify st pt (fun t => set_mr P (ps_mr ps) (set_cr P (ps_cr ps) (set_kids (ps_kids ps) t))))
             end) = Ret r st' -> match r with Ok (SToken a) => a = pt /\ past u st' pt | Ok _ => False | Err _ => True end).
      { clear H. intros H. destruct (_ || _); [injection H as <- _; exact Logic.I|].
        destruct (ps_kids ps) as [|k ks] eqn:Ek; injection H as <- <-; [exact Logic.I|]. split; [reflexivity|].
        destruct Hinv as ((S1 & S2 & S3 & S4 & S5) & _ & _ & _ & _ & _ & _ & _ & _ & I10). unfold modify.
        match goal with |- past _ ?x _ => set (st1 := x) in * end.
        assert (Hnew : tok st1 pt = set_mr P (ps_mr ps) (set_cr P (ps_cr ps) (set_kids (ps_kids ps) (tok st pt)))).
        { unfold st1. rewrite tok_set_same by (unfold heap_size in *; lia). now rewrite Ek. }
        unfold past. rewrite Hnew. cbn [tk_mr tk_kids set_mr set_cr set_kids]. split.
        - assert (Hin : In k (ps_kids ps)) by (rewrite Ek; now left). apply I10 in Hin as Hx. specialize (Hk k Hin). lia.
        - intros x Hx. unfold st1. rewrite tok_set_other by (apply S5 in Hx; lia). auto. }
      unfold finalize in H. destruct strict; [|now apply Hc'].
      destruct (pi_iter i) as [[a b]|] eqn:Ei; [|now apply Hc'].
      specialize (Hs eq_refl). destruct (N.eqb_spec count 0); [lia|]. rewrite andb_false_r in H. cbn [andb] in H.
      destruct (count <? a); [injection H as <- _; exact Logic.I|now apply Hc'].
    Qed.

    (* a pass over patterns that are not executed first *)
    Lemma run_grown s count t u pats : pi_stop i = false -> u <= t ->
      (forall m, In m pats -> bnd m) -> forall ps st k ps' st',
      inv st ps -> t <= ps_off ps -> kids_over u st ps ->
      run_patterns E P rec i c s pt lo count pats ps st = Ret (k, ps') st' ->
      match k with
      | CRet r => match r with Ok (SToken a) => a = pt /\ past u st' pt | Ok _ => False | Err _ => True end
      | CDone => inv st' ps' /\ t <= ps_off ps' /\ kids_over u st' ps'
      | CAct x => inv st' ps' /\ t <= ps_off ps' /\ kids_over u st' ps' /\ success_fits any_pos (ps_off ps') hi st' x /\
                  (forall a, In a (success_tokens x) -> (S pt <= a < heap_size st')%nat) /\ x <> SStop
      end.
    Proof.
      intros Hstop Htu. induction pats as [|m pats IH]; intros Hb ps st k ps' st' Hinv Ht Hk H; cbn [run_patterns] in H.
      - injection H as <- <- <-. auto.
      - assert (Hn : forall m, In m pats -> bnd m) by (intros; apply Hb; now right).
        destruct (rec m _ s st) as [r st1|p|] eqn:Er; try discriminate.
        assert (Hnost : r <> Ok SStop) by (intros ->; exact (Hns _ _ _ _ _ Er)).
        apply (rec_inv _ _ _ _ _ _ (Hb m (or_introl eq_refl)) Hinv) in Er as (Hinv1 & Hr & Hin & Hcons & Hk1).
        specialize (Hk1 u Hk). clear Hinv Hk st. rewrite Hstop, ?andb_false_r in H.
        destruct r as [[a|a|z|nm p|nm p| |]|e]; cbn [result_tokens success_tokens Spec.result_fits] in Hin, Hr, Hcons;
          try (destruct (m_consuming m); [|discriminate Hcons; reflexivity]).
        + rewrite (fits_standard _ _ _ _ Hr) in H.
          destruct (handle_token P pt a _ _ ps st1) as [ps2 st2|p|] eqn:Ea; try discriminate.
          pose proof (token_grown _ _ _ _ Hr _ _ _ _ _ _ Ea) as (G1 & G2 & G3).
          eapply IH; [exact Hn| | | |exact H].
          * eapply (handle_token_pinv P any_pos any_str sane_find Hlen any_slice rec pt st_s lo hi c Hsound Hkeep Hpt Hlo Hhi Hc);
              [exact Hinv1|exact Hr|apply Hin; now left|exact Ea].
          * apply G2. eapply fits_past; eauto.
          * apply G3; [exact Hk1|]. eapply fits_past; eauto. lia.
        + rewrite (fits_standard _ _ _ _ Hr) in H.
          destruct (handle_extract P pt a _ ps st1) as [ps2 st2|p|] eqn:Ea; try discriminate.
          pose proof (proxy_grown _ _ _ _ Hr _ _ _ _ _ Ea) as (G1 & G2 & G3).
          eapply IH; [exact Hn| | | |exact H].
          * eapply (handle_extract_pinv P any_pos any_str sane_find Hlen any_slice rec pt st_s lo hi c Hsound Hkeep Hpt Hlo Hhi Hc);
              [exact Hinv1|exact Hr|apply Hin; now left|exact Ea].
          * apply G2. eapply fits_past; eauto.
          * apply G3; [exact Hk1|]. eapply fits_past; eauto. lia.
        + rewrite andb_false_r in H. destruct (m_consuming m); [|exact (IH Hn _ _ _ _ _ Hinv1 Ht Hk1 H)].
          destruct Hr as (F1 & F2 & F3).
          destruct (handle_skip E lo z ps st1) as [ps2 st2|p|] eqn:Ea; try discriminate.
          pose proof (skip_grown _ _ _ _ _ _ _ F1 (N.le_lt_trans _ _ _ F2 hi_small') Ea) as (-> & Hoff & Hkid).
          eapply IH; [exact Hn| | | |exact H].
          * eapply (handle_skip_pinv E P any_pos any_str sane_find Hlen any_slice rec pt st_s lo hi c Hsound Hkeep Hpt Hlo Hhi Logic.I Hc); eauto.
          * lia.
          * intros x. rewrite Hkid. apply Hk1.
        + injection H as <- <- <-. repeat (split; [assumption|]). discriminate.
        + injection H as <- <- <-. repeat (split; [assumption|]). discriminate.
        + injection H as <- <- <-. repeat (split; [assumption|]). discriminate.
        + contradiction.
        + destruct (dbg E P _ 10); [|discriminate]. destruct e.
          * destruct (pi_iter i).
            -- destruct (finalize P i pt ps count false st1) as [x st2|p0|] eqn:Ef; try discriminate.
               injection H as <- <- <-. eapply finalize_past in Ef; eauto. discriminate.
            -- injection H as <- <- <-. exact Logic.I.
          * injection H as <- <- <-. exact Logic.I.
    Qed.

    (* a pass comes back when the patterns do *)
    Lemma pass_back s count pats : (forall x, In x pats -> bnd x) ->
      (forall x ps st, In x pats -> inv st ps -> rec x (push_tok (with_start c (ps_off ps)) pt) s st <> OOF) ->
      forall ps st, inv st ps -> run_patterns E P rec i c s pt lo count pats ps st <> OOF.
    Proof.
      intros Hb Hback. apply (run_back E P rec i c s pt lo count pats (fun ps st => inv st ps)); [exact Hback|].
      intros m ps st r st1 Hin Hinv H. apply (rec_inv _ _ _ _ _ _ (Hb m Hin) Hinv) in H as (Hinv1 & Hr & Hres & Hcons & _).
      split; [exact Hinv1|].
      destruct r as [[a|a|z|nm p|nm p| |]|e]; cbn [result_tokens success_tokens Spec.result_fits] in Hres, Hr, Hcons; auto;
        try (destruct (m_consuming m); [|discriminate Hcons; reflexivity]).
      - intros _ ps2 st2 _ H. 
        eapply (handle_token_pinv P any_pos any_str sane_find Hlen any_slice rec pt st_s lo hi c Hsound Hkeep Hpt Hlo Hhi Hc);
          [exact Hinv1|exact Hr|apply Hres; now left|exact H].
      - intros _ ps2 st2 _ H. 
        eapply (handle_extract_pinv P any_pos any_str sane_find Hlen any_slice rec pt st_s lo hi c Hsound Hkeep Hpt Hlo Hhi Hc);
          [exact Hinv1|exact Hr|apply Hres; now left|exact H].
      - intros _ _ ps2 st2 H. destruct Hr as (F1 & F2 & F3).
        eapply (handle_skip_pinv E P any_pos any_str sane_find Hlen any_slice rec pt st_s lo hi c Hsound Hkeep Hpt Hlo Hhi Logic.I Hc); eauto.
    Qed.

    (* a whole pass, the first pattern moves forward *)
    Lemma first_grown s count u m pats : pi_stop i = false -> eating rec -> eats m -> m_consuming m = true ->
      (forall x, In x (m :: pats) -> bnd x) -> forall ps st k ps' st',
      inv st ps -> u <= ps_off ps + 1 -> kids_over u st ps ->
      run_patterns E P rec i c s pt lo count (m :: pats) ps st = Ret (k, ps') st' ->
      match k with
      | CRet r => match r with Ok (SToken a) => a = pt /\ past u st' pt | Ok _ => False | Err _ => True end
      | CDone => inv st' ps' /\ ps_off ps + 1 <= ps_off ps' /\ kids_over u st' ps'
      | CAct x => inv st' ps' /\ kids_over u st' ps' /\ success_fits any_pos (ps_off ps') hi st' x /\
                  (forall a, In a (success_tokens x) -> (S pt <= a < heap_size st')%nat) /\
                  past_success u st' x /\
                  match x with SContinue _ _ => ps_off ps + 1 <= ps_off ps' | SStop => False | _ => True end
      end.
    Proof.
      intros Hstop Heat He Hcons Hb ps st k ps' st' Hinv Ht Hk H. cbn [run_patterns] in H.
      assert (Hn : forall m, In m pats -> bnd m) by (intros; apply Hb; now right).
      destruct (rec m _ s st) as [r st1|p|] eqn:Er; try discriminate.
      pose proof (inner_win _ _ _ _ _ _ (Hb m (or_introl eq_refl)) He Heat Hinv Er) as Hover.
      assert (Hnost : r <> Ok SStop) by (intros ->; exact (Hns _ _ _ _ _ Er)).
      apply (rec_inv _ _ _ _ _ _ (Hb m (or_introl eq_refl)) Hinv) in Er as (Hinv1 & Hr & Hin & _ & Hk1).
      specialize (Hk1 u Hk). clear Hinv Hk st. rewrite Hstop, Hcons, ?andb_false_r in H.
      assert (Hlate : forall ps2 st2, inv st2 ps2 -> ps_off ps + 1 <= ps_off ps2 -> kids_over u st2 ps2 ->
        run_patterns E P rec i c s pt lo count pats ps2 st2 = Ret (k, ps') st' ->
        match k with
        | CRet r => match r with Ok (SToken a) => a = pt /\ past u st' pt | Ok _ => False | Err _ => True end
        | CDone => inv st' ps' /\ ps_off ps + 1 <= ps_off ps' /\ kids_over u st' ps'
        | CAct x => inv st' ps' /\ kids_over u st' ps' /\ success_fits any_pos (ps_off ps') hi st' x /\
                    (forall a, In a (success_tokens x) -> (S pt <= a < heap_size st')%nat) /\
                    past_success u st' x /\
                    match x with SContinue _ _ => ps_off ps + 1 <= ps_off ps' | SStop => False | _ => True end
        end).
      { clear H. intros ps2 st2 Q1 Q2 Q3 H. eapply (run_grown s count (ps_off ps + 1) u) in H; [|exact Hstop|exact Ht|exact Hn|exact Q1|exact Q2|exact Q3]. destruct k as [|x|r0]; auto.
        destruct H as (R1 & R2 & R3 & R4 & R5 & R6). repeat (split; [assumption|]). split.
        - assert (Hf : forall y, success_fits any_pos (ps_off ps') hi st' y ->
            forall a, match y with SToken b | SProxy b => a = b | _ => False end -> past u st' a).
          { intros y Hy a Ha. destruct y; try contradiction; subst; eapply fits_past; eauto; lia. }
          intros a Ha. destruct x as [b|b|z|nm p|nm p| |]; cbn [success_tokens] in Ha; try contradiction.
          + destruct Ha as [<-|[]]. eapply Hf; [exact R4|reflexivity].
          + destruct Ha as [<-|[]]. eapply Hf; [exact R4|reflexivity].
          + destruct p; cbn [success_tokens Spec.success_fits] in Ha, R4; try contradiction;
              (destruct Ha as [<-|[]]; eapply fits_past; [exact R4|lia]).
          + destruct p; cbn [success_tokens Spec.success_fits] in Ha, R4; try contradiction;
              (destruct Ha as [<-|[]]; eapply fits_past; [exact R4|lia]).
        - destruct x; auto. }
      destruct r as [[a|a|z|nm p|nm p| |]|e]; cbn [result_tokens success_tokens Spec.result_fits over] in Hin, Hr, Hover.
      - rewrite (fits_standard _ _ _ _ Hr) in H.
        destruct (handle_token P pt a _ _ ps st1) as [ps2 st2|p|] eqn:Ea; try discriminate.
        pose proof (token_grown _ _ _ _ Hr _ _ _ _ _ _ Ea) as (G1 & G2 & G3).
        specialize (Hover a (or_introl eq_refl)).
        eapply Hlate; [| | |exact H].
        + eapply (handle_token_pinv P any_pos any_str sane_find Hlen any_slice rec pt st_s lo hi c Hsound Hkeep Hpt Hlo Hhi Hc);
            [exact Hinv1|exact Hr|apply Hin; now left|exact Ea].
        + now apply G2.
        + apply G3; [exact Hk1|]. destruct Hover as [O1 O2]. split; [lia|]. intros x Hx. specialize (O2 x Hx). lia.
      - rewrite (fits_standard _ _ _ _ Hr) in H.
        destruct (handle_extract P pt a _ ps st1) as [ps2 st2|p|] eqn:Ea; try discriminate.
        pose proof (proxy_grown _ _ _ _ Hr _ _ _ _ _ Ea) as (G1 & G2 & G3).
        specialize (Hover a (or_introl eq_refl)).
        eapply Hlate; [| | |exact H].
        + eapply (handle_extract_pinv P any_pos any_str sane_find Hlen any_slice rec pt st_s lo hi c Hsound Hkeep Hpt Hlo Hhi Hc);
            [exact Hinv1|exact Hr|apply Hin; now left|exact Ea].
        + now apply G2.
        + apply G3; [exact Hk1|]. destruct Hover as [O1 O2]. split; [lia|]. intros x Hx. specialize (O2 x Hx). lia.
      - rewrite andb_false_r in H. destruct Hr as (F1 & F2 & F3).
        destruct (handle_skip E lo z ps st1) as [ps2 st2|p|] eqn:Ea; try discriminate.
        pose proof (skip_grown _ _ _ _ _ _ _ F1 (N.le_lt_trans _ _ _ F2 hi_small') Ea) as (-> & Hoff & Hkid).
        eapply Hlate; [| | |exact H].
        + eapply (handle_skip_pinv E P any_pos any_str sane_find Hlen any_slice rec pt st_s lo hi c Hsound Hkeep Hpt Hlo Hhi Logic.I Hc); eauto.
        + lia.
        + intros x. rewrite Hkid. apply Hk1.
      - injection H as <- <- <-. repeat (split; [assumption|]). split; [|exact Logic.I].
        intros a Ha. destruct (Hover a Ha) as [O1 O2]. split; [lia|]. intros x Hx. specialize (O2 x Hx). lia.
      - contradiction.
      - injection H as <- <- <-. repeat (split; [assumption|]). split; [|exact Logic.I]. intros a [].
      - contradiction.
      - destruct (dbg E P _ 10); [|discriminate]. destruct e.
        + destruct (pi_iter i).
          * destruct (finalize P i pt ps count false st1) as [x st2|p0|] eqn:Ef; try discriminate.
            injection H as <- <- <-. eapply finalize_past in Ef; eauto. discriminate.
          * injection H as <- <- <-. exact Logic.I.
        + injection H as <- <- <-. exact Logic.I.
    Qed.

    (* what a Program hands out *)
    Definition ended (u : N) (st : state) (r : mres) : Prop :=
      match r with
      | Ok (SToken a) | Ok (SBreak _ (SToken a)) => past u st a
      | Ok _ => False
      | Err _ => True
      end.
    Lemma finalized u st r : match r with Ok (SToken a) => a = pt /\ past u st pt | Ok _ => False | Err _ => True end ->
      ended u st r.
    Proof. destruct r as [[a|a|z|nm p|nm p| |]|e]; cbn [ended]; try contradiction; auto. now intros [-> H]. Qed.
    Lemma ended_over u st r : ended u st r -> over u lo st r.
    Proof.
      destruct r as [[a|a|z|nm p|nm p| |]|e]; cbn [ended over]; try contradiction; auto.
      - intros H x [<-|[]]. exact H.
      - destruct p; try contradiction. intros H x [<-|[]]. exact H.
    Qed.

    Lemma act_ended s count u pats f left0 ps1 st1 x r st' : pi_stop i = false -> x <> SStop ->
      inv st1 ps1 -> kids_over u st1 ps1 -> success_fits any_pos (ps_off ps1) hi st1 x ->
      (forall a, In a (success_tokens x) -> (S pt <= a < heap_size st1)%nat) ->
      past_success u st1 x ->
      (forall b q, x = SContinue b q -> is_target i b = true -> forall ps2 st2, inv st2 ps2 -> kids_over u st2 ps2 ->
         ps_off ps1 <= ps_off ps2 ->
         iterate f E P rec pats i c s pt lo (left0 - 1) (count + 1) ps2 st2 = Ret r st' -> ended u st' r) ->
      match x with
      | SBreak n p =>
          do ps, st <- handle_payload E P pt lo p ps1 st1;
          do r, st <- finalize P i pt ps count false st;
          if is_target i n then Ret r st
          else match r with
               | Ok x => Ret (Ok (SBreak n x)) st
               | Err e => Ret (Err e) st
               end
      | SContinue n p =>
          do ps, st <- handle_payload E P pt lo p ps1 st1;
          if is_target i n then iterate f E P rec pats i c s pt lo (left0 - 1) (count + 1) ps st
          else finalize P i pt ps count false st
      | SStop => finalize P i pt ps1 count true st1
      | _ => Pan PUnreachable
      end = Ret r st' -> ended u st' r.
    Proof.
      intros Hstop Hx0 Hinv Hk Hx Hin Hp Hagain H.
      destruct x as [a|a|z|b q|b q| |]; try discriminate; cbn [success_tokens Spec.success_fits] in Hin, Hx.
      - assert (Hq : success_fits any_pos (ps_off ps1) hi st1 q) by (destruct q; auto; contradiction).
        destruct (handle_payload E P pt lo q ps1 st1) as [ps2 st2|p|] eqn:Eh; try discriminate.
        pose proof (payload_grown _ _ _ _ _ _ _ _ _ _ hi_small' Hq Eh) as (G1 & G2 & G3).
        apply (handle_payload_pinv E P any_pos any_str sane_find Hlen any_slice rec pt st_s lo hi c Hsound Hkeep Hpt Hlo Hhi Logic.I Hc) in Eh; auto.
        destruct (finalize P i pt ps2 count false st2) as [y st3|p|] eqn:Ef; try discriminate.
        apply (finalize_past _ _ _ _ _ _ u) in Ef; [|discriminate|exact Eh|apply G3; auto].
        destruct (is_target i b); [injection H as <- <-; now apply finalized|].
        destruct y as [y|e]; injection H as <- <-; [|exact Logic.I]. destruct y; try contradiction. destruct Ef as [-> Ef]. exact Ef.
      - assert (Hq : success_fits any_pos (ps_off ps1) hi st1 q) by (destruct q; auto; contradiction).
        destruct (handle_payload E P pt lo q ps1 st1) as [ps2 st2|p|] eqn:Eh; try discriminate.
        pose proof (payload_grown _ _ _ _ _ _ _ _ _ _ hi_small' Hq Eh) as (G1 & G2 & G3).
        apply (handle_payload_pinv E P any_pos any_str sane_find Hlen any_slice rec pt st_s lo hi c Hsound Hkeep Hpt Hlo Hhi Logic.I Hc) in Eh; auto.
        destruct (is_target i b) eqn:Et; [eapply Hagain; eauto|].
        apply finalized. eapply finalize_past; [|exact Eh|apply G3; auto|exact H]. discriminate.
      - contradiction.
    Qed.

    Lemma iterate_grown s u pats : pi_stop i = false -> (forall m, In m pats -> bnd m) ->
      forall f left0 count ps st r st', (left0 = 0 -> 0 < count) -> inv st ps -> u <= ps_off ps -> kids_over u st ps ->
      iterate f E P rec pats i c s pt lo left0 count ps st = Ret r st' -> ended u st' r.
    Proof.
      intros Hstop Hb. induction f as [|f IH]; intros left0 count ps st r st' Hcount Hinv Hoff Hk H; cbn [iterate] in H.
      - destruct (N.eqb_spec left0 0); [|discriminate]. apply finalized. eapply finalize_past; eauto.
      - destruct (N.eqb_spec left0 0); [apply finalized; eapply finalize_past; eauto|].
        destruct (run_patterns _ _ _ _ _ _ _ _ _ _ _ _) as [[k ps1] st1|p|] eqn:Er; try discriminate.
        apply (run_grown s count u u) in Er; auto; [|lia]. destruct k as [|x|r0].
        + destruct Er as (R1 & R2 & R3). eapply IH; [|exact R1|exact R2|exact R3|exact H]. lia.
        + destruct Er as (R1 & R2 & R3 & R4 & R5 & R6). rewrite Hstop in H.
          eapply (act_ended s count u pats f left0 ps1 st1 x); eauto.
          * intros a Ha. destruct x as [b|b|z|nm p|nm p| |]; cbn [success_tokens] in Ha; try contradiction.
            -- destruct Ha as [<-|[]]. eapply fits_past; [exact R4|lia].
            -- destruct Ha as [<-|[]]. eapply fits_past; [exact R4|lia].
            -- destruct p; cbn [success_tokens Spec.success_fits] in Ha, R4; try contradiction;
                 (destruct Ha as [<-|[]]; eapply fits_past; [exact R4|lia]).
            -- destruct p; cbn [success_tokens Spec.success_fits] in Ha, R4; try contradiction;
                 (destruct Ha as [<-|[]]; eapply fits_past; [exact R4|lia]).
          * intros b q _ _ ps2 st2 Q1 Q2 Q3 Q4. eapply IH; [|exact Q1| |exact Q2|exact Q4]; lia.
        + injection H as <- <-. now apply finalized.
    Qed.

    Lemma iterate_first s m pats f left0 count ps st r st' : pi_stop i = false -> left0 <> 0 -> eating rec -> eats m ->
      m_consuming m = true -> (forall x, In x (m :: pats) -> bnd x) ->
      inv st ps -> ps_off ps = lo -> ps_kids ps = [] ->
      iterate f E P rec (m :: pats) i c s pt lo left0 count ps st = Ret r st' -> ended (lo + 1) st' r.
    Proof.
      intros Hstop Honce Heat He Hcons Hb Hinv Hoff Hkid H.
      assert (Hk : kids_over (lo + 1) st ps) by (intros k; rewrite Hkid; intros []).
      destruct f as [|f]; cbn [iterate] in H.
      - destruct (N.eqb_spec left0 0); [contradiction|discriminate].
      - destruct (N.eqb_spec left0 0); [contradiction|].
        destruct (run_patterns _ _ _ _ _ _ _ _ _ _ _ _) as [[k ps1] st1|p|] eqn:Er; try discriminate.
        apply (first_grown s count (lo + 1)) in Er; auto; [|lia]. destruct k as [|x|r0].
        + destruct Er as (R1 & R2 & R3). eapply iterate_grown in H; [exact H|exact Hstop|exact Hb|lia|exact R1|lia|exact R3].
        + destruct Er as (R1 & R2 & R3 & R4 & R5 & R6). rewrite Hstop in H.
          eapply (act_ended s count (lo + 1) (m :: pats) f left0 ps1 st1 x); eauto.
          * intros ->. exact R6.
          * intros b q -> _ ps2 st2 Q1 Q2 Q3 Q4. eapply iterate_grown; [exact Hstop|exact Hb| |exact Q1| |exact Q2|exact Q4]; lia.
        + injection H as <- <-. now apply finalized.
    Qed.

    (* a Switch keeps its cursor and collects nothing *)
    Lemma switch_pass s count pats : pi_stop i = true -> eating rec ->
      (forall m, In m pats -> bnd m /\ eats m) -> forall ps st k ps' st',
      inv st ps -> ps_off ps = lo ->
      run_patterns E P rec i c s pt lo count pats ps st = Ret (k, ps') st' ->
      ps' = ps /\ 
      match k with
      | CDone => inv st' ps
      | CAct (SContinue _ _) | CAct SStop => False
      | CAct x => inv st' ps /\ past_success (lo + 1) st' x
      | CRet r => over (lo + 1) lo st' r
      end.
    Proof.
      intros Hstop Heat. induction pats as [|m pats IH]; intros Hb ps st k ps' st' Hinv Hoff H; cbn [run_patterns] in H.
      - injection H as <- <- <-. auto.
      - assert (Hn : forall m, In m pats -> bnd m /\ eats m) by (intros; apply Hb; now right).
        destruct (Hb m (or_introl eq_refl)) as [Hbm Hem].
        destruct (rec m _ s st) as [r st1|p|] eqn:Er; try discriminate.
        pose proof (inner_win _ _ _ _ _ _ Hbm Hem Heat Hinv Er) as Hover. rewrite Hoff in Hover.
        assert (Hnost : r <> Ok SStop) by (intros ->; exact (Hns _ _ _ _ _ Er)).
        apply (rec_inv _ _ _ _ _ _ Hbm Hinv) in Er as (Hinv1 & Hr & Hin & _ & _).
        rewrite Hstop in H.
        destruct r as [[a|a|z|nm p|nm p| |]|e]; cbn [result_tokens success_tokens Spec.result_fits over] in Hin, Hr, Hover.
        + rewrite (fits_standard _ _ _ _ Hr) in H. injection H as <- <- <-. auto.
        + rewrite (fits_standard _ _ _ _ Hr) in H. injection H as <- <- <-. auto.
        + destruct (Z.ltb_spec 0 z) as [Hz|Hz]; [|lia]. cbn [andb] in H. injection H as <- <- <-. auto.
        + injection H as <- <- <-. auto.
        + contradiction.
        + injection H as <- <- <-. auto.
        + contradiction.
        + destruct (dbg E P _ 10); [|discriminate]. destruct e; [exact (IH Hn _ _ _ _ _ Hinv1 Hoff H)|].
          injection H as <- <- <-. split; [reflexivity|exact Logic.I].
    Qed.
    Lemma iterate_switch s pats : pi_stop i = true -> eating rec ->
      (forall m, In m pats -> bnd m /\ eats m) -> forall f left0 count ps st r st', (left0 = 0 -> 0 < count) ->
      inv st ps -> ps_off ps = lo -> ps_kids ps = [] ->
      iterate f E P rec pats i c s pt lo left0 count ps st = Ret r st' -> over (lo + 1) lo st' r.
    Proof.
      intros Hstop Heat Hb. induction f as [|f IH]; intros left0 count ps st r st' Hcount Hinv Hoff Hkid H;
        assert (Hk : kids_over (lo + 1) st ps) by (intros k; rewrite Hkid; intros []); cbn [iterate] in H.
      - destruct (N.eqb_spec left0 0); [|discriminate]. apply ended_over, finalized. eapply finalize_past; eauto.
      - destruct (N.eqb_spec left0 0); [apply ended_over, finalized; eapply finalize_past; eauto|].
        destruct (run_patterns _ _ _ _ _ _ _ _ _ _ _ _) as [[k ps1] st1|p|] eqn:Er; try discriminate.
        apply (switch_pass s count) in Er as [-> Er]; auto. 
        destruct k as [|x|r0].
        + eapply IH; [|exact Er|exact Hoff|exact Hkid|exact H]. lia.
        + rewrite Hstop in H. destruct x as [a|a|z|nm p|nm p| |]; try discriminate.
          * injection H as <- <-. exact (proj2 Er).
          * contradiction.
          * contradiction.
        + injection H as <- <-. exact Er.
    Qed.

    (* every pass of a loop moves the cursor *)
    Lemma iterate_moves s m pats : pi_stop i = false -> eating rec -> eats m -> m_consuming m = true ->
      (forall x, In x (m :: pats) -> bnd x) ->
      (forall x ps st, In x (m :: pats) -> inv st ps -> rec x (push_tok (with_start c (ps_off ps)) pt) s st <> OOF) ->
      forall f left0 count ps st, inv st ps -> (N.to_nat (hi - ps_off ps) < f)%nat ->
      iterate f E P rec (m :: pats) i c s pt lo left0 count ps st <> OOF.
    Proof.
      intros Hstop Heat He Hcons Hb Hback. induction f as [|f IH]; intros left0 count ps st Hinv Hf; [lia|]. cbn [iterate].
      destruct (left0 =? 0); [apply finalize_back|].
      pose proof (pass_back s count (m :: pats) Hb Hback ps st Hinv) as Hr.
      destruct (run_patterns _ _ _ _ _ _ _ _ _ _ _ _) as [[k ps1] st1|p|] eqn:Er; [|discriminate|congruence].
      apply (first_grown s count 0) in Er; auto; [|lia|intros k0 _; lia]. 
      assert (Hle : ps_off ps <= hi) by (destruct Hinv as (_ & _ & (I3 & _) & _); lia).
      destruct k as [|x|r0]; [|rewrite Hstop|discriminate].
      - destruct Er as (R1 & R2 & R3). apply IH; [exact R1|].
        destruct R1 as (_ & _ & (I3 & _) & _). lia.
      - destruct Er as (R1 & R2 & R3 & R4 & R5 & R6). 
        destruct x as [a|a|z|b q|b q| |]; try discriminate.
        + pose proof (payload_back E P pt lo q ps1 st1).
          destruct (handle_payload E P pt lo q ps1 st1) as [ps2 st2|p|]; [|discriminate|congruence].
          pose proof (finalize_back P i pt ps2 count false st2).
          destruct (finalize P i pt ps2 count false st2) as [r st3|p|]; [|discriminate|congruence].
          destruct (is_target i b); [discriminate|]. destruct r; discriminate.
        + pose proof (payload_back E P pt lo q ps1 st1).
          destruct (handle_payload E P pt lo q ps1 st1) as [ps2 st2|p|] eqn:Eh; [|discriminate|congruence].
          destruct (is_target i b); [|apply finalize_back].
          cbn [Spec.success_fits success_tokens] in R3, R4.
          assert (Hq : success_fits any_pos (ps_off ps1) hi st1 q) by (destruct q; auto; contradiction).
          pose proof (payload_grown _ _ _ _ _ _ _ _ _ _ hi_small' Hq Eh) as (G1 & G2 & G3).
          apply (handle_payload_pinv E P any_pos any_str sane_find Hlen any_slice rec pt st_s lo hi c Hsound Hkeep Hpt Hlo Hhi Logic.I Hc) in Eh; auto.
          apply IH; [exact Eh|]. destruct Eh as (_ & _ & (I3 & _) & _). lia.
        + apply finalize_back.
    Qed.
  End Pass.

  Lemma eats_consuming m : eats m -> m_consuming m = true.
  Proof. destruct 1; reflexivity. Qed.

  Lemma start_inv c i st : win c -> sbnd st ->
    let st1 := alloc st (std_token P (pi_name i) blank_range) in
    pinv any_pos any_str sane_find (next_addr st) st (rs (c_off c)) (re (c_off c)) st1 (init_pst (rs (c_off c))).
  Proof.
    intros (Hw & _) Hs. split; [|split; [exact Hs|]].
    - split; [rewrite heap_size_alloc; unfold heap_size, next_addr; lia|]. split.
      + intros a Ha. rewrite heap_size_alloc in Ha. unfold heap_size, next_addr in *. lia.
      + split; [intros a Ha; apply tok_alloc_old; unfold heap_size, next_addr in *; lia|].
        split; [now rewrite tok_alloc_new|intros ? []].
    - cbn [ps_off ps_kids ps_cr ps_mr init_pst].
      split; [split; [split; [apply N.le_refl|apply Hw]|exact Logic.I]|].
      split; [intros k []|]. split; [now left|]. split; [now left|]. split; [congruence|].
      split; [now rewrite tok_alloc_new|]. split; [constructor|intros k []].
  Qed.

  Lemma iterates_once i : at_least_once i -> iterations i <> 0.
  Proof.
    intros H. unfold iterations. destruct (pi_iter i) as [[a b]|] eqn:Ei; [|discriminate]. specialize (H a b Ei). lia.
  Qed.

  Lemma over_same t lo st st' r : same_ends st st' -> over t lo st r -> over t lo st' r.
  Proof.
    intros Hs. assert (Hp : forall x, past_success t st x -> past_success t st' x)
      by (intros x Hx a Ha; eapply same_past; eauto).
    destruct r as [[a|a|z|nm p|nm p| |]|e]; cbn [over]; auto.
  Qed.
  Lemma same_heap st st' : st_heap st' = st_heap st -> same_ends st st'.
  Proof. intros H x. unfold tok. now rewrite H. Qed.

  Lemma step_eats rec fuel : (forall h, sound h rec) -> keeps P any_pos any_str sane_find rec -> unstopping rec -> eating rec ->
    eating (step fuel E P rec).
  Proof.
    intros Hsound Hkeep Hns Heat m c s st0 r st' Hm He Hs0 Hc H. unfold step in H.
    pose proof (before_bounded _ _ m s st0 Hm Hs0) as Hs.
    set (st := before_exec m s st0) in *. clearbody st. clear Hs0 st0.
    set (lo := rs (c_off c)) in *.
    assert (Hin : forall m1 n s1 st2 r0 st1, bnd m1 -> eats m1 -> sbnd st2 -> rec m1 (clone_with_name c n) s1 st2 = Ret r0 st1 ->
       over (lo + 1) lo st1 r0).
    { intros m1 n s1 st2 r0 st1 Hb1 He1 Hs2 E1. now apply Heat in E1. }
    assert (Hfits : forall m1 n s1 st2 r0 st1, bnd m1 -> sbnd st2 -> rec m1 (clone_with_name c n) s1 st2 = Ret r0 st1 ->
       result_fits any_pos lo (re (c_off c)) st1 r0).
    { intros m1 n s1 st2 r0 st1 Hb1 Hs2 E1. apply Hkeep in E1 as (R1 & _); auto. }
    destruct He as [x n b|f n b Hf|x y z n b|msg|n|m ps i Hstop Honce He|ps i Hstop Honce He|m He|m n b He|m n b He|m He|m d He
                   |m n b He|os m He|m l He|m n He]; cbn [m_name] in H.
    - (* Equals *)
      destruct (fetch_value st s x) as [[v|m1]|]; [| |discriminate].
      + destruct (matches_str P _ v) as [r0|] eqn:E1; [|discriminate].
        destruct (dbg E P _ 10); [|discriminate].
        destruct r0 as [r0|]; injection H as <- <-; [|exact Logic.I].
        unfold matches_str in E1. destruct (N.eqb_spec (slen v) 0) as [|Hv]; [discriminate|].
        destruct (src_slice P _ _) as [w|]; [|discriminate]. destruct (starts_with v w); [|discriminate]. injection E1 as <-.
        intros aa [<-|[]]. unfold past. rewrite tok_alloc_new. cbn [tk_mr tk_kids std_token clone_with_len rs re c_off clone_with_name].
        fold lo. split; [lia|intros k []].
      + injection H as <- <-. exact Logic.I.
    - (* Matches *)
      destruct (matches_regexp P _ f) as [[r0|]|] eqn:E1; [| |discriminate].
      + unfold matches_regexp in E1. destruct (src_slice P _ _) as [w|]; [|discriminate].
        destruct (f w) as [[ms me]|] eqn:Ew; [|discriminate]. cbn [c_off clone_with_name] in E1. fold lo in E1.
        destruct (N.eqb_spec (ms + lo) lo) as [Hz|Hz]; [|discriminate]. cbn [negb] in E1. injection E1 as <-.
        assert (ms = 0) by lia. subst ms. apply Hf in Ew. cbn [rs re] in H.
        destruct (N.eqb_spec (0 + lo) (me + lo)); [lia|]. injection H as <- <-.
        intros aa [<-|[]]. unfold past. rewrite tok_alloc_new. cbn [tk_mr tk_kids std_token rs re].
        split; [lia|intros k []].
      + destruct (dbg E P _ 10); [|discriminate]. injection H as <- <-. exact Logic.I.
    - (* Sequence *)
      unfold exec_sequence in H. destruct (fetch_value st s x) as [[sp|]|]; [|injection H as <- <-; exact Logic.I|discriminate].
      destruct (N.eqb_spec (slen sp) 0) as [|Hsp]; [discriminate|].
      destruct (fetch_value st s y) as [[ep|]|]; [|injection H as <- <-; exact Logic.I|discriminate].
      destruct (slen ep =? 0); [discriminate|].
      destruct (fetch_value st s z) as [[esc|]|]; [|injection H as <- <-; exact Logic.I|discriminate].
      destruct (matches_str _ _ _) as [[r0|]|] eqn:Em; [| |discriminate].
      + destruct (seq_scan _ _ _ _ _ _ _ _) as [[j v| |]|] eqn:Es; try discriminate.
        * destruct (dbg E P _ _); [|discriminate]. injection H as <- <-.
          apply (seq_scan_fits P any_pos any_str sane_find Hlen any_slice any_strs any_find) in Es as (B1 & _).
          unfold matches_str in Em. destruct (slen sp =? 0); [discriminate|].
          destruct (src_slice _ _ _); [|discriminate]. destruct (starts_with _ _); [|discriminate]. injection Em as <-.
          cbn [clone_with_len rs re c_off clone_with_name] in *. fold lo in B1 |- *.
          intros aa [<-|[]]. unfold past. rewrite tok_alloc_new. cbn [tk_mr tk_kids std_token2 set_attr rs re].
          split; [lia|intros k []].
        * destruct (dbg E P _ 10); [|discriminate]. injection H as <- <-. exact Logic.I.
      + destruct (dbg E P _ 10); [|discriminate]. injection H as <- <-. exact Logic.I.
    - destruct (error_string E P msg _); [|discriminate]. injection H as <- <-. exact Logic.I.
    - injection H as <- <-. intros a [].
    - (* Program *)
      unfold exec_program in H. inversion Hm as [ps0 i0 Hps| | | | | | | | | | | | | | | | | | | | | | ]; subst.
      apply ended_over.
      eapply (iterate_first rec (next_addr st) st lo (re (c_off c)) i (clone_with_name c (pi_name i)) Hsound Hkeep eq_refl);
        [apply Hc|apply Hc|reflexivity|exact Hns|exact Hstop| |exact Heat|exact He|now apply eats_consuming|exact Hps| | | |exact H];
        [now apply iterates_once|exact (start_inv c i st Hc Hs)|reflexivity|reflexivity].
    - (* Switch *)
      unfold exec_program in H. inversion Hm as [ps0 i0 Hps| | | | | | | | | | | | | | | | | | | | | | ]; subst.
      eapply (iterate_switch rec (next_addr st) st lo (re (c_off c)) i (clone_with_name c (pi_name i)) Hsound Hkeep eq_refl);
        [apply Hc|apply Hc|reflexivity|exact Hns|exact Hstop|exact Heat| | | | | |exact H];
        [auto|intros Hx; now apply iterates_once in Hx|exact (start_inv c i st Hc Hs)|reflexivity|reflexivity].
    - (* Discard *)
      assert (Hb1 : bnd m) by (inversion Hm; assumption).
      destruct (rec m _ s st) as [r0 st1|p|] eqn:E1; try discriminate.
      pose proof (Hfits _ _ _ _ _ _ Hb1 Hs E1) as Hr. apply Hin in E1; auto. fold lo in H.
      assert (Hsk : forall a x st2, tree_fits any_pos lo (re (c_off c)) st1 a -> past (lo + 1) st1 a ->
        skip_token E P lo a st1 = Ret x st2 -> exists z, x = SSkip z /\ lo + 1 <= lo + Z.to_N z).
      { intros a x st2 Ht [Hp _] H2. unfold skip_token in H2.
        rewrite (error_tokens_spec _ _ _ (tree_no_errors _ _ _ _ _ Ht)) in H2.
        pose proof (tree_root _ _ _ _ _ Ht) as ((T1 & T2 & T3 & T4 & _) & _). destruct Hc as (Hw & _).
        rewrite isize_sub_small in H2 by lia. cbn [or_die] in H2. injection H2 as <- _. eexists. split; [reflexivity|]. lia. }
      destruct r0 as [[a|a|z|nm p|nm p| |]|e]; cbn [discard_result] in H; try (injection H as <- <-; exact E1).
      + destruct (skip_token E P lo a st1) as [x st2|p|] eqn:Ex; try discriminate. injection H as <- <-.
        apply Hsk in Ex as (z & -> & Hz); [exact Hz|exact Hr|apply E1; now left].
      + destruct (skip_token E P lo a st1) as [x st2|p|] eqn:Ex; try discriminate. injection H as <- <-.
        apply Hsk in Ex as (z & -> & Hz); [exact Hz|exact Hr|apply E1; now left].
      + destruct (discard_payload E P lo p st1) as [x st2|q|] eqn:Ex; try discriminate. injection H as <- <-.
        destruct p as [a|a|z|nm2 p|nm2 p| |]; cbn [discard_payload] in Ex; try discriminate;
          try (injection Ex as <- <-; exact E1).
        * apply Hsk in Ex as (z & -> & Hz); [intros x []|exact Hr|apply E1; now left].
        * apply Hsk in Ex as (z & -> & Hz); [intros x []|exact Hr|apply E1; now left].
      + contradiction.
    - (* Store *)
      assert (Hb1 : bnd m) by (inversion Hm; assumption).
      destruct (rec m _ s st) as [r0 st1|p|] eqn:E1; try discriminate. apply Hin in E1; auto.
      destruct r0 as [[a|a|z|nm p|nm p| |]|e]; injection H as <- <-; try exact E1.
    - (* ProxyChildren *)
      assert (Hb1 : bnd m) by (inversion Hm; assumption).
      destruct (rec m _ s st) as [r0 st1|p|] eqn:E1; try discriminate. apply Hin in E1; auto.
      destruct r0 as [[a|a|z|nm p|nm p| |]|e]; try (injection H as <- <-; exact E1).
      + destruct p; injection H as <- <-; exact E1.
      + contradiction.
    - (* ExpandRange *)
      assert (Hb1 : bnd m) by (inversion Hm; assumption).
      destruct (rec m _ s st) as [r0 st1|p|] eqn:E1; try discriminate.
      pose proof (Hsound (heap_size st) _ _ _ st r0 st1 (le_n _) (forest_top st) E1) as (P1 & P2 & P3).
      apply Hin in E1; auto.
      destruct r0 as [[a|a|z|nm p|nm p| |]|e]; try (injection H as <- <-; exact E1); injection H as <- <-.
      + destruct (E1 a (or_introl eq_refl)) as [Q1 Q2]. intros x [<-|[]]. unfold past. rewrite tok_alloc_new.
        cbn [tk_mr tk_kids set_kids std_token2]. split; [exact Q1|]. intros k [<-|[]].
        rewrite tok_alloc_old; [exact Q1|]. apply P3. now left.
      + intros x [<-|[]]. eapply same_past; [|apply E1; now left]. now apply same_set.
    - (* Debug *)
      assert (Hb1 : bnd m) by (inversion Hm; assumption).
      destruct (debug_range E P _ 10); [|discriminate]. apply Heat in H; auto.
    - (* Ref *)
      cbn [fetch_value] in H. eapply Hin; [|exact He|exact Hs|exact H].
      inversion Hm as [| | | | | | | | | | | | | | | |f0 n0 b0 Hf| | | | | | ]; subst. now apply Hf.
    - (* SetScope *)
      assert (Hb1 : bnd m) by (inversion Hm; assumption). destruct os as [s1|].
      + eapply Hin; eauto.
      + destruct (rec m _ (c_scope c) (sc_push st (c_scope c))) as [r0 st1|p|] eqn:E1; try discriminate.
        injection H as <- <-. apply Hin in E1; [|exact Hb1|exact He|now apply scopes_push].
        eapply over_same; [|exact E1]. now apply same_heap.
    - (* Map *)
      assert (Hb1 : bnd m) by (inversion Hm; assumption).
      destruct (rec m _ s st) as [r0 st1|p|] eqn:E1; try discriminate. apply Hin in E1; auto.
      assert (Ha : forall l a, same_ends st1 (modify st1 a (add_missing_attrs l))).
      { intros l0 a. apply same_set; [|apply add_missing_kids].
        clear; generalize (tok st1 a); induction l0 as [|kv l0 IH]; intros t; cbn [add_missing_attrs fold_left] in *;
          try reflexivity; fold (add_missing_attrs l0); unfold add_missing_attrs in IH; rewrite IH; destruct (get_attr (fst kv) t); reflexivity. }
      destruct r0 as [[a|a|z|nm p|nm p| |]|e]; try (injection H as <- <-; exact E1); cbn [map_ok] in H.
      + injection H as <- <-. intros x [<-|[]]. eapply same_past; [apply Ha|]. apply E1. now left.
      + injection H as <- <-. intros x [<-|[]]. eapply same_past; [apply Ha|]. apply E1. now left.
    - (* Map *)
      assert (Hb1 : bnd m) by (inversion Hm; assumption).
      destruct (rec m _ s st) as [r0 st1|p|] eqn:E1; try discriminate. apply Hin in E1; auto.
      assert (Ha : forall a, same_ends st1 (modify st1 a (set_tname n))) by (intros a; now apply same_set).
      destruct r0 as [[a|a|z|nm p|nm p| |]|e]; try (injection H as <- <-; exact E1); cbn [map_ok] in H.
      + injection H as <- <-. intros x [<-|[]]. eapply same_past; [apply Ha|]. apply E1. now left.
      + injection H as <- <-. intros x [<-|[]]. eapply same_past; [apply Ha|]. apply E1. now left.
  Qed.

  Lemma finalize_unstop i pt ps count strict st st' : finalize P i pt ps count strict st <> Ret (Ok SStop) st'.
  Proof.
    unfold finalize. assert (Hc : (if (rs (ps_cr ps) =? usize_max) || (rs (ps_mr ps) =? usize_max) then Ret (Err FFail) st
      else match ps_kids ps with
           | [] => Ret (Err FFail) st
           | _ => Ret (Ok (SToken pt))
                    (modify st pt (fun t => set_mr P (ps_mr ps) (set_cr P (ps_cr ps) (set_kids (ps_kids ps) t))))
           end) <> Ret (Ok SStop) st').
    { destruct (_ || _); [discriminate|]. destruct (ps_kids ps); discriminate. }
    destruct strict; [|exact Hc]. destruct (pi_iter i) as [[a b]|]; [|exact Hc].
    destruct (_ && _ && _); [discriminate|]. destruct (count <? a); [discriminate|exact Hc].
  Qed.
  Lemma run_unstop rec i c s pt lo count pats : forall ps st k ps' st',
    run_patterns E P rec i c s pt lo count pats ps st = Ret (k, ps') st' -> k <> CRet (Ok SStop).
  Proof.
    induction pats as [|m pats IH]; intros ps st k ps' st' H; cbn [run_patterns] in H; [injection H as <- _ _; discriminate|].
    destruct (rec m _ s st) as [r st1|pn|]; try discriminate.
    destruct r as [[a|a|z|nm p|nm p| |]|e].
    - destruct (should_discard _); [eauto|]. destruct (pi_stop i); [injection H as <- _ _; discriminate|].
      destruct (handle_token _ _ _ _ _ _ _) as [ps2 st2|pn|]; try discriminate. eauto.
    - destruct (should_discard _); [eauto|]. destruct (pi_stop i); [injection H as <- _ _; discriminate|].
      destruct (handle_extract _ _ _ _ _ _) as [ps2 st2|pn|]; try discriminate. eauto.
    - destruct (_ && _); [injection H as <- _ _; discriminate|]. destruct (m_consuming m); [|eauto].
      destruct (handle_skip _ _ _ _ _) as [ps2 st2|pn|]; try discriminate. eauto.
    - injection H as <- _ _; discriminate.
    - injection H as <- _ _; discriminate.
    - injection H as <- _ _; discriminate.
    - injection H as <- _ _; discriminate.
    - destruct (dbg E P _ 10); [|discriminate]. destruct e; [|injection H as <- _ _; discriminate].
      destruct (pi_stop i); [eauto|]. destruct (pi_iter i); [|injection H as <- _ _; discriminate].
      destruct (finalize P i pt ps count false st1) as [x st2|pn|] eqn:Ef; try discriminate. injection H as <- _ _.
      intros Hx. injection Hx as ->. exact (finalize_unstop _ _ _ _ _ _ _ Ef).
  Qed.
  Lemma iterate_unstop rec pats i c s pt lo : forall f left0 count ps st st',
    iterate f E P rec pats i c s pt lo left0 count ps st <> Ret (Ok SStop) st'.
  Proof.
    induction f as [|f IH]; intros left0 count ps st st'; cbn [iterate].
    - destruct (left0 =? 0); [apply finalize_unstop|discriminate].
    - destruct (left0 =? 0); [apply finalize_unstop|].
      destruct (run_patterns _ _ _ _ _ _ _ _ _ _ _ _) as [[k ps1] st1|pn|] eqn:Er; try discriminate.
      destruct k as [|x|r]; [apply IH| |intros Hx; injection Hx as -> _; now apply run_unstop in Er].
      destruct x as [a|a|z|b q|b q| |]; try discriminate.
      + destruct (pi_stop i); [discriminate|].
        destruct (handle_payload E P pt lo q ps1 st1) as [ps2 st2|pn|]; try discriminate.
        destruct (finalize P i pt ps2 count false st2) as [r st3|pn|] eqn:Ef; try discriminate.
        destruct (is_target i b); [intros Hx; injection Hx as -> _; exact (finalize_unstop _ _ _ _ _ _ _ Ef)|].
        destruct r; discriminate.
      + destruct (pi_stop i); [discriminate|].
        destruct (handle_payload E P pt lo q ps1 st1) as [ps2 st2|pn|]; try discriminate.
        destruct (is_target i b); [apply IH|apply finalize_unstop].
      + apply finalize_unstop.
  Qed.
  Lemma error_unstop msg r st st' : error_token_at E P msg r st <> Ret (Ok SStop) st'.
  Proof. unfold error_token_at. destruct (error_string E P msg r); discriminate. Qed.
  Lemma skip_unstop lo a st x st' : skip_token E P lo a st = Ret x st' -> x <> SStop.
  Proof.
    unfold skip_token. destruct (error_tokens _ _ _) as [[|e l]|]; try discriminate.
    - destruct (or_die _ _); [|discriminate]. intros H. injection H as <- _. discriminate.
    - intros H. injection H as <- _. discriminate.
  Qed.
  Lemma step_unstop rec fuel : unstopping rec -> unstopping (step fuel E P rec).
  Proof.
    destruct Hstops as (N1 & N2 & N3 & N4).
    intros Hrec m c s st0 st'. unfold step. set (st := before_exec m s st0). clearbody st. clear st0.
    destruct m as [pats i|p name cust|f name cust|fs fe fx name cust|m1|m1|m1| |msg|msg|nm|m1 k|m1 f
                  |om off name cust|p name cust|name|ms|t name cust|o m1|m1 name cust|m1|om d|k name cust cons];
      cbn [m_name]; try discriminate.
    - apply iterate_unstop.
    - destruct (fetch_value st s p) as [[v|m1]|]; try discriminate.
      destruct (matches_str _ _ _) as [[r|]|]; try discriminate; destruct (dbg E P _ 10); discriminate.
    - destruct (matches_regexp _ _ _) as [[r|]|]; try discriminate.
      + destruct (rs r =? re r); [|discriminate]. destruct (dbg E P _ 10); discriminate.
      + destruct (dbg E P _ 10); discriminate.
    - unfold exec_sequence. destruct (fetch_value st s fs) as [[sp|]|]; try discriminate.
      destruct (slen sp =? 0); [discriminate|]. destruct (fetch_value st s fe) as [[ep|]|]; try discriminate.
      destruct (slen ep =? 0); [discriminate|]. destruct (fetch_value st s fx) as [[esc|]|]; try discriminate.
      destruct (matches_str _ _ _) as [[r|]|]; try discriminate; [|destruct (dbg E P _ 10); discriminate].
      destruct (seq_scan _ _ _ _ _ _ _ _) as [[j v| |]|]; try discriminate; destruct (dbg E P _ _); discriminate.
    - destruct (rec m1 _ s st) as [r st1|pn|] eqn:Er; try discriminate.
      destruct r as [[a|a|z|b q|b q| |]|[|e]]; try discriminate; [destruct (z =? 0)%Z; discriminate|].
      now apply Hrec in Er.
    - destruct (rec m1 _ s st) as [r st1|pn|] eqn:Er; try discriminate.
      destruct r as [[a|a|z|b q|b q| |]|[|e]]; try discriminate. now apply Hrec in Er.
    - destruct (rec m1 _ s st) as [r st1|pn|] eqn:Er; try discriminate.
      destruct r as [[a|a|z|b q|b q| |]|e]; cbn [discard_result]; try discriminate.
      + destruct (skip_token _ _ _ _ _) as [x st2|pn|] eqn:Es; try discriminate. apply skip_unstop in Es. congruence.
      + destruct (skip_token _ _ _ _ _) as [x st2|pn|] eqn:Es; try discriminate. apply skip_unstop in Es. congruence.
      + destruct (discard_payload _ _ _ _ _); discriminate.
      + destruct (discard_payload _ _ _ _ _); discriminate.
      + now apply Hrec in Er.
    - destruct (error_string E P msg _); discriminate.
    - apply error_unstop.
    - destruct (rec m1 _ s st) as [r st1|pn|] eqn:Er; try discriminate.
      destruct r as [x|e]; [|apply N3]. intros Hx. injection Hx as -> ->. now apply Hrec in Er.
    - destruct (rec m1 _ s st) as [r st1|pn|] eqn:Er; try discriminate.
      assert (Hok : forall a c1, map_ok E P f a c1 s st1 <> Ret (Ok SStop) st').
      { intros a c1. destruct f; cbn [map_ok]; try discriminate; try apply N1; try apply error_unstop.
        - destruct (error_string E P _ _); discriminate.
        - destruct (attributes_of st1 a); discriminate.
        - destruct (attributes_of st1 a) as [l|]; [|discriminate].
          destruct (get_attr _ _); [|apply error_unstop]. destruct (parse_usize _); [discriminate|].
          destruct (version_attr l); [apply error_unstop|discriminate].
        - destruct (_ <? _); [|discriminate]. destruct (src_slice _ _ _); [|discriminate]. apply error_unstop.
        - destruct (find_child _ _ _); [discriminate|]. destruct (find_child _ _ _); [discriminate|]. apply error_unstop. }
      destruct r as [[a|a|z|b q|b q| |]|e]; try discriminate; try apply Hok; [now apply Hrec in Er|].
      destruct f, e; cbn [map_err]; try discriminate; try apply N2; try apply error_unstop.
      destruct (error_string E P _ _); discriminate.
    - destruct (fetch_value st s off) as [[v|m1]|]; try discriminate.
      destruct (pin_context _ _ _) as [c1|]; [|discriminate]. destruct om as [m1|]; [|discriminate]. apply Hrec.
    - destruct p as [m1|v]; [|discriminate]. destruct (rec m1 _ s st) as [r st1|pn|] eqn:Er; try discriminate.
      destruct r as [[a|a|z|b q|b q| |]|e]; try discriminate. now apply Hrec in Er.
    - destruct (fetch_value st s t) as [[v|m1]|]; try discriminate; [|apply Hrec].
      destruct (sc_get st s v) as [[a|w|m1]|]; try discriminate. apply Hrec.
    - destruct o as [s1|]; [apply Hrec|]. destruct (rec m1 _ _ _) as [r st1|pn|] eqn:Er; try discriminate.
      intros Hx. injection Hx as -> _. now apply Hrec in Er.
    - destruct (rec m1 _ s st) as [r st1|pn|] eqn:Er; try discriminate.
      destruct r as [[a|a|z|b q|b q| |]|e]; try discriminate; try (destruct q; discriminate). now apply Hrec in Er.
    - destruct (rec m1 _ s st) as [r st1|pn|] eqn:Er; try discriminate.
      destruct r as [[a|a|z|b q|b q| |]|e]; try discriminate. now apply Hrec in Er.
    - destruct om as [m1|]; destruct (debug_range E P _ 10); try discriminate. apply Hrec.
    - apply N4.
  Qed.
  Lemma exec_unstopping : forall n, unstopping (exec n E P).
  Proof. induction n as [|n IH]; [discriminate|]. cbn [exec]. now apply step_unstop. Qed.

  Lemma exec_eats : forall n, eating (exec n E P).
  Proof.
    induction n as [|n IH]; [intros m c s st r st' _ _ _ _ H; discriminate|]. cbn [exec].
    apply step_eats; [intros h; now apply exec_sound| |apply exec_unstopping|exact IH].
    apply (exec_keeps E P any_pos any_str sane_find HE Hfit Hlen any_slice any_strs any_find).
  Qed.

  Lemma exec_moves : forall n d m, nested d m -> loops_eat m -> no_references m -> bnd m ->
    (d + List.length (p_src P) + 1 <= n)%nat ->
    forall c s st, win c -> sbnd st -> exec n E P m c s st <> OOF.
  Proof.
    induction n as [|n IH]; intros d m Hd Hl Hr Hb Hn c s st Hw Hs; [inversion Hd; subst; lia|].
    cbn [exec]. inversion Hd as [d' m' Hd']; subst. inversion Hl as [m' Hl1 Hl2]; subst. inversion Hr as [m' Hr1 Hr2]; subst.
    pose proof (before_bounded _ _ m s st Hb Hs) as Hs1.
    assert (Hpb : forall x, In x (parts m) -> (forall om v n b, m <> MPin om v n b) -> bnd x).
    { intros x Hx _. clear -Hb Hx. inversion Hb; subst; cbn [parts] in Hx; try contradiction;
        try (destruct Hx as [<-|[]]; assumption); auto.
      destruct f; try contradiction. destruct Hx as [<-|[]]. auto. }
    assert (Hk : keeps P any_pos any_str sane_find (exec n E P)).
    { apply (exec_keeps E P any_pos any_str sane_find HE Hfit Hlen any_slice any_strs any_find). }
    assert (Hsnd : forall h, sound h (exec n E P)) by (intros h; now apply exec_sound).
    apply step_back; auto.
    - intros pats i ->. unfold exec_program. set (st1 := before_exec _ _ _) in *. clearbody st1. clear st Hs.
      set (c1 := clone_with_name c (pi_name i)). change (rs (c_off c1)) with (rs (c_off c)).
      pose proof (start_inv c i st1 Hw Hs1) as Hinv.
      assert (Hback : forall x ps st, In x pats ->
        pinv any_pos any_str sane_find (next_addr st1) st1 (rs (c_off c)) (re (c_off c)) st ps ->
        exec n E P x (push_tok (with_start c1 (ps_off ps)) (next_addr st1)) s st <> OOF).
      { intros x ps st Hx (_ & I2 & (I3 & _) & _). eapply IH; [now apply Hd'|now apply Hl2|now apply Hr2| |lia| |exact I2].
        - apply Hpb; [exact Hx|discriminate].
        - split; [|split; exact Logic.I]. cbn [c_off push_tok with_start rs re c1 clone_with_name]. destruct Hw as (Hw & _). lia. }
      assert (Hpats : forall x, In x pats -> bnd x) by (intros x Hx; apply Hpb; [exact Hx|discriminate]).
      destruct (pi_iter i) as [r|] eqn:Ei.
      + destruct (Hl1 pats i r eq_refl Ei) as (Hstop & x & l & -> & He).
        eapply (iterate_moves (exec n E P) (next_addr st1) st1 (rs (c_off c)) (re (c_off c)) i c1 Hsnd Hk eq_refl);
          [apply Hw|apply Hw|reflexivity|apply exec_unstopping|exact Hstop|apply exec_eats|exact He|now apply eats_consuming|exact Hpats|exact Hback|exact Hinv|].
        cbn [ps_off init_pst]. destruct Hw as (Hw & _). rewrite slen_length in Hw. lia.
      + unfold iterations. rewrite Ei. destruct n as [|n']; [lia|]. cbn [iterate]. change (1 =? 0) with false. cbv iota.
        pose proof (pass_back (exec (S n') E P) (next_addr st1) st1 (rs (c_off c)) (re (c_off c)) i c1 Hsnd Hk eq_refl
          ltac:(apply Hw) ltac:(apply Hw) eq_refl s 0 pats Hpats Hback _ _ Hinv) as Hrun.
        destruct (run_patterns _ _ _ _ _ _ _ _ _ _ _ _) as [[k ps1] st2|p|]; [|discriminate|congruence].
        destruct k as [|x|r0]; [| |discriminate].
        * change (1 - 1) with 0. destruct n'; cbn [iterate]; change (0 =? 0) with true; apply finalize_back.
        * destruct x as [a|a|z|b q|b q| |]; try discriminate.
          -- destruct (pi_stop i); [discriminate|]. pose proof (payload_back E P (next_addr st1) (rs (c_off c)) q ps1 st2) as Hp.
             destruct (handle_payload E P _ _ q ps1 st2) as [ps2 st3|p|]; [|discriminate|congruence].
             pose proof (finalize_back P i (next_addr st1) ps2 0 false st3) as Hz.
             destruct (finalize P i _ ps2 0 false st3) as [r st4|p|]; [|discriminate|congruence].
             destruct (is_target i b); [discriminate|]. destruct r; discriminate.
          -- destruct (pi_stop i); [discriminate|]. pose proof (payload_back E P (next_addr st1) (rs (c_off c)) q ps1 st2) as Hp.
             destruct (handle_payload E P _ _ q ps1 st2) as [ps2 st3|p|]; [|discriminate|congruence].
             unfold is_target. rewrite Ei. apply finalize_back.
          -- apply finalize_back.
    - intros x v nm b c1 ->. inversion Hb.
    - intros x c1 s1 st1 Hx Hnp Hoff Hst. eapply IH; [now apply Hd'|now apply Hl2|now apply Hr2|now apply Hpb|lia| |].
      + unfold window_ok. rewrite Hoff. exact Hw.
      + destruct Hst as [->| ->]; [exact Hs1|now apply scopes_push].
  Qed.
End Progress.

Theorem moves_bound : forall E P m c s st d n, tame E -> returning E -> never_stops E ->
  fitting (p_src P) (fun _ => True) (fun _ => True) sane_find E -> slen (p_src P) < isize_bound ->
  bounded (fun _ => True) sane_find m -> scopes_bounded (fun _ => True) sane_find st ->
  rs (c_off c) <= re (c_off c) <= slen (p_src P) ->
  no_references m -> loops_eat m -> nested d m -> (d + List.length (p_src P) + 1 <= n)%nat ->
  exec n E P m c s st <> OOF.
Proof.
  intros E P m c s st d n HE Hu Hns Hf Hl Hb Hs Hw Hr Hi Hd Hn.
  apply (exec_moves E P HE Hu Hns Hf Hl n d); auto. split; [exact Hw|split; exact Logic.I].
Qed.

(* ---------- the conditions are needed ---------- *)

Lemma null_loop_spins E P rec i c s pt lo : (forall c s st, rec MNull c s st = Ret (Ok (SSkip 0)) st) -> pi_stop i = false ->
  forall f left0 count ps st, N.of_nat f < left0 ->
  iterate f E P rec [MNull] i c s pt lo left0 count ps st = OOF.
Proof.
  intros Hrec Hstop. induction f as [|f IH]; intros left0 count ps st Hf; cbn [iterate].
  - destruct (N.eqb_spec left0 0); [lia|reflexivity].
  - destruct (N.eqb_spec left0 0); [lia|]. cbn [run_patterns]. rewrite Hrec. cbn [andb Z.ltb Z.compare m_consuming].
    apply IH. lia.
Qed.
Lemma null_loop E P c s st n : N.of_nat n <= usize_max -> exec n E P (Loop_ [MNull]) c s st = OOF.
Proof.
  intros Hn. destruct n as [|n]; [reflexivity|]. unfold Loop_, LoopR. cbn [exec]. unfold step, exec_program.
  destruct n as [|n]; [reflexivity|]. apply null_loop_spins; [reflexivity|reflexivity|].
  change (iterations _) with usize_max. lia.
Qed.
Lemma self_reference E P c s n : (s < 1)%nat ->
  exec n E P (Ref_ "r") c s (mkSt [] [[[(lit "r", VMatcher (Ref_ "r"))]]]) = OOF.
Proof.
  intros Hs. assert (s = 0%nat) by lia. subst s. revert c. induction n as [|n IH]; intros c; [reflexivity|].
  cbn [exec]. unfold step, Ref_. cbn [before_exec m_custom fetch_value]. exact (IH _).
Qed.
