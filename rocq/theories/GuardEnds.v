(* Guarded grammars come to an end. *)
From Verif Require Import Macros Spec SpecMore Mono FrameProofs CombProofs ProgramProofs TerminationProofs SpecGuard GuardProofs.
Open Scope string_scope.
Open Scope list_scope.
Open Scope N_scope.

Lemma look_returns E P : tame E -> returning E -> forall d n m c s st, look m -> nested d m -> (d <= n)%nat ->
  exec n E P m c s st <> OOF.
Proof.
  intros HE Hu. induction d as [|d IH]; intros n m c s st Hm Hd Hn; [inversion Hd|].
  destruct n as [|n]; [lia|]. inversion Hd as [d' m' Hp]; subst.
  change (exec (S n) E P m c s st) with (step n E P (exec n E P) m c s st).
  pose proof (exec_sound E P HE n) as Hs.
  apply step_returns; auto.
  - intros t n0 b x c1 ->. inversion Hm.
  - intros pats i ->. inversion Hm.
  - intros x v n0 b w c1 ->. inversion Hm.
  - intros x c1 s1 st1 Hx _ _ _ _. apply IH; [|now apply Hp|lia].
    inversion Hm; subst m; cbn [parts] in Hx; try destruct Hx; subst; auto; destruct H0.
Qed.

Lemma run_cons E P rec i c s pt lo count m pats ps st :
  run_patterns E P rec i c s pt lo count (m :: pats) ps st =
  match run_patterns E P rec i c s pt lo count [m] ps st with
  | Ret (CDone, ps1) st1 => run_patterns E P rec i c s pt lo count pats ps1 st1
  | x => x
  end.
Proof.
  cbn [run_patterns]. destruct (rec m _ s st) as [r st1|p|]; auto.
  destruct r as [[a|a|z|nm p|nm p| |]|e]; auto.
  - destruct (should_discard _); auto. destruct (pi_stop i); auto. destruct (handle_token _ _ _ _ _ _ _); auto.
  - destruct (should_discard _); auto. destruct (pi_stop i); auto. destruct (handle_extract _ _ _ _ _ _); auto.
  - destruct (_ && _); auto. destruct (m_consuming m); auto. destruct (handle_skip _ _ _ _ _); auto.
  - destruct (dbg E P _ 10); auto. destruct e; auto. destruct (pi_stop i); auto. destruct (pi_iter i); auto.
    destruct (finalize P i pt ps count false st1); auto.
Qed.
Lemma run_one_back E P rec i c s pt lo count m ps st :
  rec m (push_tok (with_start c (ps_off ps)) pt) s st <> OOF ->
  run_patterns E P rec i c s pt lo count [m] ps st <> OOF.
Proof.
  intros H. cbn [run_patterns]. destruct (rec m _ s st) as [r st1|p|]; try discriminate; [|congruence].
  destruct r as [[a|a|z|nm p|nm p| |]|e]; try discriminate.
  - destruct (should_discard _); [discriminate|]. destruct (pi_stop i); [discriminate|]. unfold handle_token.
    pose proof (add_back P pt a (m_consuming m) (m_consuming m && negb (should_discard (tok st1 a))) ps st1).
    destruct (add_token _ _ _ _ _ _ _); congruence.
  - destruct (should_discard _); [discriminate|]. destruct (pi_stop i); [discriminate|]. unfold handle_extract.
    match goal with |- context [extract_children ?a ?b ?d ?e ?f ?g ?h] => pose proof (extract_back a b d e f g h);
      destruct (extract_children a b d e f g h); congruence end.
  - destruct (_ && _); [discriminate|]. destruct (m_consuming m); [|discriminate].
    pose proof (handle_skip_back E lo z ps st1). destruct (handle_skip _ _ _ _ _); congruence.
  - destruct (dbg E P _ 10); [|discriminate]. destruct e; [|discriminate]. destruct (pi_stop i); [discriminate|].
    destruct (pi_iter i); [|discriminate]. pose proof (finalize_back P i pt ps count false st1).
    destruct (finalize P i pt ps count false st1); congruence.
Qed.

Section Ends.
  Variables (E : env) (P : parser) (body : str -> option matcher) (rank : str -> nat) (top D : nat).
  Hypothesis HE : tame E.
  Hypothesis Hu : returning E.
  Hypothesis Hlen : slen (p_src P) < isize_bound.
  Hypothesis Hnames : guarded_names body rank top D.
  Notation L := (slen (p_src P)).

  Lemma Hbody n b : body n = Some b -> onward body false false b /\ keeps_names body b.
  Proof. intros H. apply Hnames in H. tauto. Qed.

  Lemma onward_parts back tight m : onward body back tight m ->
    (forall ps i, m <> MProgram ps i) -> forall x, In x (parts m) ->
    exists t, onward body back t x.
  Proof.
    induction 1 as [back tight m Hm|back tight ps i Hi Hps|back tight ps i Hi Hps IH|back tight x Hx IH|back tight x Hx IH
        |x Hx IH|back tight x f Hf1 Hf2 Hx IH|back tight x Hx IH|back tight x n b Hx IH|back tight x n b Hx IH|n name b Hb
        |back tight x name b Hx IH|back tight x n b Hx IH|back tight x Hx IH|back tight x d Hx IH|tight x Hx IH|back x Hx IH];
      intros Hnp y Hy; cbn [parts] in Hy;
      try (destruct Hy as [<-|[]]; eauto; fail); try (destruct Hy; fail).
    - destruct Hm; cbn [parts] in Hy; destruct Hy.
    - now elim (Hnp ps i).
    - now elim (Hnp ps i).
    - destruct Hy as [<-|[]]. exists tight. destruct back; [exact Hx|now apply on_back].
    - destruct (IH Hnp y Hy) as [t Ht]. exists t. now apply on_back.
    - apply IH; auto.
  Qed.
  Lemma onward_scope back tight m : onward body back tight m -> forall o y, m <> MSetScope o y.
  Proof. induction 1; try discriminate; auto. destruct H; discriminate. Qed.
  Lemma onward_ref back tight m : onward body back tight m -> forall t n b, m = MRef t n b ->
    (exists x, t = FMatcher x) \/ exists k, t = FStr k /\ body k <> None.
  Proof.
    induction 1; try discriminate; eauto; intros t0 n0 b0 Heq.
    - subst m. inversion H.
    - injection Heq as <- <- <-. right. eauto.
    - injection Heq as <- <- <-. left. eauto.
  Qed.
  Lemma onward_pin back tight m : onward body back tight m -> forall x v n b, m = MPin (Some x) v n b ->
    v = FStr "".
  Proof.
    induction 1; try discriminate; eauto; intros y v0 n0 b0 Heq.
    - subst m. inversion H.
    - now injection Heq as <- <- <- <-.
  Qed.

  Section Program.
    Variables (rec : recT) (back tight : bool) (c : ctx) (s : sid) (pt : addr) (st_s : state) (i : pinfo) (ps0 : list matcher).
    Hypothesis Hsound : forall h, sound h rec.
    Hypothesis Hland : landing P body rec.
    Hypothesis Hlook : looking P body rec.
    Hypothesis Hleap : leaping0 P body rec.
    Hypothesis Hpt : heap_size st_s = pt.
    Hypothesis Hcs : rs (c_off c) <= L.
    Hypothesis Hce : re (c_off c) = L.
    Hypothesis Hok : forall x, In x ps0 -> pat_ok body back tight i x.
    Notation start := (rs (c_off c)).
    Notation JJ := (J P body back tight c s pt st_s i).
    Definition mover (l : list matcher) : Prop := exists y, In y l /\ m_consuming y = true /\ moves y.

    (* where a pattern can be reached *)
    Definition fine (pre : list matcher) (x : matcher) : Prop := forall from ps st, JJ st ps ->
      (back = false -> start <= from <= ps_off ps) ->
      (back = false -> pi_stop i = false -> mover pre -> from < ps_off ps) ->
      rec x (push_tok (with_start c (ps_off ps)) pt) s st <> OOF.
    Hypothesis Hfine : forall pre x post, ps0 = pre ++ x :: post -> fine pre x.

    Lemma leaps y : In y ps0 -> back = false -> pi_stop i = false -> m_consuming y = true -> moves y -> leap P body rec s y.
    Proof.
      intros Hy Hb Hs Hc Hm cc st r st' H1 H2 H3 H4. destruct (Hok y Hy) as [Hn Ho]. rewrite Hs in Ho.
      rewrite Hb in Ho. destruct Ho as [Ho|[_ (z & off & n & b & -> & _)]]; [|discriminate].
      exact (Hleap false y cc s st r st' Hm Ho Hn H1 H2 H3 H4).
    Qed.

    Lemma run_returns count from : forall post pre ps st, ps0 = pre ++ post -> JJ st ps ->
      (back = false -> start <= from <= ps_off ps) ->
      (back = false -> pi_stop i = false -> mover pre -> from < ps_off ps) ->
      run_patterns E P rec i c s pt start count post ps st <> OOF.
    Proof.
      induction post as [|x post IH]; intros pre ps st Hps HJ H1 H2; [discriminate|].
      assert (Hin : In x ps0) by (rewrite Hps; apply in_or_app; right; now left).
      rewrite run_cons.
      assert (Ho : run_patterns E P rec i c s pt start count [x] ps st <> OOF).
      { apply run_one_back. eapply (Hfine pre x post Hps); eauto. }
      destruct (run_patterns E P rec i c s pt start count [x] ps st) as [[k ps1] st1|p|] eqn:Er; [|discriminate|congruence].
      destruct k as [|y|r]; try discriminate.
      assert (Hone : forall z, In z [x] -> pat_ok body back tight i z) by (intros z [<-|[]]; now apply Hok).
      assert (HJ1 : JJ st1 ps1 /\ later back ps ps1)
        by (exact (run_lands E P body Hlen Hbody rec back tight c s pt st_s i Hsound Hland Hlook Hpt Hcs Hce count [x] Hone st ps CDone ps1 st1 HJ Er)).
      destruct HJ1 as [HJ1 [Hl1 Hl2]].
      apply (IH (pre ++ [x])); auto.
      - now rewrite <- app_assoc.
      - intros Hb. specialize (Hl1 Hb). specialize (H1 Hb). lia.
      - intros Hb Hs (y & Hy & Hc & Hm). specialize (Hl1 Hb). specialize (H1 Hb).
        apply in_app_iff in Hy as [Hy|[<-|[]]].
        + assert (from < ps_off ps) by (apply H2; auto; exists y; auto). lia.
        + assert (ps_off ps < ps_off ps1); [|lia].
          apply (run_moves E P body Hlen Hbody rec back tight c s pt st_s i Hsound Hland Hlook Hpt Hcs Hce count Hb Hs [x] Hone) with (st := st) (st' := st1); auto.
          exists x. split; [now left|]. split; [exact Hc|]. now apply leaps.
    Qed.
    Lemma iterate_returns : (forall it, pi_iter i = Some it -> back = false /\ pi_stop i = false /\ mover ps0) ->
      forall f left count ps st, JJ st ps -> (back = false -> start <= ps_off ps) ->
      (pi_iter i = None -> left <= 1) -> (N.to_nat L < f + N.to_nat (ps_off ps))%nat -> (1 <= f)%nat ->
      iterate f E P rec ps0 i c s pt start left count ps st <> OOF.
    Proof.
      intros Hloop. induction f as [|f IH]; intros left count ps st HJ Hst Hleft Hf Hf1; [lia|].
      cbn [iterate]. destruct (N.eqb_spec left 0) as [|Hne]; [apply finalize_back|].
      assert (Ho : run_patterns E P rec i c s pt start count ps0 ps st <> OOF).
      { apply (run_returns count (ps_off ps) ps0 []); auto.
        - intros Hb. specialize (Hst Hb). lia.
        - intros _ _ (y & [] & _). }
      destruct (run_patterns E P rec i c s pt start count ps0 ps st) as [[k ps1] st1|p|] eqn:Er; [|discriminate|congruence].
      assert (Hpl : pass_lands P body back tight c s pt st_s i k ps ps1 st1)
        by (exact (run_lands E P body Hlen Hbody rec back tight c s pt st_s i Hsound Hland Hlook Hpt Hcs Hce count ps0 Hok st ps k ps1 st1 HJ Er)).
      destruct k as [|y|r]; [| |discriminate].
      - destruct Hpl as [HJ1 [Hl1 _]].
        destruct (pi_iter i) as [it|] eqn:Ei.
        + destruct (Hloop it eq_refl) as (Hb & Hs & y & Hy & Hc & Hm).
          assert (ps_off ps < ps_off ps1).
          { apply (run_moves E P body Hlen Hbody rec back tight c s pt st_s i Hsound Hland Hlook Hpt Hcs Hce count Hb Hs ps0 Hok) with (st := st) (st' := st1); auto.
            exists y. split; [exact Hy|]. split; [exact Hc|]. now apply leaps. }
          pose proof (j_off _ _ _ _ _ _ _ _ _ _ _ HJ1) as Hj. specialize (Hl1 Hb). specialize (Hst Hb).
          apply IH; auto; try lia.
        + specialize (Hleft eq_refl). assert (left - 1 = 0) as -> by lia.
          destruct f; apply finalize_back.
      - destruct Hpl as (_ & _ & _ & [(n & p & ->)| ->] & _); [|discriminate].
        destruct (pi_stop i); [discriminate|].
        pose proof (payload_back E P pt start p ps1 st1). destruct (handle_payload E P pt start p ps1 st1) as [ps2 st2|q|]; try congruence.
        pose proof (finalize_back P i pt ps2 count false st2). destruct (finalize P i pt ps2 count false st2) as [r st3|q|]; try congruence.
        destruct (is_target i n); [discriminate|]. destruct r; discriminate.
    Qed.
  End Program.

  Lemma aside_returns d n m c s st : aside m -> nested d m -> (d <= n)%nat -> exec n E P m c s st <> OOF.
  Proof.
    intros (x & off & nm & b & -> & Hx) Hd Hn. inversion Hd as [d' m' Hp]; subst.
    destruct n as [|n]; [lia|].
    change (exec (S n) E P ?m c s st) with (step n E P (exec n E P) m c s st).
    assert (Hr : forall c1 s1 st1, exec n E P x c1 s1 st1 <> OOF).
    { intros. apply (look_returns E P HE Hu d'); auto; [apply Hp; now left|lia]. }
    apply step_returns; auto; try discriminate.
    - apply (exec_sound E P HE n).
    - intros x0 v n0 b0 w c1 [= <- <- <- <-] _ _. apply Hr.
    - intros y c1 s1 st1 [<-|[]] _ _ _ _. apply Hr.
  Qed.

  Notation size := (N.to_nat L).
  Theorem exec_ends : forall n back r m, guarded body rank top back r m ->
    forall tight d rem c s st, nested d m -> onward body back tight m -> keeps_names body m -> known body s st ->
    rs (c_off c) <= L -> re (c_off c) = L -> (N.to_nat (L - low_of back (rs (c_off c))) <= rem)%nat ->
    (size + 3 + rem * (top * D) + r * D + d <= n)%nat ->
    exec n E P m c s st <> OOF.
  Proof.
    induction n as [|n IHn]; intros back r m Hg; [lia|].
    destruct (exec_landing E P body HE Hlen Hbody n) as (Hland & Hlook & Hleap & _).
    pose proof (exec_sound E P HE n) as Hsound.
    induction Hg as [back r ps i Hit Hps|r k name b Hr|back r m Hm|back r m Hnp Hnr Hx _|r m Ho Hm IHm];
      intros tight d rem c s st Hd Hon Hnm Hkn Hcs Hce Hrem Hn.
    - (* a program *)
      change (exec (S n) E P ?m c s st) with (step n E P (exec n E P) m c s st).
      assert (Hnest := Hd). inversion Hnest as [d' m' Hp]; subst. clear Hnest.
      apply step_returns; auto; try discriminate.
      + intros pats i0 [= <- <-]. set (st1 := before_exec (MProgram ps i) s st).
        assert (Hk1 : known body s st1) by (now apply known_before).
        assert (Hpo : forall x, In x ps -> pat_ok body back tight i x).
        { intros x Hx. split; [now apply (part_names body _ _ Hnm)|]. exact (onward_inv body back tight _ Hon x Hx). }
        unfold exec_program.
        apply (iterate_returns (exec n E P) back tight (clone_with_name c (pi_name i)) s (next_addr st1) st1 i ps); auto.
        * intros pre x post Heq from pst st2 HJ H1 H2.
          destruct HJ as [_ _ Hjk Hjo _ _ _ _ _]. cbn [c_off clone_with_name] in Hjo, H1.
          assert (Hx : In x ps) by (rewrite Heq; apply in_or_app; right; now left).
          destruct (Hpo x Hx) as [Hxn Hxo].
          assert (Hxd : nested d' x) by (now apply Hp).
          assert (Hcase : (exists t, onward body back t x) \/ aside x).
          { destruct (pi_stop i); [eauto|]. destruct Hxo as [Ho|[_ Ho]]; eauto. }
          destruct Hcase as [[t Hxt]|Ha]; [|apply (aside_returns d'); auto; lia].
          destruct (Hps pre x post Heq) as [Hgx|(Hb & Hs & Hmov & Hgx)].
          -- apply (IHn back r x Hgx t d' rem); auto; try lia.
             ++ cbn. lia.
             ++ cbn [c_off push_tok with_start rs]. destruct back; cbn [low_of] in *; [lia|]. specialize (H1 eq_refl). lia.
          -- specialize (H1 Hb). specialize (H2 Hb Hs Hmov). subst back. cbn [low_of] in *.
             destruct rem as [|rem]; [lia|].
             apply (IHn false top x Hgx t d' rem); auto; try lia.
             ++ cbn. lia.
             ++ cbn [c_off push_tok with_start rs low_of]. lia.
        * apply start_J with (rec := exec n E P); auto. cbn. lia.
        * reflexivity.
        * intros H. unfold iterations. rewrite H. lia.
        * cbn. lia.
        * lia.
      + intros x c1 s1 st1 _ _ Hpr. now elim (Hpr ps i).
    - (* a name *)
      change (exec (S n) E P ?m c s st) with (step n E P (exec n E P) m c s st).
      assert (Hk1 : known body s (before_exec (MRef (FStr k) name b) s st)) by (now apply known_before).
      inversion Hd as [d' m' Hp]; subst. apply step_returns; auto; try discriminate.
      + intros t n0 b0 x c1 [= <- <- <-] [Hx|(v & Hx & Hg)] Hc; [discriminate|]. injection Hx as <-.
        destruct (onward_ref false tight _ Hon _ _ _ eq_refl) as [[y Hy]|(k0 & [= <-] & Hb)]; [discriminate|].
        destruct (body k) as [bk|] eqn:Ek; [|congruence].
        assert (x = bk) as -> by (exact (Hk1 k x bk Hg Ek)).
        destruct (Hnames k bk Ek) as (_ & Hb1 & Hb2 & Hb3 & Hb4).
        apply (IHn false (rank k) bk Hb4 false D rem); auto; rewrite ?Hc; auto.
        assert ((S (rank k)) * D <= r * D)%nat by (apply Nat.mul_le_mono_r; lia). lia.
    - apply (aside_returns d); auto. lia.
    - (* any other matcher *)
      change (exec (S n) E P ?m c s st) with (step n E P (exec n E P) m c s st).
      assert (Hk1 : known body s (before_exec m s st)) by (now apply known_before).
      assert (Hnest := Hd). inversion Hnest as [d' m' Hp]; subst. clear Hnest.
      assert (Hin : forall x c1, In x (parts m) -> c_off c1 = c_off c ->
        exec n E P x c1 s (before_exec m s st) <> OOF).
      { intros x c1 Hi Hc. destruct (onward_parts back tight m Hon Hnp x Hi) as [t Ht].
        apply (IHn back r x (Hx x Hi) t d' rem); auto; rewrite ?Hc; auto; [now apply (part_names body m)|lia]. }
      apply step_returns; auto.
      + intros t n0 b0 x c1 -> Hf Hc.
        destruct (onward_ref back tight _ Hon _ _ _ eq_refl) as [[y ->]|(k & -> & _)]; [|now elim (Hnr k n0 b0)].
        destruct Hf as [Hf|(v & Hf & _)]; [|discriminate]. injection Hf as <-. apply Hin; auto. now left.
      + intros pats i ->. now elim (Hnp pats i).
      + intros x v n0 b0 w c1 -> Hf Hw. pose proof (onward_pin back tight _ Hon _ _ _ _ eq_refl) as ->.
        injection Hf as <-. cbn in Hw. injection Hw as <-. apply Hin; [now left|]. cbn. now destruct (c_off c).
      + intros x c1 s1 st1 Hi _ _ Hc [[-> ->]|[(o & y & Hm) _]]; [now apply Hin|].
        now elim (onward_scope back tight m Hon o y).
    - apply (IHm false d (N.to_nat (L - rs (c_off c)))); auto; cbn [low_of] in *; try lia.
      assert (N.to_nat (L - rs (c_off c)) * (top * D) <= rem * (top * D))%nat by (apply Nat.mul_le_mono_r; lia). lia.
  Qed.
End Ends.

Theorem grammar_ends : forall E P body rank top D, tame E -> returning E -> slen (p_src P) < isize_bound ->
  guarded_names body rank top D ->
  forall back tight r m d c s st, guarded body rank top back r m -> nested d m -> onward body back tight m ->
  keeps_names body m -> known body s st ->
  rs (c_off c) <= slen (p_src P) -> re (c_off c) = slen (p_src P) ->
  forall n, let left := N.to_nat (if back then slen (p_src P) else slen (p_src P) - rs (c_off c)) in
  (N.to_nat (slen (p_src P)) + 3 + left * (top * D) + r * D + d <= n)%nat -> exec n E P m c s st <> OOF.
Proof.
  intros. eapply exec_ends with (rem := left); eauto. subst left. unfold low_of. destruct back; lia.
Qed.
