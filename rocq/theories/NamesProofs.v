(* Where the names and the error marks of tokens come from (C78, C79). *)
From Verif Require Import Utf8Proofs ContextProofs TextProofs BoundsProofs.
From Verif Require Export TreeProofs SpecNames.
Open Scope string_scope.
Open Scope list_scope.
Open Scope N_scope.

Section Names.
  Variables (Nm : str -> Prop) (err : Prop) (Sc : sid -> Prop).
  Notation makes_only := (makes_only Nm err Sc).
  Notation speaks := (speaks Nm err Sc).
  Notation scopes_speak := (scopes_speak Nm err Sc).
  Notation named := (named Nm).
  Notation marked_rightly := (marked_rightly err).
  Notation well_named := (well_named Nm err).
  Notation speaks_well := (speaks_well Nm err Sc).
  Notation polite := (polite Nm err Sc).

  Lemma speaks_part m x : speaks m -> In x (parts m) -> speaks x.
  Proof. intros []. auto. Qed.
  Lemma speaks_self m : speaks m -> makes_only m.
  Proof. intros []. auto. Qed.

  (* ---------- scopes ---------- *)

  Lemma speak_get st s n m : Sc s -> scopes_speak st -> sc_get st s n = Some (VMatcher m) -> speaks m.
  Proof.
    intros Hs H Hg. apply stack_get_in in Hg as (sc & H1 & H2). eapply H; eauto.
  Qed.
  Lemma stack_set_stack st s l s' : stack_of (set_stack st s l) s' = l \/ stack_of (set_stack st s l) s' = stack_of st s'.
  Proof.
    unfold stack_of, set_stack. cbn [st_scopes]. generalize (st_scopes st) as ls. intros ls. revert s s'.
    induction ls as [|x ls IH]; intros [|s] [|s']; cbn [upd nth]; auto.
  Qed.
  Lemma speak_stack st s l : scopes_speak st ->
    (Sc s -> forall sc n m, In sc l -> In (n, VMatcher m) sc -> speaks m) -> scopes_speak (set_stack st s l).
  Proof.
    intros H Hl s' sc n m Hs' Hsc Hn. destruct (Nat.eq_dec s s') as [<-|Hd].
    - destruct (stack_set_stack st s l s) as [E|E]; rewrite E in Hsc; [eapply Hl; eauto|eapply H; eauto].
    - unfold stack_of, set_stack in Hsc. cbn [st_scopes] in Hsc. rewrite nth_upd_other in Hsc by exact Hd. eapply H; eauto.
  Qed.
  Lemma speak_set st s n v : scopes_speak st -> (forall m, v = VMatcher m -> speaks m) -> scopes_speak (sc_set st s n v).
  Proof.
    intros H Hv. apply speak_stack; [exact H|]. intros Hs sc k m H1 H2.
    pose proof (H s) as Ho.
    destruct (stack_of st s) as [|sc0 l]; cbn [stack_set] in H1.
    - destruct H1 as [<-|[]]. apply assoc_set_in in H2 as [H2|[]]. symmetry in H2. now apply Hv.
    - destruct H1 as [<-|H1]; [|exact (Ho sc k m Hs (or_intror H1) H2)].
      apply assoc_set_in in H2 as [H2|H2]; [symmetry in H2; now apply Hv|]. exact (Ho sc0 k m Hs (or_introl eq_refl) H2).
  Qed.
  Lemma speak_push st s : scopes_speak st -> scopes_speak (sc_push st s).
  Proof.
    intros H. apply speak_stack; [exact H|]. intros Hs sc n m [<-|H1] H2; [destruct H2|]. eapply H; eauto.
  Qed.
  Lemma speak_pop st s : scopes_speak st -> scopes_speak (sc_pop st s).
  Proof.
    intros H. apply speak_stack; [exact H|]. intros Hs sc n m H1 H2.
    apply (H s sc n m); auto. destruct (stack_of st s); [exact H1|now right].
  Qed.
  Lemma speak_heap st st' : st_scopes st' = st_scopes st -> scopes_speak st -> scopes_speak st'.
  Proof. unfold SpecNames.scopes_speak, stack_of. intros ->. auto. Qed.
  Lemma before_speak m s st : speaks m -> scopes_speak st -> scopes_speak (before_exec m s st).
  Proof.
    intros Hm Hs. unfold before_exec. destruct (m_custom m); [|exact Hs]. apply speak_set; [exact Hs|].
    intros m' H. now injection H as <-.
  Qed.

  (* ---------- the heap ---------- *)

  Lemma named_heap st st' a : st_heap st' = st_heap st -> named st a -> named st' a.
  Proof. unfold SpecNames.named, tok. intros ->. auto. Qed.
  Lemma wn_heap h st st' : st_heap st' = st_heap st -> well_named h st -> well_named h st'.
  Proof. unfold SpecNames.well_named, SpecNames.named, heap_size, tok. intros ->. auto. Qed.
  Lemma named_set st a t b : (named st a -> Nm (tk_name t)) -> named st b -> named (set_tok st a t) b.
  Proof.
    intros Ht Hb. unfold SpecNames.named in *. destruct (Nat.eq_dec a b) as [<-|Hn].
    - destruct (Nat.lt_ge_cases a (List.length (st_heap st))) as [Hl|Hl].
      + rewrite tok_set_same by exact Hl. auto.
      + unfold tok in *. cbn [st_heap set_tok]. now rewrite nth_overflow in * by (rewrite ?upd_length; exact Hl).
    - now rewrite tok_set_other by exact Hn.
  Qed.
  Lemma wn_set h st a t : (named st a -> Nm (tk_name t)) -> (marked_rightly (tok st a) -> marked_rightly t) ->
    (forall k, In k (tk_kids t) -> In k (tk_kids (tok st a)) \/ named st k) ->
    (h <= a)%nat -> well_named h st -> well_named h (set_tok st a t).
  Proof.
    intros Hn Hm Hk Ha Hw b Hb. rewrite heap_size_set in Hb. destruct (Nat.eq_dec a b) as [<-|Hd].
    - rewrite tok_set_same by (unfold heap_size in Hb; lia). destruct (Hw a Hb) as [H1 H2]. split; [auto|].
      intros k Hin. apply named_set; [exact Hn|]. destruct (Hk k Hin); auto.
    - rewrite tok_set_other by exact Hd. destruct (Hw b Hb) as [H1 H2]. split; [exact H1|].
      intros k Hin. apply named_set; auto.
  Qed.
  Lemma named_alloc st t a : (a < heap_size st)%nat -> named st a -> named (alloc st t) a.
  Proof. unfold SpecNames.named. intros H. now rewrite tok_alloc_old. Qed.
  Lemma named_new st t : Nm (tk_name t) -> named (alloc st t) (next_addr st).
  Proof. unfold SpecNames.named. now rewrite tok_alloc_new. Qed.
  Lemma wn_alloc h st t : forest h st -> marked_rightly t ->
    (forall k, In k (tk_kids t) -> (h <= k < heap_size st)%nat /\ named st k) ->
    well_named h st -> well_named h (alloc st t).
  Proof.
    intros Hf Hm Hk Hw b Hb. rewrite heap_size_alloc in Hb.
    destruct (Nat.eq_dec b (heap_size st)) as [->|Hn].
    - change (heap_size st) with (next_addr st). rewrite tok_alloc_new. split; [exact Hm|].
      intros k Hin. destruct (Hk k Hin). apply named_alloc; [lia|assumption].
    - rewrite tok_alloc_old by (unfold heap_size in *; lia).
      assert (Hb' : (h <= b < heap_size st)%nat) by lia. destruct (Hw b Hb') as [H1 H2]. split; [exact H1|].
      intros k Hin. apply named_alloc; [apply (forest_closed _ _ Hf b Hb' k Hin)|auto].
  Qed.
  Lemma wn_top st : well_named (heap_size st) st.
  Proof. intros a Ha. lia. Qed.

  Definition retains (h : nat) (st st' : state) : Prop :=
    forall a, (h <= a < heap_size st)%nat -> named st a -> named st' a.
  Lemma retains_trans h st st1 st2 : (heap_size st <= heap_size st1)%nat ->
    retains h st st1 -> retains h st1 st2 -> retains h st st2.
  Proof. intros Hs H1 H2 a Ha Hn. apply H2; [lia|]. now apply H1. Qed.
  Lemma retains_refl h st : retains h st st.
  Proof. intros a _ Hn. exact Hn. Qed.
  Lemma retains_heap h st st' : st_heap st' = st_heap st -> retains h st st'.
  Proof. intros H a _ Hn. eapply named_heap; eauto. Qed.
  Lemma retains_alloc h st t : retains h st (alloc st t).
  Proof. intros a Ha Hn. apply named_alloc; [apply Ha|exact Hn]. Qed.
  Lemma retains_set h st a t : (named st a -> Nm (tk_name t)) -> retains h st (set_tok st a t).
  Proof. intros H b _ Hn. now apply named_set. Qed.

  Lemma well_none h st r : well_named h st -> scopes_speak st -> result_tokens r = [] -> speaks_well h st r st.
  Proof.
    intros H1 H2 H3. split; [exact H1|]. split; [exact H2|]. split; [apply retains_refl|].
    rewrite H3. intros a [].
  Qed.
  Lemma well_same h st r : well_named h st -> scopes_speak st -> (forall a, In a (result_tokens r) -> named st a) ->
    speaks_well h st r st.
  Proof.
    intros H1 H2 H3. split; [exact H1|]. split; [exact H2|]. split; [apply retains_refl|exact H3].
  Qed.
  Lemma well_alloc h st t : forest h st -> well_named h st -> scopes_speak st ->
    Nm (tk_name t) -> marked_rightly t -> tk_kids t = [] ->
    speaks_well h st (Ok (SToken (next_addr st))) (alloc st t).
  Proof.
    intros Hf H1 H2 Hn Hm Hk. split; [apply wn_alloc; auto; rewrite Hk; intros ? []|].
    split; [exact H2|]. split; [apply retains_alloc|]. intros a [<-|[]]. now apply named_new.
  Qed.
  Lemma well_set h st a t r : (forall b, In b (result_tokens r) -> b = a) -> named st a -> (h <= a)%nat ->
    well_named h st -> scopes_speak st ->
    (Nm (tk_name (tok st a)) -> Nm (tk_name t)) -> tk_flags t = tk_flags (tok st a) -> tk_kids t = tk_kids (tok st a) ->
    speaks_well h st r (set_tok st a t).
  Proof.
    intros Hr Hna Ha H1 H2 Hn Hm Hk. split.
    - apply wn_set; auto.
      + unfold SpecNames.marked_rightly, is_error. now rewrite Hm.
      + rewrite Hk. auto.
    - split; [exact H2|]. split; [now apply retains_set|]. intros b Hb. rewrite (Hr b Hb). now apply named_set.
  Qed.
  (* a step after a step *)
  Lemma well_then h st st1 r0 r st' : (heap_size st <= heap_size st1)%nat ->
    speaks_well h st r0 st1 -> speaks_well h st1 r st' -> speaks_well h st r st'.
  Proof.
    intros Hs (A1 & A2 & A3 & A4) (B1 & B2 & B3 & B4). split; [exact B1|]. split; [exact B2|].
    split; [eapply retains_trans; eauto|exact B4].
  Qed.
  Lemma well_result h st r r' st' : speaks_well h st r st' ->
    (forall a, In a (result_tokens r') -> In a (result_tokens r)) -> speaks_well h st r' st'.
  Proof. intros (A1 & A2 & A3 & A4) H. split; [exact A1|]. split; [exact A2|]. split; auto. Qed.

  Definition speaking (rec : recT) : Prop :=
    forall h m c s st r st', (h <= heap_size st)%nat -> forest h st -> well_named h st -> scopes_speak st ->
      Sc s -> Sc (c_scope c) -> speaks m -> rec m c s st = Ret r st' -> speaks_well h st r st'.

  (* ---------- tokens that keep their names ---------- *)

  Lemma add_missing_kept l : forall t, tk_name (add_missing_attrs l t) = tk_name t /\
    tk_flags (add_missing_attrs l t) = tk_flags t /\ tk_kids (add_missing_attrs l t) = tk_kids t.
  Proof.
    unfold add_missing_attrs. induction l as [|kv l IH]; intros t; cbn [fold_left]; [auto|].
    destruct (get_attr (fst kv) t); [apply IH|]. destruct (IH (set_attr (fst kv) (snd kv) t)) as (-> & -> & ->). auto.
  Qed.
  Lemma set_attrs_kept l : forall t, tk_name (set_attrs l t) = tk_name t /\
    tk_flags (set_attrs l t) = tk_flags t /\ tk_kids (set_attrs l t) = tk_kids t.
  Proof.
    unfold set_attrs. induction l as [|kv l IH]; intros t; cbn [fold_left]; [auto|].
    destruct (IH (set_attr (snd (fst kv)) (snd kv) t)) as (-> & -> & ->). auto.
  Qed.
  Lemma add_errors_kept P st l : forall t, tk_name (add_errors P st l t) = tk_name t /\
    tk_flags (add_errors P st l t) = tk_flags t /\ tk_kids (add_errors P st l t) = tk_kids t ++ l.
  Proof.
    unfold add_errors. induction l as [|e l IH]; intros t; cbn [fold_left]; [rewrite app_nil_r; auto|].
    destruct (IH (widen P (tk_mr (tok st e)) (set_kids (tk_kids t ++ [e]) t))) as (-> & -> & ->).
    unfold widen. destruct (_ || _); cbn; rewrite <- app_assoc; auto.
  Qed.

  Lemma error_token_at_well E P msg r h st x st' : forest h st -> well_named h st -> scopes_speak st ->
    Nm "Error" -> err -> error_token_at E P msg r st = Ret x st' -> speaks_well h st x st'.
  Proof.
    intros Hf Hw Hs Hn He H. unfold error_token_at in H. destruct (error_string E P msg r); [|discriminate].
    injection H as <- <-. apply well_alloc; auto. intros _. exact He.
  Qed.

  Lemma map_ok_well E P f m1 a c s h st r st' : polite E -> speaks (MMap m1 f) ->
    (h <= heap_size st)%nat -> forest h st -> well_named h st -> scopes_speak st -> (h <= a < heap_size st)%nat ->
    named st a -> map_ok E P f a c s st = Ret r st' -> speaks_well h st r st'.
  Proof.
    intros HE Hm Hh Hf Hw Hs Ha Hn H. apply speaks_self in Hm. cbn [SpecNames.makes_only] in Hm.
    assert (Hself : forall x, Ret (Ok (SToken a)) st = Ret r st' -> x = a -> speaks_well h st r st').
    { intros x Hr _. injection Hr as <- <-. apply well_same; auto. intros b [<-|[]]. exact Hn. }
    destruct f; cbn [map_ok complains_itself] in *; unfold modify in H.
    - destruct (HE h st Hh Hf Hw Hs) as (Hok & _). eapply Hok; eauto.
    - destruct (error_string E P _ _); [|discriminate]. injection H as <- <-. now apply well_none.
    - injection H as <- <-. now apply well_none.
    - destruct (Hm Logic.I). eapply error_token_at_well; eauto.
    - injection H as <- <-. now apply well_none.
    - injection H as <- <-. destruct (add_missing_kept l (tok st a)) as (K1 & K2 & K3).
      apply well_set; auto; [intros b [<-|[]]; reflexivity|lia|now rewrite K1].
    - injection H as <- <-. apply well_set; auto; [intros b [<-|[]]; reflexivity|lia].
    - destruct (attributes_of st a) as [l|]; [|discriminate]. injection H as <- <-.
      destruct (set_attrs_kept l (tok st a)) as (K1 & K2 & K3).
      apply well_set; auto; [intros b [<-|[]]; reflexivity|lia|now rewrite K1].
    - injection H as <- <-. apply well_set; auto; [intros b [<-|[]]; reflexivity|lia].
    - destruct (Hm Logic.I) as [He1 He2].
      destruct (attributes_of st a) as [l|]; [|discriminate].
      destruct (set_attrs_kept l (tok st a)) as (K1 & K2 & K3).
      assert (Hx : speaks_well h st (Ok (SToken a)) (set_tok st a (set_attrs l (tok st a)))).
      { apply well_set; auto; [intros b [<-|[]]; reflexivity|lia|now rewrite K1]. }
      assert (Hf1 : forest h (set_tok st a (set_attrs l (tok st a)))).
      { apply forest_set; auto. clear. generalize (tok st a). unfold set_attrs. induction l as [|kv l IH]; intros t; cbn [fold_left]; [reflexivity|]. now rewrite IH. }
      assert (Hz : heap_size st = heap_size (set_tok st a (set_attrs l (tok st a)))) by (now rewrite heap_size_set).
      set (st1 := set_tok st a (set_attrs l (tok st a))) in *. clearbody st1.
      pose proof Hx as (X1 & X2 & X3 & X4).
      destruct (get_attr "version" (tok st1 a)) as [v|].
      + destruct (parse_usize v).
        * injection H as <- <-. exact Hx.
        * destruct (version_attr l); [|discriminate]. eapply well_then; [|exact Hx|]; [lia|].
          eapply error_token_at_well; eauto.
      + eapply well_then; [|exact Hx|]; [lia|]. eapply error_token_at_well; eauto.
    - destruct (re (tk_mr (tok st a)) <? slen (p_src P)).
      + destruct (Hm Logic.I). destruct (src_slice P _ _); [|discriminate]. unfold error_token in H. eapply error_token_at_well; eauto.
      + now apply (Hself a).
    - destruct (find_child st (tok st a) "AdextopaScope"); [now apply (Hself a)|].
      destruct (find_child st (tok st a) "PatternScope"); [now apply (Hself a)|].
      destruct (Hm Logic.I). eapply error_token_at_well; eauto.
  Qed.
  Lemma map_err_well E P f m1 e c s h st r st' : polite E -> speaks (MMap m1 f) ->
    (h <= heap_size st)%nat -> forest h st -> well_named h st -> scopes_speak st ->
    map_err E P f e c s st = Ret r st' -> speaks_well h st r st'.
  Proof.
    intros HE Hm Hh Hf Hw Hs H. apply speaks_self in Hm. cbn [SpecNames.makes_only] in Hm.
    destruct (HE h st Hh Hf Hw Hs) as (_ & Herr & _ & _).
    destruct f, e; cbn [map_err complains_itself] in *;
      try (injection H as <- <-; now apply well_none);
      try (eapply Herr; now eauto).
    - destruct (error_string E P _ (c_off c)); [|discriminate]. injection H as <- <-. now apply well_none.
    - destruct (Hm Logic.I). unfold error_token in H. eapply error_token_at_well; eauto.
  Qed.

  Lemma error_tokens_marked st : forall f a l, error_tokens f st a = Some l ->
    forall x, In x l -> is_error (tok st x) = true.
  Proof.
    induction f as [|f IH]; intros a l H; [discriminate|]. cbn [error_tokens] in H.
    assert (Hi : forall x, In x (if is_error (tok st a) then [a] else []) -> is_error (tok st x) = true).
    { intros x Hx. destruct (is_error (tok st a)) eqn:E; [|destruct Hx]. now destruct Hx as [<-|[]]. }
    revert H Hi. generalize (if is_error (tok st a) then [a] else []) as acc.
    induction (tk_kids (tok st a)) as [|k ks IHk]; intros acc H Hi; cbn [fold_left] in H.
    - injection H as <-. exact Hi.
    - destruct (error_tokens f st k) as [lk|] eqn:Ek.
      + eapply IHk; [exact H|]. intros x Hx. apply in_app_iff in Hx as [Hx|Hx]; [auto|]. eapply IH; eauto.
      + exfalso. clear -H. induction ks as [|k' ks IH]; cbn [fold_left] in H; [discriminate|auto].
  Qed.

  Lemma skip_token_well E P start m1 a h st x st' : speaks (MDiscard m1) ->
    (h <= heap_size st)%nat -> forest h st -> well_named h st -> scopes_speak st ->
    (h <= a < heap_size st)%nat -> named st a ->
    skip_token E P start a st = Ret x st' -> speaks_well h st (Ok x) st'.
  Proof.
    intros Hm Hh Hf Hw Hs Ha Hn H. apply speaks_self in Hm. cbn [SpecNames.makes_only] in Hm.
    unfold skip_token in H. destruct (error_tokens _ _ _) as [errs|] eqn:Ee; [|discriminate].
    assert (Hk : forall k, In k errs -> ((h <= k < heap_size st)%nat /\ named st k) /\ err).
    { intros k Hk.
      assert (Q : (h <= k < heap_size st)%nat /\ named st k).
      { eapply (error_tokens_within st (fun k => (h <= k < heap_size st)%nat /\ named st k)); [|split; [exact Ha|exact Hn]|exact Ee|exact Hk].
        intros b [Hb Hbn] kk Hkk. split; [eapply forest_closed; eauto|]. exact (proj2 (Hw b Hb) kk Hkk). }
      split; [exact Q|]. apply (Hw k (proj1 Q)). exact (error_tokens_marked st _ _ _ Ee k Hk). }
    destruct (add_errors_kept P st errs (std_token P "Error" (mkR start (re (tk_mr (tok st a)))))) as (K1 & K2 & K3).
    set (t := add_errors P st errs (std_token P "Error" (mkR start (re (tk_mr (tok st a)))))) in *. clearbody t.
    assert (Hl : well_named h (alloc st t) /\ scopes_speak (alloc st t) /\ retains h st (alloc st t)).
    { split; [|split; [exact Hs|apply retains_alloc]]. apply wn_alloc; auto.
      - unfold SpecNames.marked_rightly, is_error. rewrite K2. cbn. discriminate.
      - rewrite K3. intros k Hin. now apply Hk. }
    destruct Hl as (L1 & L2 & L3). destruct errs as [|e0 errs].
    - destruct (isize_sub _ _ _); cbn [or_die] in H; [|discriminate]. injection H as <- <-.
      split; [exact L1|]. split; [exact L2|]. split; [exact L3|intros b []].
    - injection H as <- <-. split; [exact L1|]. split; [exact L2|]. split; [exact L3|].
      intros b [<-|[]]. apply named_new. rewrite K1. apply Hm. exact (proj2 (Hk e0 (or_introl eq_refl))).
  Qed.
  Lemma discard_well E P start m1 r h st r' st' : speaks (MDiscard m1) ->
    (h <= heap_size st)%nat -> forest h st -> well_named h st -> scopes_speak st ->
    (forall a, In a (result_tokens r) -> (h <= a < heap_size st)%nat /\ named st a) ->
    discard_result E P start r st = Ret r' st' -> speaks_well h st r' st'.
  Proof.
    intros Hm Hh Hf Hw Hs Hr H.
    assert (Hp : forall p x st1, (forall a, In a (success_tokens p) -> (h <= a < heap_size st)%nat /\ named st a) ->
      discard_payload E P start p st = Ret x st1 -> speaks_well h st (Ok x) st1).
    { intros p x st1 Hr1 H1. destruct p; cbn [discard_payload] in H1; try discriminate;
        try (injection H1 as <- <-; now apply well_none);
        (destruct (Hr1 a (or_introl eq_refl)); eapply skip_token_well; eauto). }
    destruct r as [x|e]; [|injection H as <- <-; now apply well_none].
    destruct x; cbn [discard_result] in H; try (injection H as <- <-; now apply well_none).
    - destruct (skip_token E P start a st) as [y st1|p|] eqn:Ey; try discriminate. injection H as <- <-.
      destruct (Hr a (or_introl eq_refl)). eapply skip_token_well; eauto.
    - destruct (skip_token E P start a st) as [y st1|p|] eqn:Ey; try discriminate. injection H as <- <-.
      destruct (Hr a (or_introl eq_refl)). eapply skip_token_well; eauto.
    - destruct (discard_payload E P start x st) as [y st1|p|] eqn:Ey; try discriminate. injection H as <- <-.
      exact (Hp x y st1 Hr Ey).
    - destruct (discard_payload E P start x st) as [y st1|p|] eqn:Ey; try discriminate. injection H as <- <-.
      exact (Hp x y st1 Hr Ey).
  Qed.

  Section ProgramNames.
    Variables (E : env) (P : parser) (rec : recT) (h : nat) (pt : addr) (st_s : state).
    Hypothesis Hsound : forall h, sound h rec.
    Hypothesis Hrec : speaking rec.
    Hypothesis Hpt : heap_size st_s = pt.
    Hypothesis Hh : (h <= pt)%nat.
    Hypothesis Hs : forest h st_s.

    Definition told (st : state) (ps : pst) : Prop :=
      stage pt st_s st ps /\ well_named h st /\ scopes_speak st /\
      (forall k, In k (ps_kids ps) -> named st k) /\ named st pt /\ retains h st_s st.

    Definition fresh (st : state) (l : list addr) : Prop := forall a, In a l -> (S pt <= a < heap_size st)%nat /\ named st a.

    Lemma add_token_told a fwd u ps st ps' st' : told st ps -> (S pt <= a < heap_size st)%nat -> named st a ->
      add_token P pt a fwd u ps st = Ret ps' st' ->
      told st' ps' /\ heap_size st' = heap_size st /\ (forall k, named st k -> named st' k).
    Proof.
      intros (Hst & Hw & Hsc & Hk & Hp & Hr) Ha Hn H. pose proof H as H'.
      apply (add_token_stage P h pt st_s Hpt Hh) in H' as [Hst' Hsz]; auto.
      unfold add_token in H.
      destruct (_ && _ && _ && _); [discriminate|]. injection H as <- <-.
      match type of Hst' with stage _ _ (set_tok _ _ ?t) _ => set (t1 := t) in * end.
      assert (Ht : tk_name t1 = tk_name (tok st a) /\ tk_flags t1 = tk_flags (tok st a) /\ tk_kids t1 = tk_kids (tok st a)).
      { unfold t1. destruct (_ && (rs _ =? re _)); auto. }
      clearbody t1. destruct Ht as (T1 & T2 & T3).
      assert (Hall : forall k, named st k -> named (set_tok st a t1) k).
      { intros k. apply named_set. now rewrite T1. }
      split; [|split; [exact Hsz|exact Hall]].
      split; [exact Hst'|]. split.
      - apply wn_set; auto; [now rewrite T1|unfold SpecNames.marked_rightly, is_error; now rewrite T2|rewrite T3; auto|lia].
      - split; [exact Hsc|]. split; [|split; [now apply Hall|intros b Hb Hnb; apply Hall; now apply Hr]].
        cbn [ps_kids]. intros k Hin. apply in_app_iff in Hin as [Hin|[<-|[]]]; auto.
    Qed.
    Lemma extract_told self u l : forall ps st ps' st', told st ps -> fresh st l ->
      extract_children P pt self u l ps st = Ret ps' st' -> told st' ps'.
    Proof.
      induction l as [|k l IH]; intros ps st ps' st' Hst Hl H; cbn [extract_children] in H.
      - injection H as <- <-. exact Hst.
      - destruct (should_discard (tok st k)).
        + eapply IH; [exact Hst| |exact H]. intros b Hb; apply Hl; now right.
        + destruct (Nat.eqb k self); [discriminate|].
          destruct (add_token P pt k false u ps st) as [ps1 st1|p|] eqn:Ea; try discriminate.
          destruct (Hl k (or_introl eq_refl)) as [K1 K2].
          destruct (add_token_told _ _ _ _ _ _ _ Hst K1 K2 Ea) as (Hst1 & Hsz & Hall).
          eapply IH; [exact Hst1| |exact H]. intros b Hb. rewrite Hsz.
          destruct (Hl b (or_intror Hb)). auto.
    Qed.
    Lemma told_kids st ps ps' : told st ps -> ps_kids ps' = ps_kids ps -> told st ps'.
    Proof.
      intros (T1 & T2 & T3 & T4 & T5 & T6) Hk. split; [eapply stage_kids; [exact T1|rewrite Hk; apply T1]|].
      split; [exact T2|]. split; [exact T3|]. split; [rewrite Hk; exact T4|]. split; [exact T5|exact T6].
    Qed.
    Lemma handle_extract_told a u ps st ps' st' : told st ps -> (S pt <= a < heap_size st)%nat ->
      handle_extract P pt a u ps st = Ret ps' st' -> told st' ps'.
    Proof.
      intros Hst Ha H. unfold handle_extract in H. eapply extract_told; [| |exact H].
      - eapply told_kids; [exact Hst|]. destruct (_ && _); reflexivity.
      - destruct Hst as (Hst & Hw & _). intros k Hk. split.
        + eapply (forest_closed (S pt) st); [apply Hst|exact Ha|exact Hk].
        + apply (Hw a); [lia|exact Hk].
    Qed.
    Lemma handle_skip_told start z ps st ps' st' : told st ps ->
      handle_skip E start z ps st = Ret ps' st' -> told st' ps'.
    Proof.
      intros Hst H. unfold handle_skip in H. destruct (or_die _ _); [|discriminate]. injection H as <- <-.
      eapply told_kids; eauto.
    Qed.
    Lemma handle_payload_told start p ps st ps' st' : told st ps -> fresh st (success_tokens p) ->
      handle_payload E P pt start p ps st = Ret ps' st' -> told st' ps'.
    Proof.
      intros Hst Hp H. destruct p; cbn [handle_payload] in H; try (injection H as <- <-; exact Hst).
      - unfold handle_token in H. destruct (Hp a (or_introl eq_refl)). eapply add_token_told; eauto.
      - destruct (Hp a (or_introl eq_refl)). eapply handle_extract_told; eauto.
      - eapply handle_skip_told; eauto.
    Qed.
    Lemma told_none st ps r : told st ps -> result_tokens r = [] -> speaks_well h st_s r st.
    Proof.
      intros (T1 & T2 & T3 & T4 & T5 & T6) Hr. split; [exact T2|]. split; [exact T3|]. split; [exact T6|].
      rewrite Hr. intros a [].
    Qed.
    Lemma told_fresh st ps r : told st ps -> fresh st (result_tokens r) -> speaks_well h st_s r st.
    Proof.
      intros (T1 & T2 & T3 & T4 & T5 & T6) Hr. split; [exact T2|]. split; [exact T3|]. split; [exact T6|].
      intros a Ha. now apply Hr.
    Qed.
    Lemma finalize_well i ps count strict st r st' : told st ps ->
      finalize P i pt ps count strict st = Ret r st' -> speaks_well h st_s r st'.
    Proof.
      intros Ht H. pose proof Ht as (T1 & T2 & T3 & T4 & T5 & T6).
      assert (Hc : (if (rs (ps_cr ps) =? usize_max) || (rs (ps_mr ps) =? usize_max) then Ret (Err FFail) st
        else match ps_kids ps with
             | [] => Ret (Err FFail) st
             | _ => Ret (Ok (SToken pt))
                      (modify st pt (fun t => set_mr P (ps_mr ps) (set_cr P (ps_cr ps) (set_kids (ps_kids ps) t))))
             end) = Ret r st' -> speaks_well h st_s r st').
      { clear H. intros H. destruct (_ || _); [injection H as <- <-; now apply (told_none _ ps)|].
        destruct (ps_kids ps) as [|k ks] eqn:Ek; injection H as <- <-; [now apply (told_none _ ps)|].
        rewrite <- Ek in *. unfold modify.
        assert (Hall : forall b, named st b -> named (set_tok st pt (set_mr P (ps_mr ps) (set_cr P (ps_cr ps) (set_kids (ps_kids ps) (tok st pt))))) b).
        { intros b. now apply named_set. }
        split; [apply wn_set; auto|]. split; [exact T3|].
        split; [intros b Hb Hn; apply Hall; now apply T6|]. intros b [<-|[]]. now apply Hall. }
      unfold finalize in H. destruct strict; [|now apply Hc].
      destruct (pi_iter i) as [[lo hi]|]; [|now apply Hc].
      destruct (_ && _ && _); [injection H as <- <-; now apply (told_none _ ps)|].
      destruct (count <? lo); [injection H as <- <-; now apply (told_none _ ps)|]. now apply Hc.
    Qed.

    Lemma rec_told m c s ps st r st1 : told st ps -> Sc s -> Sc (c_scope c) -> speaks m -> rec m c s st = Ret r st1 ->
      told st1 ps /\ fresh st1 (result_tokens r).
    Proof.
      intros (Hst & T2 & T3 & T4 & T5 & T6) Hss Hcs Hm Er. pose proof Er as Er2. pose proof Hst as (S1 & S2 & S3 & S4 & S5).
      apply (Hsound (S pt)) in Er2 as (P1 & P2 & P3); [|lia|exact S2].
      eapply (Hrec h) in Er as (R1 & R2 & R3 & R4); eauto; [|lia|exact (stage_forest h pt st_s Hpt Hh Hs st ps Hst)].
      split; [|intros a Ha; auto]. split; [eapply stage_below; eauto|]. split; [exact R1|]. split; [exact R2|].
      split; [intros k Hk; apply R3; auto; specialize (S5 k Hk); lia|].
      split; [apply R3; auto; lia|]. eapply retains_trans; [|exact T6|exact R3]. lia.
    Qed.

    Definition pass_told (k : ctl) (ps : pst) (st : state) : Prop :=
      match k with
      | CDone => told st ps
      | CAct x => told st ps /\ fresh st (success_tokens x)
      | CRet r => speaks_well h st_s r st
      end.

    Lemma run_patterns_told i c s start count pats : Sc s -> Sc (c_scope c) -> (forall m, In m pats -> speaks m) ->
      forall ps st k ps' st', told st ps ->
      run_patterns E P rec i c s pt start count pats ps st = Ret (k, ps') st' -> pass_told k ps' st'.
    Proof.
      intros Hss Hcs. induction pats as [|m pats IH]; intros Hm ps st k ps' st' Hst H; cbn [run_patterns] in H.
      - injection H as <- <- <-. exact Hst.
      - specialize (IH (fun x Hx => Hm x (or_intror Hx))). pose proof (Hm m (or_introl eq_refl)) as Hm1.
        destruct (rec m _ s st) as [r st1|p|] eqn:Er; try discriminate.
        apply (rec_told _ _ _ _ _ _ _ Hst Hss) in Er; [|exact Hcs|exact Hm1]. clear Hst st. destruct Er as [Hst1 Hr].
        assert (Hret : forall r0, result_tokens r0 = [] -> speaks_well h st_s r0 st1) by (intros r0; now apply (told_none st1 ps)).
        destruct r as [[a|a|z|nm p|nm p| |]|e]; cbn [result_tokens success_tokens] in Hr.
        + destruct (should_discard (tok st1 a)); [eapply IH; [|exact H]; assumption|].
          destruct (pi_stop i); [injection H as <- <- <-; now apply (told_fresh st1 ps)|].
          unfold handle_token in H.
          destruct (add_token P pt a _ _ ps st1) as [ps2 st2|p|] eqn:Ea; try discriminate.
          destruct (Hr a (or_introl eq_refl)) as [R1 R2].
          apply (add_token_told _ _ _ _ _ _ _ Hst1 R1 R2) in Ea as [Ea _]. eapply IH; [exact Ea|exact H].
        + destruct (should_discard (tok st1 a)); [eapply IH; [|exact H]; assumption|].
          destruct (pi_stop i); [injection H as <- <- <-; now apply (told_fresh st1 ps)|].
          destruct (handle_extract P pt a _ ps st1) as [ps2 st2|p|] eqn:Ea; try discriminate.
          destruct (Hr a (or_introl eq_refl)) as [R1 R2].
          apply (handle_extract_told _ _ _ _ _ _ Hst1 R1) in Ea. eapply IH; [exact Ea|exact H].
        + destruct (_ && _); [injection H as <- <- <-; now apply Hret|].
          destruct (m_consuming m); [|eapply IH; [|exact H]; assumption].
          destruct (handle_skip E start z ps st1) as [ps2 st2|p|] eqn:Ea; try discriminate.
          apply (handle_skip_told _ _ _ _ _ _ Hst1) in Ea. eapply IH; [exact Ea|exact H].
        + injection H as <- <- <-. split; assumption.
        + injection H as <- <- <-. split; assumption.
        + injection H as <- <- <-. split; assumption.
        + injection H as <- <- <-. split; assumption.
        + destruct (dbg E P _ 10); [|discriminate]. destruct e.
          * destruct (pi_stop i); [eapply IH; [|exact H]; assumption|]. destruct (pi_iter i).
            -- destruct (finalize P i pt ps count false st1) as [x st2|p0|] eqn:Ef; try discriminate.
               injection H as <- <- <-. cbn. eapply finalize_well; eauto.
            -- injection H as <- <- <-. now apply Hret.
          * injection H as <- <- <-. now apply Hret.
    Qed.

    Lemma iterate_well pats i c s start : Sc s -> Sc (c_scope c) -> (forall m, In m pats -> speaks m) ->
      forall f left count ps st r st', told st ps ->
      iterate f E P rec pats i c s pt start left count ps st = Ret r st' -> speaks_well h st_s r st'.
    Proof.
      intros Hss Hcs Hm.
      induction f as [|f IH]; intros left count ps st r st' Hst H; cbn [iterate] in H.
      - destruct (left =? 0); [|discriminate]. eapply finalize_well; eauto.
      - destruct (left =? 0); [eapply finalize_well; eauto|].
        destruct (run_patterns _ _ _ _ _ _ _ _ _ _ _ _) as [[k ps1] st1|p|] eqn:Er; try discriminate.
        apply run_patterns_told in Er; auto. destruct k as [|x|r0]; cbn [pass_told] in Er.
        + eapply IH; [|exact H]; assumption.
        + destruct Er as [Er Hx].
          destruct x as [a|a|z|nm p|nm p| |]; try discriminate; cbn [success_tokens] in Hx.
          * destruct (pi_stop i); [injection H as <- <-; now apply (told_fresh st1 ps1)|].
            destruct (handle_payload E P pt start p ps1 st1) as [ps2 st2|q|] eqn:Eh; try discriminate.
            apply handle_payload_told in Eh; [|exact Er|exact Hx].
            destruct (finalize P i pt ps2 count false st2) as [y st3|q|] eqn:Ef; try discriminate.
            eapply finalize_well in Ef; [|exact Eh].
            destruct (is_target i nm); [injection H as <- <-; exact Ef|].
            destruct y; injection H as <- <-; exact Ef.
          * destruct (pi_stop i); [injection H as <- <-; now apply (told_fresh st1 ps1)|].
            destruct (handle_payload E P pt start p ps1 st1) as [ps2 st2|q|] eqn:Eh; try discriminate.
            apply handle_payload_told in Eh; [|exact Er|exact Hx].
            destruct (is_target i nm); [eapply IH; [|exact H]; assumption|]. eapply finalize_well; eauto.
          * eapply finalize_well; eauto.
        + injection H as <- <-. exact Er.
    Qed.
  End ProgramNames.

  (* ---------- all matchers ---------- *)

  Lemma fetched_speaks st s f m : Sc s -> scopes_speak st -> fetch_value st s f = Val (GMatcher m) ->
    (forall x, f = FMatcher x -> speaks x) -> speaks m.
  Proof.
    intros Hs Hsc H Hf. destruct f as [v|n|x]; cbn [fetch_value] in H; [discriminate| |injection H as <-; now apply Hf].
    destruct (sc_get st s (hd [] (split "." n))) as [[a|v|x]|] eqn:Eg; try discriminate.
    - destruct (split "." n) as [|? [|? [|? ?]]]; try discriminate. destruct (fetch_token _ _ _); discriminate.
    - destruct (split "." n) as [|? [|? ?]]; discriminate.
    - injection H as <-. eapply speak_get; eauto.
  Qed.

  Lemma step_speaking E P rec fuel : tame E -> polite E -> (forall h, sound h rec) -> speaking rec -> speaking (step fuel E P rec).
  Proof.
    intros HT HE Hsound Hrec h m c s st0 r st' Hh0 Hf0 Hw0 Hs0 Hss Hcs Hm H.
    unfold step in H.
    assert (Hh : (h <= heap_size (before_exec m s st0))%nat) by (now rewrite before_size).
    assert (Hf : forest h (before_exec m s st0)) by (eapply forest_heap; [apply before_heap|exact Hf0]).
    assert (Hw : well_named h (before_exec m s st0)) by (eapply wn_heap; [apply before_heap|exact Hw0]).
    assert (Hs : scopes_speak (before_exec m s st0)) by (now apply before_speak).
    enough (speaks_well h (before_exec m s st0) r st') as (R1 & R2 & R3 & R4).
    { split; [exact R1|]. split; [exact R2|]. split; [|exact R4]. intros a Ha Hn. apply R3; [now rewrite before_size|].
      eapply named_heap; [apply before_heap|exact Hn]. }
    set (st := before_exec m s st0) in *. clearbody st. clear Hh0 Hf0 Hw0 Hs0 st0.
    assert (Hin : forall m1 c1 s1 r0 st1, speaks m1 -> Sc s1 -> c_scope c1 = c_scope c -> rec m1 c1 s1 st = Ret r0 st1 ->
       speaks_well h st r0 st1 /\ (h <= heap_size st1)%nat /\ forest h st1 /\ (heap_size st <= heap_size st1)%nat /\
       (forall a, In a (result_tokens r0) -> (h <= a < heap_size st1)%nat)).
    { intros m1 c1 s1 r0 st1 Hm1 Hs1 Hc1 E1. split; [rewrite <- Hc1 in Hcs; exact (Hrec h _ _ _ _ _ _ Hh Hf Hw Hs Hs1 Hcs Hm1 E1)|]. apply (Hsound h) in E1; auto.
      split; [eapply stays_size; eauto|]. split; [apply E1|]. split; [apply E1|apply E1]. }
    pose proof (speaks_self _ Hm) as Hself. pose proof (speaks_part m) as Hpart.
    destruct m as [pats i|p name cust|f name cust|fs fe fx name cust|m1|m1|m1| |msg|msg|nm|m1 k|m1 f
                  |om off name cust|p name cust|name|ms|t name cust|o m1|m1 name cust|m1|om d|k name cust cons];
      cbn [m_name m_custom SpecNames.makes_only parts] in H, Hself, Hpart.
    - (* MProgram *)
      unfold exec_program in H.
      set (pt := next_addr st) in *. set (t0 := std_token P (pi_name i) blank_range) in *.
      assert (Hpt : heap_size st = pt) by reflexivity.
      eapply (iterate_well E P rec h pt st Hsound Hrec Hpt); [lia|exact Hf|exact Hss| | | |exact H]; [exact Hcs|..].
      + intros x Hx. now apply (Hpart x).
      + assert (Hno : forall a, ~ (S pt <= a < heap_size (alloc st t0))%nat).
        { intros a Ha. rewrite heap_size_alloc in Ha. lia. }
        split.
        * split; [rewrite heap_size_alloc; lia|]. split.
          -- intros a Ha. exfalso. eapply Hno; eauto.
          -- split; [intros a Ha; apply tok_alloc_old; unfold heap_size in *; lia|].
             split; [unfold pt; now rewrite tok_alloc_new|intros ? []].
        * split; [apply wn_alloc; auto; [discriminate|intros ? []]|]. split; [exact Hs|]. split; [intros ? []|].
          split; [now apply named_new|apply retains_alloc].
    - (* MEquals *)
      destruct (fetch_value st s p) as [[v|m1]|]; [| |discriminate].
      + destruct (matches_str P _ v) as [r0|]; [|discriminate].
        destruct (dbg E P _ 10); [|discriminate].
        destruct r0; injection H as <- <-; [|now apply well_none]. apply well_alloc; auto. discriminate.
      + injection H as <- <-. now apply well_none.
    - (* MMatches *)
      destruct (matches_regexp P _ f) as [r0|]; [|discriminate]. destruct r0 as [r0|].
      + destruct (rs r0 =? re r0).
        * destruct (dbg E P _ 10); [|discriminate]. injection H as <- <-. now apply well_none.
        * injection H as <- <-. apply well_alloc; auto. discriminate.
      + destruct (dbg E P _ 10); [|discriminate]. injection H as <- <-. now apply well_none.
    - (* MSequence *)
      unfold exec_sequence in H.
      repeat match type of H with
      | (let! _ := ?x in _) = _ => destruct x; [|discriminate]
      | (match ?x with _ => _ end) = _ => destruct x
      end; try discriminate;
        try (injection H as <- <-; now apply well_none);
        try (injection H as <- <-; apply well_alloc; auto; discriminate).
    - (* MNot *)
      destruct (rec m1 _ s st) as [r0 st1|p|] eqn:E1; try discriminate.
      apply Hin in E1 as (H1 & _); [|apply (Hpart m1 Hm); now left|assumption|reflexivity].
      destruct r0 as [[a|a|z|b q|b q| |]|[|e]]; try destruct (z =? 0)%Z; injection H as <- <-;
        (eapply well_result; [exact H1|]); cbn; auto; intros ? [].
    - (* MOptional *)
      destruct (rec m1 _ s st) as [r0 st1|p|] eqn:E1; try discriminate.
      apply Hin in E1 as (H1 & _); [|apply (Hpart m1 Hm); now left|assumption|reflexivity].
      destruct r0 as [x|[|e]]; injection H as <- <-; (eapply well_result; [exact H1|]); cbn; auto; intros ? [].
    - (* MDiscard *)
      destruct (rec m1 _ s st) as [r0 st1|p|] eqn:E1; try discriminate.
      apply Hin in E1 as (H1 & H2 & H3 & H4 & H5); [|apply (Hpart m1 Hm); now left|assumption|reflexivity].
      eapply well_then; [exact H4|exact H1|]. pose proof H1 as (X1 & X2 & X3 & X4).
      eapply discard_well; eauto.
    - injection H as <- <-. now apply well_none.
    - (* MPanic *)
      destruct (error_string E P msg _); [|discriminate]. injection H as <- <-. now apply well_none.
    - unfold error_token in H. destruct Hself. eapply error_token_at_well; eauto.
    - injection H as <- <-. now apply well_none.
    - (* MCatch *)
      destruct (rec m1 _ s st) as [r0 st1|p|] eqn:E1; try discriminate.
      apply Hin in E1 as (H1 & H2 & H3 & H4 & H5); [|apply (Hpart m1 Hm); now left|assumption|reflexivity].
      destruct r0 as [x|e]; [injection H as <- <-; exact H1|].
      eapply well_then; [exact H4|exact H1|]. pose proof H1 as (X1 & X2 & X3 & X4).
      destruct (HE h st1 H2 H3 X1 X2) as (_ & _ & Hc & _). eapply Hc; eauto.
    - (* MMap *)
      destruct (rec m1 _ s st) as [r0 st1|p|] eqn:E1; try discriminate.
      apply Hin in E1 as (H1 & H2 & H3 & H4 & H5); [|apply (Hpart m1 Hm); now left|assumption|reflexivity].
      pose proof H1 as (X1 & X2 & X3 & X4).
      destruct r0 as [[a|a|z|b q|b q| |]|e]; try (injection H as <- <-; exact H1).
      + eapply well_then; [exact H4|exact H1|]. eapply map_ok_well; eauto; [apply H5|apply X4]; now left.
      + eapply well_then; [exact H4|exact H1|]. eapply map_ok_well; eauto; [apply H5|apply X4]; now left.
      + eapply well_then; [exact H4|exact H1|]. eapply map_err_well; eauto.
    - (* MPin *)
      destruct (fetch_value st s off) as [[v|m2]|]; [| |discriminate].
      + destruct (pin_context E _ v) as [c1|] eqn:Ec; [|discriminate]. destruct om as [m1|].
        * apply Hin in H as (H1 & _); [exact H1|apply (Hpart m1 Hm); now left|assumption|].
          clear -Ec. unfold pin_context in Ec. destruct (parse_offset E _ _ _); [|discriminate].
          destruct (split ".." v) as [|p0 [|p1 ps]]; try (injection Ec as <-; reflexivity).
          destruct (parse_offset E _ _ p1); [|discriminate]. now injection Ec as <-.
        * injection H as <- <-. apply well_alloc; auto. discriminate.
      + injection H as <- <-. now apply well_none.
    - (* MStore *)
      destruct p as [m1|v].
      + destruct (rec m1 _ s st) as [r0 st1|p|] eqn:E1; try discriminate.
        apply Hin in E1 as (H1 & H2 & H3 & H4 & H5); [|apply (Hpart m1 Hm); now left|assumption|reflexivity].
        destruct r0 as [[a|a|z|b q|b q| |]|e]; injection H as <- <-; try exact H1.
        pose proof H1 as (X1 & X2 & X3 & X4). split; [exact X1|]. split; [apply speak_set; auto; discriminate|].
        split; [exact X3|exact X4].
      + injection H as <- <-. split; [exact Hw|]. split; [apply speak_set; auto; discriminate|].
        split; [now apply retains_heap|intros ? []].
    - injection H as <- <-. now apply well_none.
    - (* MRegister *)
      injection H as <- <-.
      assert (Hms : forall x, In x ms -> speaks x) by (intros x Hx; exact (Hpart x Hm Hx)). clear Hm Hpart Hin Hself.
      assert (Hfold : forall l st, (forall x, In x l -> speaks x) -> scopes_speak st ->
        scopes_speak (fold_left (fun st m => sc_set st s (m_name m) (VMatcher m)) l st) /\
        st_heap (fold_left (fun st m => sc_set st s (m_name m) (VMatcher m)) l st) = st_heap st).
      { clear. induction l as [|x l IH]; intros st Hl Hs; cbn [fold_left]; [auto|].
        destruct (IH (sc_set st s (m_name x) (VMatcher x))) as [A B].
        - intros y Hy. apply Hl. now right.
        - apply speak_set; auto. intros m Hx. injection Hx as <-. apply Hl. now left.
        - split; [exact A|]. now rewrite B. }
      destruct (Hfold ms st Hms Hs) as [A B].
      split; [eapply wn_heap; [exact B|exact Hw]|]. split; [exact A|]. split; [now apply retains_heap|intros ? []].
    - (* MRef *)
      destruct (fetch_value st s t) as [[v|m1]|] eqn:Eg; [| |discriminate].
      + destruct (sc_get st s v) as [[ | |m1]|] eqn:Ev; try (injection H as <- <-; now apply well_none).
        apply Hin in H as (H1 & _); [exact H1| |assumption|reflexivity]. exact (speak_get _ _ _ _ Hss Hs Ev).
      + apply Hin in H as (H1 & _); [exact H1| |assumption|reflexivity].
        refine (fetched_speaks _ _ _ _ Hss Hs Eg _). intros x ->. apply (Hpart x Hm). now left.
    - (* MSetScope *)
      destruct o as [s1|].
      + apply Hin in H as (H1 & _); [exact H1|apply (Hpart m1 Hm); now left|exact Hself|reflexivity].
      + destruct (rec m1 _ (c_scope c) (sc_push st (c_scope c))) as [r0 st1|p|] eqn:E1; try discriminate.
        injection H as <- <-.
        apply (Hrec h) in E1 as (X1 & X2 & X3 & X4);
          [|exact Hh|eapply forest_heap; [|exact Hf]; reflexivity|exact Hw|now apply speak_push|exact Hcs|exact Hcs|apply (Hpart m1 Hm); now left].
        split; [exact X1|]. split; [now apply speak_pop|]. split; [exact X3|exact X4].
    - (* MProxy *)
      destruct (rec m1 _ s st) as [r0 st1|p|] eqn:E1; try discriminate.
      apply Hin in E1 as (H1 & _); [|apply (Hpart m1 Hm); now left|assumption|reflexivity].
      destruct r0 as [[a|a|z|b q|b q| |]|e]; try destruct q; injection H as <- <-; exact H1.
    - (* MExpand *)
      destruct (rec m1 _ s st) as [r0 st1|p|] eqn:E1; try discriminate.
      apply Hin in E1 as (H1 & H2 & H3 & H4 & H5); [|apply (Hpart m1 Hm); now left|assumption|reflexivity].
      pose proof H1 as (X1 & X2 & X3 & X4).
      destruct r0 as [[a|a|z|b q|b q| |]|e]; try (injection H as <- <-; exact H1).
      + injection H as <- <-. eapply well_then; [exact H4|exact H1|].
        split; [apply wn_alloc; [exact H3|discriminate| |exact X1]|].
        { intros k [<-|[]]. split; [apply H5; now left|apply X4; now left]. }
        split; [exact X2|]. split; [apply retains_alloc|]. intros b [<-|[]]. now apply named_new.
      + injection H as <- <-. eapply well_then; [exact H4|exact H1|]. unfold modify.
        apply well_set; auto; [intros b [<-|[]]; reflexivity|apply X4; now left|apply H5; now left].
    - (* MDebug *)
      destruct om as [m1|].
      + destruct (debug_range E P _ 10); [|discriminate].
        apply Hin in H as (H1 & _); [exact H1|apply (Hpart m1 Hm); now left|assumption|reflexivity].
      + destruct (debug_range E P _ 10); [|discriminate]. injection H as <- <-. now apply well_none.
    - (* MUser *)
      destruct (HE h st Hh Hf Hw Hs) as (_ & _ & _ & Hu). eapply Hu; eauto.
  Qed.

  Lemma exec_speaking E P : tame E -> polite E -> forall n, speaking (exec n E P).
  Proof.
    intros HT HE. induction n as [|n IH]; [intros h m c s st r st' _ _ _ _ _ _ _ H; discriminate|].
    cbn [exec]. apply step_speaking; auto. intros h. now apply exec_sound.
  Qed.
  Lemma runs_speak E P m c s st r st' : tame E -> polite E -> scopes_speak st -> Sc s -> Sc (c_scope c) -> speaks m ->
    Runs E P m c s st r st' -> speaks_well (heap_size st) st r st'.
  Proof. intros HT HE H1 H2 H3 H4 [n H]. exact (exec_speaking E P HT HE n _ m c s st r st' (Nat.le_refl _) (forest_top st) (wn_top st) H1 H2 H3 H4 H). Qed.

  (* every token of the result, and every token below it *)
  Lemma tree_named h st : forest h st -> well_named h st -> forall l0 l, preorder st l0 l ->
    (forall a, In a l0 -> (h <= a < heap_size st)%nat /\ named st a) ->
    forall x, In x l -> named st x /\ marked_rightly (tok st x).
  Proof.
    intros Hf Hw l0 l Hp. induction Hp as [|a rest kids l H1 IH1 H2 IH2]; intros Ha x Hx; [destruct Hx|].
    destruct (Ha a (or_introl eq_refl)) as [A1 A2].
    destruct Hx as [<-|Hx]; [split; [exact A2|apply (Hw a A1)]|].
    apply in_app_iff in Hx as [Hx|Hx].
    - apply IH1; [|exact Hx]. intros k Hk. split; [exact (forest_closed _ _ Hf a A1 k Hk)|exact (proj2 (Hw a A1) k Hk)].
    - apply IH2; [|exact Hx]. intros k Hk. apply Ha. now right.
  Qed.
  Lemma runs_named E P m c s st r st' : tame E -> polite E -> scopes_speak st -> Sc s -> Sc (c_scope c) -> speaks m ->
    Runs E P m c s st r st' ->
    forall a l x, In a (result_tokens r) -> preorder st' [a] l -> In x l ->
    Nm (tk_name (tok st' x)) /\ (is_error (tok st' x) = true -> err).
  Proof.
    intros HT HE H1 H2 H3 H4 H a l x Ha Hl Hx.
    destruct (runs_speak _ _ _ _ _ _ _ _ HT HE H1 H2 H3 H4 H) as (R1 & _ & _ & R4).
    apply runs_frame in H as (_ & F1 & F2); [|exact HT].
    eapply tree_named; [exact F1|exact R1|exact Hl| |exact Hx]. intros b [<-|[]]. auto.
  Qed.
  Lemma tokenized_named E P m c st a st' : tame E -> tidy E -> polite E -> scopes_speak st -> Sc (c_scope c) -> speaks m ->
    Tokenizes E P c m st (TOk a) st' ->
    forall l x, preorder st' [a] l -> In x l -> Nm (tk_name (tok st' x)) /\ (is_error (tok st' x) = true -> err).
  Proof.
    intros HT Ht HE H1 H3 H4 H l x Hl Hx. destruct (tokenize_hoists _ _ _ _ _ _ _ HT Ht H) as
      (y & st1 & l1 & Hr & Hy & Hl1 & Hn & Hh & _ & _ & l' & Hl' & Hperm).
    rewrite (preorder_det _ _ _ Hl _ Hl') in Hx. apply (Permutation_in _ (Permutation_sym Hperm)) in Hx.
    pose proof (runs_named _ _ _ _ _ _ _ _ HT HE H1 H3 H3 H4 Hr a l1 x (root_result y a Hy) Hl1 Hx) as Hw.
    enough (exists k, tok st' x = set_kids k (tok st1 x)) as [k ->] by exact Hw.
    destruct Hh as (_ & _ & l2 & errs & Hp & Hne & Hr1 & Hl2 & Ho).
    destruct (Nat.eq_dec x a) as [->|Hxa]; [eauto|].
    destruct (in_dec Nat.eq_dec x l2) as [Hb|Hb]; [rewrite (Hl2 x Hb); eauto|].
    exists (tk_kids (tok st1 x)). rewrite Ho by auto. now destruct (tok st1 x).
  Qed.
End Names.
