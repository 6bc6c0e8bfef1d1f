(* What scripts are parsed into, and why compiling them can panic. *)
From Verif Require Import ScriptBuild Spec SpecMore SpecScript Utf8Proofs FrameProofs TokenizeProofs TreeProofs ScriptProofs CompileProofs
  SpecGuard GuardProofs GuardEnds GuardScript GuardCompile SpecRefused ShapeProofs ShapeScript SpecSyntax SpecLex SpecShape.
Open Scope string_scope.
Open Scope list_scope.
Open Scope N_scope.

Section Parsed.
  Variables (E : env) (P : parser).
  Hypothesis HE : tame E.
  Hypothesis HT : tidy E.
  Notation L := (slen (p_src P)).
  Hypothesis Hlen : L < isize_bound.
  Hypothesis Hascii : ascii_only (p_src P).
  Notation body := (script_body E).
  Notation Sh := (shape_in (p_src P)).
  Notation Lx := (lexed (p_src P)).

  Lemma start_valid name st : valid_scope (script_start E P name st) (next_sid st).
  Proof.
    unfold script_start, script_ctx, context_new, register_all, register, register_named. cbn [fst snd c_scope fold_left].
    apply valid_set, valid_set. unfold valid_scope, sc_new, next_sid. cbn. rewrite app_length. cbn. lia.
  Qed.
  Lemma start_there name st n b : script_body E n = Some b -> exists m, sc_get (script_start E P name st) (next_sid st) n = Some (VMatcher m).
  Proof.
    assert (V : valid_scope (sc_new st) (next_sid st)).
    { unfold valid_scope, sc_new, next_sid. cbn. rewrite app_length. cbn. lia. }
    unfold script_start, script_ctx, context_new, register_all, register, register_named, script_body. cbn [fst snd c_scope fold_left]. intros Hb.
    destruct (str_eqb n "SwitchMatcher") eqn:E1.
    - apply str_eqb_eq in E1 as ->. rewrite get_set_other by (right; discriminate). rewrite get_set_same by exact V. eauto.
    - destruct (str_eqb n "ProgramMatcher") eqn:E2; [|discriminate]. apply str_eqb_eq in E2 as ->. rewrite get_set_same by now apply valid_set. eauto.
  Qed.
  Lemma script_exec n name st :
    ShapeProofs.ends P body Sh Lx (said_unquoted P) false Lax (fun o => tok_in ["Script"] o \/ o = OTok true "Error" [] false) 0 (next_sid st)
      (heap_size (script_start E P name st)) (exec n E P (Script_ E) (script_ctx P name st) (next_sid st) (script_start E P name st)).
  Proof.
    apply (script_sem E P HE Hlen Hascii n (script_ctx P name st) (next_sid st) (script_start E P name st)).
    - split; [apply start_known|]. split; [apply start_valid|apply start_there].
    - unfold good, script_ctx, context_new. cbn. split; [lia|]. split; reflexivity.
  Qed.

  (* what a fatal error of the grammar says *)
  Lemma tokenize_says n name st e st1 :
    tokenize n E P (script_ctx P name st) (Script_ E) (script_start E P name st) = Ret (TErr (FError e)) st1 -> said_unquoted P e.
  Proof.
    pose proof (script_exec n name st) as H. unfold tokenize. change (c_scope (script_ctx P name st)) with (next_sid st).
    destruct (exec n E P (Script_ E) _ _ _) as [r st2|q|]; [|discriminate..].
    assert (Hf : forall a, finish_token a st2 <> Ret (TErr (FError e)) st1) by (intros a; unfold finish_token; destruct (collect_errors a st2); discriminate).
    destruct r as [[a|a|z|nm y|nm y| |]|x]; try discriminate; try (intros Hx; now apply Hf in Hx); try (destruct y; try discriminate; intros Hx; now apply Hf in Hx).
    intros Hx. injection Hx as -> _. apply H.
  Qed.

  (* C82 *)
  Lemma tokenize_safe n name st p : tokenize n E P (script_ctx P name st) (Script_ E) (script_start E P name st) <> Pan p.
  Proof.
    pose proof (script_exec n name st) as H. unfold tokenize. change (c_scope (script_ctx P name st)) with (next_sid st).
    destruct (exec n E P (Script_ E) _ _ _) as [r st1|q|]; [|destruct H|discriminate].
    assert (Hf : forall a, finish_token a st1 <> Pan p) by (intros a; unfold finish_token; destruct (collect_errors a st1); discriminate).
    destruct r as [[a|a|z|nm y|nm y| |]|e]; try discriminate; auto; destruct y; try discriminate; auto.
  Qed.

  (* ---------- shapes ---------- *)

  Lemma slot_names name slots : In (name, slots) script_tree -> forall ks, follows slots ks -> forall n, In n ks -> ~ In n helpers.
  Proof.
    assert (Hall : Forall (fun x => Forall (fun s => match s with Exactly ns | Perhaps ns | Any ns => Forall (fun n => ~ In n helpers) ns end) (snd x)) script_tree).
    { repeat constructor; intros H; cbn in H; repeat destruct H as [H|H]; try discriminate; exact H. }
    intros Hin. rewrite Forall_forall in Hall. specialize (Hall _ Hin). cbn [snd] in Hall. clear Hin.
    induction slots as [|s slots IH]; intros ks Hf n Hn; cbn [follows] in Hf; [subst; destruct Hn|].
    inversion Hall as [|? ? H1 H2]; subst. specialize (IH H2). destruct s as [ns|ns|ns]; rewrite Forall_forall in H1.
    - destruct Hf as (x & k & Hx & -> & Hf). destruct Hn as [<-|Hn]; [auto|eauto].
    - destruct Hf as [Hf|(x & k & Hx & -> & Hf)]; [eauto|]. destruct Hn as [<-|Hn]; [auto|eauto].
    - destruct Hf as (k1 & k2 & -> & Hk & Hf). rewrite Forall_forall in Hk. apply in_app_or in Hn as [Hn|Hn]; [auto|eauto].
  Qed.
  Lemma label_names name ks : script_shape name ks -> forall n, In n ks -> ~ In n helpers.
  Proof. intros [(slots & Hin & Hf)|[_ ->]] n Hn; [eapply slot_names; eauto|destruct Hn]. Qed.

  (* before the errors are collected *)
  Definition placed (st : state) (a : addr) : Prop :=
    (rs (tk_mr (tok st a)) <= L /\ re (tk_mr (tok st a)) <= L) /\ evident (p_src P) (tk_name (tok st a)) /\
    (In (tk_name (tok st a)) script_leaves -> written P st a).
  Definition fine (st : state) (a : addr) : Prop :=
    well_shaped st a /\ (is_error (tok st a) = false -> placed st a).
  Lemma shaped_fine h st a : orderly h st -> (h <= a < heap_size st)%nat -> ShapeProofs.shaped P Sh Lx st a ->
    (is_error (tok st a) = false -> ~ In (tk_name (tok st a)) helpers) -> fine st a.
  Proof.
    intros Ho Ha (_ & H1 & H2) Hn. unfold fine, well_shaped, placed. destruct (is_error (tok st a)) eqn:He.
    - destruct H2 as (_ & H2 & H3). split; [|discriminate]. split; [exact H3|]. split; [exact H2|]. now apply (Ho a Ha).
    - destruct H2 as (H2 & H3 & HX). specialize (Hn eq_refl). destruct H3 as [H3|(H3 & _ & H5 & H4)]; [contradiction|]. split; [now rewrite labels_kinds|].
      intros _. split; [auto|]. split; [exact H4|]. intros Hl. specialize (H5 Hl). apply map_eq_nil in H5. destruct (HX H5) as [H6|(pre & t & post & H6)]; [contradiction|].
      exists pre, t, post. exact H6.
  Qed.
  Lemma fine_below h st a l : forest h st -> orderly h st -> ShapeProofs.neat P Sh Lx h st -> (h <= a < heap_size st)%nat -> fine st a ->
    preorder st [a] l -> forall b, In b l -> fine st b.
  Proof.
    intros Hf Ho Hn Ha Hfa Hp b Hb.
    enough (H : (h <= b < heap_size st)%nat /\ fine st b) by apply H.
    revert b Hb. apply (preorder_within st (fun b => (h <= b < heap_size st)%nat /\ fine st b) [a] l Hp).
    - intros x [Hx [Hw _]] k Hk. assert (Hkx : (h <= k < heap_size st)%nat) by (eapply forest_closed; eauto). split; [exact Hkx|].
      apply (shaped_fine h); [exact Ho|exact Hkx|apply (Hn x); [lia|exact Hk]|].
      intros He. unfold well_shaped in Hw. destruct (is_error (tok st x)); [destruct Hw as (_ & _ & Hw); rewrite Hw in Hk; destruct Hk|].
      eapply label_names; [exact Hw|]. unfold labels. apply in_map_iff. exists k. split; [reflexivity|]. apply filter_In. now rewrite He.
    - intros x [<-|[]]. auto.
  Qed.
  (* and after *)
  Lemma labels_app st l l' : labels st (l ++ l') = labels st l ++ labels st l'.
  Proof. unfold labels. now rewrite filter_app, map_app. Qed.
  Lemma labels_none st l : (forall a, In a l -> is_error (tok st a) = true) -> labels st l = [].
  Proof.
    unfold labels. induction l as [|a l IH]; intros H; [reflexivity|]. cbn. rewrite (H a (or_introl eq_refl)). cbn. apply IH.
    intros b Hb. apply H. now right.
  Qed.
  Lemma labels_same st st' l : (forall a, tk_name (tok st' a) = tk_name (tok st a) /\ is_error (tok st' a) = is_error (tok st a)) -> labels st' l = labels st l.
  Proof.
    intros H. unfold labels. induction l as [|a l IH]; [reflexivity|]. cbn. destruct (H a) as [H1 H2]. rewrite H2.
    destruct (is_error (tok st a)); cbn; [exact IH|]. now rewrite IH, H1.
  Qed.
  Lemma labels_other st a : labels st (other_kids st a) = labels st (tk_kids (tok st a)).
  Proof.
    unfold labels, other_kids. f_equal. induction (tk_kids (tok st a)) as [|k l IH]; [reflexivity|]. cbn.
    destruct (is_error (tok st k)) eqn:He; cbn; [exact IH|]. rewrite He. cbn. now rewrite IH.
  Qed.
  Lemma nested_are st roots errs : nested_errors st roots errs -> forall a, In a errs -> is_error (tok st a) = true.
  Proof.
    induction 1 as [|x roots l1 l2 H1 IH1 H2 IH2]; intros a Ha; [destruct Ha|].
    rewrite !in_app_iff in Ha. destruct Ha as [Ha|[Ha|Ha]]; auto. unfold error_kids in Ha. now apply filter_In in Ha.
  Qed.
  Lemma hoisted_same st root st' : hoisted st root st' -> forall a,
    tk_name (tok st' a) = tk_name (tok st a) /\ is_error (tok st' a) = is_error (tok st a) /\ tk_mr (tok st' a) = tk_mr (tok st a) /\
    tk_attrs (tok st' a) = tk_attrs (tok st a) /\ get_value (tok st' a) = get_value (tok st a).
  Proof.
    intros (_ & _ & l & errs & Hp & _ & Hr & Hl & Ho) a. destruct (Nat.eq_dec a root) as [->|Hne]; [rewrite Hr; auto|].
    destruct (in_dec Nat.eq_dec a l) as [Hi|Hi]; [rewrite (Hl a Hi); auto|]. rewrite (Ho a Hne Hi). auto.
  Qed.
  Lemma hoisted_fine st root st' : hoisted st root st' -> (is_error (tok st root) = true -> tk_kids (tok st root) = []) ->
    forall a, fine st a -> fine st' a.
  Proof.
    intros Hh Hroot a [H1 H2]. pose proof (hoisted_same _ _ _ Hh) as Hs. destruct (Hs a) as (N1 & N2 & N3 & N4 & N5).
    split; [|intros He; unfold placed, written; rewrite N3, N1, N5; apply H2; congruence].
    unfold well_shaped, get_attr in *. rewrite N2, N1, N4.
    assert (Hk : (is_error (tok st a) = true -> tk_kids (tok st a) = [] -> tk_kids (tok st' a) = []) /\
                 labels st' (tk_kids (tok st' a)) = labels st (tk_kids (tok st a))).
    { assert (Hsame : forall l, labels st' l = labels st l) by (intros l; apply labels_same; intros x; destruct (Hs x) as (? & ? & _); auto).
      rewrite Hsame. destruct Hh as (_ & _ & l & errs & Hp & He & Hr & Hl & Ho).
      destruct (Nat.eq_dec a root) as [->|Hne].
      - rewrite Hr. cbn [tk_kids set_kids]. split.
        + intros Hre Hke. rewrite Hke in *. inversion He; subst. reflexivity.
        + rewrite labels_app, (labels_none st errs), app_nil_r; [reflexivity|]. eapply nested_are; eauto.
      - destruct (in_dec Nat.eq_dec a l) as [Hi|Hi].
        + rewrite (Hl a Hi). cbn [tk_kids set_kids]. split; [|apply labels_other]. intros _ H. unfold other_kids. now rewrite H.
        + now rewrite (Ho a Hne Hi). }
    destruct (is_error (tok st a)).
    - destruct H1 as (G1 & G2 & G3). split; [exact G1|]. split; [exact G2|]. now apply Hk.
    - now rewrite (proj2 Hk).
  Qed.

  (* C81 *)
  Theorem script_shapes name st root st1 l :
    Tokenizes E P (script_ctx P name st) (Script_ E) (script_start E P name st) (TOk root) st1 -> preorder st1 [root] l ->
    (tk_name (tok st1 root) = "Script" \/ is_error (tok st1 root) = true) /\
    (forall a, In a l -> fine st1 a) /\ (forall a, In a l -> a <> root -> forall k, In k (tk_kids (tok st1 a)) -> is_error (tok st1 k) = false).
  Proof.
    intros H Hl. destruct (tokenize_hoists _ _ _ _ _ _ _ HE HT H) as (x & st0 & l0 & Hr & Hx & Hp & Hd & Hh & Hclean & _ & l' & Hl' & Hperm).
    assert (l' = l) by (eapply CombProofs.preorder_det; eauto). subst l'.
    pose proof (runs_orderly _ _ _ _ _ _ _ _ HE HT Hr) as Ho. pose proof (runs_frame _ _ _ _ _ _ _ _ HE Hr) as (_ & Hf & Hres).
    pose proof (root_result x root Hx) as Ha. apply Hres in Ha.
    destruct Hr as [n Hr]. change (c_scope (script_ctx P name st)) with (next_sid st) in Hr.
    pose proof (script_exec n name st) as Hs. rewrite Hr in Hs. destruct Hs as (_ & Hn & _ & Hout & Hseen).
    assert (Hroot : x = SToken root /\ ShapeProofs.shaped P Sh Lx st0 root /\ (tk_name (tok st0 root) = "Script" \/ is_error (tok st0 root) = true)).
    { inversion Hx as [a|a|nm a|nm a]; subst; cbn [seen] in Hseen; try (destruct Hseen as [(? & ? & ? & _ & Hs)|Hs]; discriminate).
      split; [reflexivity|]. cbn [outcome] in Hout. unfold should_discard in Hout. destruct (should_discard (tok st0 root)) eqn:Ed; unfold should_discard in Ed.
      - destruct Hseen as [(? & ? & ? & _ & Hs)|Hs]; discriminate.
      - destruct Hout as [Hout|[Hout _]]; [congruence|]. split; [exact Hout|].
        destruct Hseen as [(y & ? & ? & Hy & Hs)|Hs]; injection Hs as He Hna _ _; [left|right; exact He].
        destruct Hy as [<-|Hy]; [exact Hna|destruct Hy]. }
    destruct Hroot as (-> & Hsh & Hname).
    assert (Hfr : fine st0 root).
    { eapply shaped_fine; eauto. intros He. destruct Hname as [->|Hname]; [|congruence].
      intros Hi; cbn in Hi; repeat destruct Hi as [Hi|Hi]; try discriminate; exact Hi. }
    pose proof (hoisted_same _ _ _ Hh) as Hsame.
    split; [destruct (Hsame root) as (-> & -> & _); exact Hname|]. split.
    - intros a Hin. eapply hoisted_fine; [exact Hh| |].
      + intros He. destruct Hfr as [Hw _]. unfold well_shaped in Hw. rewrite He in Hw. apply Hw.
      + eapply fine_below; eauto. eapply Permutation.Permutation_in; [apply Permutation.Permutation_sym; exact Hperm|exact Hin].
    - intros a Hin Hne k Hk. assert (Hal : In a l0) by (eapply Permutation.Permutation_in; [apply Permutation.Permutation_sym; exact Hperm|exact Hin]).
      specialize (Hclean a Hal Hne). unfold error_kids in Hclean. destruct (is_error (tok st1 k)) eqn:He; [|reflexivity].
      assert (Hi : In k (filter (fun k => is_error (tok st1 k)) (tk_kids (tok st1 a)))) by (apply filter_In; auto).
      rewrite Hclean in Hi. destruct Hi.
  Qed.
End Parsed.

(* ---------- building ---------- *)

Ltac no_name H := cbn in H; repeat destruct H as [H|H]; try discriminate; try (destruct H; fail).
(* the children of a token with a known name *)
Ltac shape_of H Hf :=
  let Hin := fresh in destruct H as [(?sl & Hin & Hf)|[Hin _]];
    (cbn in Hin; repeat destruct Hin as [Hin|Hin]; try discriminate; try (destruct Hin; fail)); injection Hin as <-.

Section Build.
  Variables (E : env) (st : state) (l : list addr).
  Definition kid_names (a : addr) : list str := map (fun k => tk_name (tok st k)) (tk_kids (tok st a)).
  Definition message_in (a : addr) : Prop := tk_name (tok st a) = "Error" /\ get_attr "__message" (tok st a) <> None.
  Hypothesis Hclosed : forall a, In a l -> forall k, In k (tk_kids (tok st a)) -> In k l.
  Hypothesis Hshape : forall a, In a l -> message_in a \/ script_shape (tk_name (tok st a)) (kid_names a).

  Lemma shape_here a n : In a l -> tk_name (tok st a) = n -> n <> "Error" -> script_shape n (kid_names a).
  Proof. intros Ha <- Hn. destruct (Hshape a Ha) as [[H _]|H]; [contradiction|exact H]. Qed.
  Lemma names_nil a : kid_names a = [] -> tk_kids (tok st a) = [].
  Proof. unfold kid_names. intros H. now apply map_eq_nil in H. Qed.
  Lemma names_cons a n ns : kid_names a = n :: ns ->
    exists k r, tk_kids (tok st a) = k :: r /\ tk_name (tok st k) = n /\ map (fun k => tk_name (tok st k)) r = ns.
  Proof. unfold kid_names. destruct (tk_kids (tok st a)) as [|k r]; intros H; [discriminate|]. injection H as H1 H2. eauto. Qed.
  Lemma names_in a n : In n (kid_names a) -> exists k, In k (tk_kids (tok st a)) /\ tk_name (tok st k) = n.
  Proof. unfold kid_names. intros H. apply in_map_iff in H as (k & H1 & H2). eauto. Qed.
  Lemma first_in a ns k : first_kid st a ns k -> In k (tk_kids (tok st a)) /\ exists n, In n ns /\ tk_name (tok st k) = lit n.
  Proof.
    intros (b & r & Hk & H & _). split; [rewrite Hk; apply in_or_app; right; now left|].
    destruct H as (n & H1 & H2). eauto.
  Qed.
  Definition fails_at (p : panic) : Prop := exists a, In a l /\ hopeless E st a p.

  Lemma all_pan (f : addr -> cres matcher) ks p : build_all f ks = CPan p -> exists k, In k ks /\ f k = CPan p.
  Proof.
    induction ks as [|k ks IH]; cbn [build_all]; [discriminate|]. destruct (f k) eqn:Ef; try discriminate.
    - destruct (build_all f ks); try discriminate. intros H. destruct (IH H) as (x & Hx & Hf). exists x. split; [now right|exact Hf].
    - intros H. injection H as <-. exists k. split; [now left|exact Ef].
  Qed.

  Section Level.
    Variable pat : addr -> cres matcher.
    Hypothesis IH : forall a p, In a l -> pat a = CPan p -> fails_at p.

    Lemma inner_pan a p : In a l -> build_inner E pat st a = CPan p -> fails_at p.
    Proof.
      intros Ha. unfold build_inner.
      destruct (str_eqb (tk_name (tok st a)) "EqualsMatcher") eqn:E1.
      { apply str_eqb_eq in E1. pose proof (shape_here a _ Ha E1 ltac:(discriminate)) as Hs. shape_of Hs Hf.
        destruct Hf as (n & ks & _ & Hk & _). apply names_cons in Hk as (k & r & Hk & _). unfold child. rewrite Hk. cbn [nth_error].
        destruct (get_value (tok st k)); discriminate. }
      destruct (str_eqb (tk_name (tok st a)) "RegexMatcher") eqn:E2.
      { apply str_eqb_eq in E2. destruct (get_value (tok st a)) as [|c v] eqn:Ev; [discriminate|]. rewrite <- Ev.
        unfold compile_regex. destruct (find_child st (tok st a) "Flags") as [f|] eqn:Ef.
        - apply (child_some st a "Flags") in Ef. destruct (e_regex E _) as [g|] eqn:Er; [discriminate|]. intros H. injection H as <-.
          exists a. split; [exact Ha|]. eapply hl_regex; [exact E2| |exact Er]. now apply rt_flags.
        - apply (child_none st a "Flags") in Ef. destruct (e_regex E _) as [g|] eqn:Er; [discriminate|]. intros H. injection H as <-.
          exists a. split; [exact Ha|]. eapply hl_regex; [exact E2| |exact Er]. now apply rt_plain. }
      destruct (str_eqb (tk_name (tok st a)) "SequenceMatcher") eqn:E3.
      { apply str_eqb_eq in E3. pose proof (shape_here a _ Ha E3 ltac:(discriminate)) as Hs. shape_of Hs Hf.
        destruct Hf as (n1 & k1 & _ & Hk & n2 & k2 & _ & -> & n3 & k3 & _ & -> & _).
        apply names_cons in Hk as (s & r & Hk & _ & Hr). destruct r as [|e [|x r]]; try discriminate.
        unfold child. rewrite Hk. cbn [nth_error].
        destruct (N.eqb_spec (slen (get_value (tok st s))) 0) as [Hz|_].
        { intros H. injection H as <-. exists a. split; [exact Ha|]. eapply hl_start; eauto. now apply slen_0. }
        destruct (N.eqb_spec (slen (get_value (tok st e))) 0) as [Hz|_]; [|discriminate].
        intros H. injection H as <-. exists a. split; [exact Ha|]. eapply hl_end; eauto. now apply slen_0. }
      destruct (str_eqb (tk_name (tok st a)) "CustomMatcher") eqn:E4.
      { apply str_eqb_eq in E4. pose proof (shape_here a _ Ha E4 ltac:(discriminate)) as Hs. shape_of Hs Hf.
        destruct Hf as (n & ks & _ & Hk & _). apply names_cons in Hk as (k & r & Hk & _). unfold child. rewrite Hk. cbn [nth_error].
        destruct (get_value (tok st k)); discriminate. }
      assert (Hall : forall g, match tk_kids (tok st a) with [] => COk MNull | ks => let* ms := build_all pat ks in COk (g ms) end = CPan p -> fails_at p).
      { intros g. destruct (tk_kids (tok st a)) as [|k ks] eqn:Hk; [discriminate|].
        destruct (build_all pat (k :: ks)) eqn:Hb; try discriminate. intros H. injection H as <-.
        apply all_pan in Hb as (x & Hx & Hp). apply (IH x); [|exact Hp]. apply (Hclosed a Ha). now rewrite Hk. }
      destruct (str_eqb (tk_name (tok st a)) "SwitchMatcher"); [apply Hall|].
      destruct (str_eqb (tk_name (tok st a)) "ProgramMatcher"); [apply Hall|discriminate].
    Qed.
    Lemma attrs_pan ks : (forall k, In k ks -> In k l /\ tk_name (tok st k) = "Attribute") -> forall acc p, collect_attrs st ks acc <> CPan p.
    Proof.
      induction ks as [|k ks IHk]; intros H acc p; cbn [collect_attrs]; [discriminate|].
      destruct (H k (or_introl eq_refl)) as [H1 H2]. pose proof (shape_here k _ H1 H2 ltac:(discriminate)) as Hs. shape_of Hs Hf.
      destruct Hf as (n1 & k1 & _ & Hk & n2 & k2 & _ & -> & _).
      apply names_cons in Hk as (s & r & Hk & _ & Hr). destruct r as [|e r]; [discriminate|]. unfold child. rewrite Hk. cbn [nth_error].
      apply IHk. intros x Hx. apply H. now right.
    Qed.
    Lemma wrap_attrs_pan a m p : In a l -> wrap_attrs st (tok st a) m <> CPan p.
    Proof.
      intros Ha. unfold wrap_attrs. destruct (find_child st (tok st a) "Attributes") as [k|] eqn:Ek; [|discriminate].
      apply (child_some st a "Attributes") in Ek. apply first_in in Ek as (Hk & n & [<-|[]] & Hn). pose proof (Hclosed a Ha k Hk) as Hkl.
      pose proof (shape_here k _ Hkl Hn ltac:(discriminate)) as Hs. shape_of Hs Hf. destruct Hf as (k1 & k2 & Hks & Hall & ->).
      rewrite app_nil_r in Hks. destruct (tk_kids (tok st k)) as [|x r] eqn:Hr; [discriminate|].
      pose proof (attrs_pan (x :: r)) as Hp. destruct (collect_attrs st (x :: r) []) eqn:Hc; try discriminate.
      exfalso. eapply (Hp ltac:(idtac) [] p0); exact Hc.
      Unshelve. intros y Hy. split; [apply (Hclosed k Hkl); now rewrite Hr|].
      rewrite Forall_forall in Hall. assert (Hi : In (tk_name (tok st y)) k1).
      { rewrite <- Hks. unfold kid_names. rewrite Hr. apply (in_map (fun k => tk_name (tok st k))). exact Hy. }
      apply Hall in Hi as [Hi|[]]. now symmetry.
    Qed.
    Lemma parse_pan w p : parse_or_err w <> CPan p.
    Proof. unfold parse_or_err. destruct (parse_usize w); [discriminate|]. destruct (forallb _ w); discriminate. Qed.
    Lemma wrap_repeat_pan a m p : In a l -> wrap_repeat st (tok st a) m <> CPan p.
    Proof.
      intros Ha. unfold wrap_repeat. destruct (find_child_among st (tok st a) REPEAT_SPECIFIER) as [k|] eqn:Ek; [|discriminate].
      apply among_some in Ek. apply first_in in Ek as (Hk & n & _ & Hn). pose proof (Hclosed a Ha k Hk) as Hkl.
      assert (Hr : repeat_range st k <> CPan p); [|destruct (repeat_range st k); try discriminate; intros H; injection H as ->; congruence].
      unfold repeat_range. destruct (str_eqb _ "RepeatZeroOrMore"); [discriminate|]. destruct (str_eqb _ "RepeatOneOrMore"); [discriminate|].
      destruct (str_eqb (tk_name (tok st k)) "RepeatRange") eqn:E3; [|discriminate]. apply str_eqb_eq in E3.
      pose proof (shape_here k _ Hkl E3 ltac:(discriminate)) as Hs. shape_of Hs Hf.
      destruct Hf as (x & ks & Hx & Hks & _). apply names_cons in Hks as (y & r & Hy & Hyn & _).
      destruct (find_child st (tok st k) "Minimum") as [mi|] eqn:Em.
      2:{ apply (child_none st k "Minimum") in Em. exfalso. apply (Em y "Minimum"); [rewrite Hy; now left|now left|]. destruct Hx as [<-|[]]. exact Hyn. }
      pose proof (parse_pan (get_cvalue (tok st mi))) as Hp. destruct (parse_or_err (get_cvalue (tok st mi))) as [?|?|w|]; try discriminate; [|destruct (Hp w eq_refl)].
      destruct (has_child st (tok st k) "Seperator"); [|discriminate]. destruct (find_child st (tok st k) "Maximum") as [ma|]; [|discriminate].
      pose proof (parse_pan (get_cvalue (tok st ma))) as Hq. destruct (parse_or_err (get_cvalue (tok st ma))) as [?|?|w|]; try discriminate; [|destruct (Hq w eq_refl)].
      destruct (_ <? _); discriminate.
    Qed.
    Lemma def_pan a nm cap p : In a l -> build_def E pat st a nm cap = CPan p -> fails_at p.
    Proof.
      intros Ha. unfold build_def. destruct (negb _); [discriminate|].
      destruct (find_child_among st (tok st a) PATTERN_MATCHER) as [k|] eqn:Ek; [|discriminate].
      apply among_some in Ek. apply first_in in Ek as (Hk & _). pose proof (Hclosed a Ha k Hk) as Hkl.
      pose proof (inner_pan k) as Hi. destruct (build_inner E pat st k) as [m|e|q|]; try discriminate; [|intros H; injection H as <-; auto].
      set (m1 := match nm with [] => m | _ => m_set_name nm m end).
      pose proof (wrap_attrs_pan a m1) as Hw. destruct (wrap_attrs st (tok st a) m1) as [m2|e|q|]; try discriminate; [|destruct (Hw q Ha eq_refl)].
      set (m3 := wrap_modifier _ _ m2). pose proof (wrap_repeat_pan a m3) as Hr.
      destruct (wrap_repeat st (tok st a) m3) as [m4|e|q|]; try discriminate. destruct (Hr q Ha eq_refl).
    Qed.
    Lemma pat_pan a p : In a l -> build_pat E pat st a = CPan p -> fails_at p.
    Proof.
      intros Ha. unfold build_pat. destruct (str_eqb (tk_name (tok st a)) "PatternDefinitionCaptured") eqn:E1.
      - apply str_eqb_eq in E1. pose proof (shape_here a _ Ha E1 ltac:(discriminate)) as Hs. shape_of Hs Hf.
        destruct (find_child st (tok st a) "MatcherName") as [nt|] eqn:Em.
        + apply (child_some st a "MatcherName") in Em. apply first_in in Em as (Hk & n & [<-|[]] & Hn). pose proof (Hclosed a Ha nt Hk) as Hkl.
          pose proof (shape_here nt _ Hkl Hn ltac:(discriminate)) as Hs. shape_of Hs Hg.
          destruct Hg as (x & ks & _ & Hks & _). apply names_cons in Hks as (y & r & Hy & _). unfold child. rewrite Hy. cbn [nth_error].
          destruct Hf as [(x1 & k1 & Hx1 & H1 & ->)|(x1 & k1 & _ & H1 & x2 & k2 & _ & -> & _)].
          * exfalso. apply names_cons in H1 as (z & r1 & Hz & Hzn & Hr1). apply map_eq_nil in Hr1 as ->. rewrite Hz in Hk. destruct Hk as [->|[]].
            destruct Hx1 as [<-|[]]. rewrite Hn in Hzn. discriminate.
          * apply names_cons in H1 as (z & r1 & Hz & _ & Hr1). destruct r1 as [|d r1]; [discriminate|]. rewrite Hz. cbn [nth_error].
            apply def_pan. apply (Hclosed a Ha). rewrite Hz. right. now left.
        + destruct Hf as [(x1 & k1 & _ & H1 & ->)|(x1 & k1 & _ & H1 & _)]; apply names_cons in H1 as (z & r1 & Hz & _); rewrite Hz; cbn [nth_error];
            apply def_pan; apply (Hclosed a Ha); rewrite Hz; now left.
      - destruct (str_eqb (tk_name (tok st a)) "PatternDefinition"); [now apply def_pan|discriminate].
    Qed.
  End Level.
  Lemma build_pan f : forall a p, In a l -> build f E st a = CPan p -> fails_at p.
  Proof. induction f as [|f IHf]; intros a p Ha; cbn [build]; [discriminate|]. now apply pat_pan. Qed.
  Lemma definition_pan a nm cap p : In a l -> construct_definition E st a nm cap = CPan p -> fails_at p.
  Proof. apply def_pan. intros b q. apply build_pan. Qed.

  (* ---------- the visitor ---------- *)

  Variables (F : fs) (compile : str -> state -> res script_res) (sc : sid) (ff : option str) (bound : N).
  Hypothesis Hplaced : forall a, In a l -> tk_name (tok st a) <> "Error" -> rs (tk_mr (tok st a)) <= bound /\ re (tk_mr (tok st a)) <= bound.
  Definition import_fails (p : panic) : Prop :=
    exists a q f, In a l /\ tk_name (tok st a) = "ImportStatement" /\ first_kid st a ["Path"] q /\ ff = Some f /\
      ((fs_join F f (get_value (tok st q)) = None /\ p = PUnwrap) \/
       exists file s, fs_join F f (get_value (tok st q)) = Some file /\ compile file s = Pan p).
  Definition error_placed (e : parse_error) : Prop := match pe_range e with None => True | Some r => rs r <= bound /\ re r <= bound end.
  Definition visited (v : vres bst) : Prop :=
    match v with VPan p => fails_at p \/ import_fails p | VErr _ e => error_placed e | _ => True end.

  Lemma idents_ok ks : (forall k, In k ks -> In k l /\ tk_name (tok st k) = "ImportIdentifier") ->
    match import_idents st ks with
    | COk r => forall x, In x r -> In (fst (fst x)) l /\ tk_name (tok st (fst (fst x))) = "ImportName"
    | CFuel => True
    | _ => False
    end.
  Proof.
    induction ks as [|k ks IH]; intros H; cbn [import_idents]; [intros x []|].
    destruct (H k (or_introl eq_refl)) as [H1 H2]. pose proof (shape_here k _ H1 H2 ltac:(discriminate)) as Hs. shape_of Hs Hf.
    destruct Hf as (x & r & Hx & Hr & _). apply names_cons in Hr as (y & r' & Hy & Hyn & _).
    unfold import_ident. destruct (find_child st (tok st k) "ImportName") as [i|] eqn:Ei.
    - apply (child_some st k "ImportName") in Ei. apply first_in in Ei as (Hi & n & [<-|[]] & Hn).
      assert (H' : forall z, In z ks -> In z l /\ tk_name (tok st z) = "ImportIdentifier") by (intros z Hz; apply H; now right).
      specialize (IH H'). destruct (import_idents st ks) as [xs|e|p|]; auto.
      intros z [<-|Hz]; [|now apply IH]. cbn. split; [now apply (Hclosed k)|exact Hn].
    - apply (child_none st k "ImportName") in Ei. apply (Ei y "ImportName"); [rewrite Hy; now left|now left|]. destruct Hx as [<-|[]]. exact Hyn.
  Qed.
  Lemma import_all_ok root isc file xs : (forall x, In x xs -> In (fst (fst x)) l /\ tk_name (tok st (fst (fst x))) = "ImportName") ->
    forall w, visited (import_all st sc root isc file xs w).
  Proof.
    induction xs as [|[[i ident] name] xs IH]; intros H w; cbn [import_all]; [exact Logic.I|].
    assert (Hi : rs (tk_mr (tok st i)) <= bound /\ re (tk_mr (tok st i)) <= bound).
    { destruct (H _ (or_introl eq_refl)) as [H1 H2]. cbn in H1, H2. apply Hplaced; [exact H1|rewrite H2; discriminate]. }
    assert (H' : forall x, In x xs -> In (fst (fst x)) l /\ tk_name (tok st (fst (fst x))) = "ImportName") by (intros x Hx; apply H; now right).
    destruct (str_eqb ident "_"); [destruct (str_eqb name "_"); [exact Hi|now apply IH]|].
    destruct (sc_get _ _ _) as [[?|?|?]|]; try exact Hi. now apply IH.
  Qed.
  Lemma patterns_ok ks : (forall k, In k ks -> In k l) -> forall w, visited (add_patterns E st ks w).
  Proof.
    induction ks as [|k ks IH]; intros H w; cbn [add_patterns]; [exact Logic.I|].
    assert (H' : forall x, In x ks -> In x l) by (intros x Hx; apply H; now right).
    destruct (_ || _); [|now apply IH]. pose proof (build_pan (S (List.length (st_heap st))) k) as Hb. unfold construct_pattern in *.
    destruct (build _ E st k) as [m|e|p|]; try exact Logic.I; [now apply IH|]. left. apply Hb; [apply H; now left|reflexivity].
  Qed.
  Lemma hook_ok a w : In a l -> visited (run_hook (script_hooks E F compile st sc ff) (tk_name (tok st a)) a w).
  Proof.
    intros Ha. rewrite hook_pick.
    destruct (str_eqb (tk_name (tok st a)) "Error") eqn:E0.
    { apply str_eqb_eq in E0. unfold hook_error. destruct (Hshape a Ha) as [[_ Hm]|Hs].
      - destruct (get_attr _ _); [exact Logic.I|congruence].
      - rewrite E0 in Hs. destruct Hs as [(sl & Hs & _)|[Hs _]]; no_name Hs. }
    destruct (str_eqb (tk_name (tok st a)) "AdextopaScope").
    { unfold hook_scope. destruct (get_attr _ _); exact Logic.I. }
    destruct (str_eqb (tk_name (tok st a)) "AssignmentExpression") eqn:E2.
    { apply str_eqb_eq in E2. pose proof (shape_here a _ Ha E2 ltac:(discriminate)) as Hs. shape_of Hs Hf.
      destruct Hf as (n1 & k1 & _ & Hk & n2 & k2 & _ & -> & _).
      apply names_cons in Hk as (i & r & Hk & _ & Hr). destruct r as [|v r]; [discriminate|]. unfold hook_assign. rewrite Hk.
      destruct (str_eqb _ "Identifier"); [exact Logic.I|]. destruct (str_eqb _ "PatternDefinition"); [|exact Logic.I].
      pose proof (definition_pan v (get_value (tok st i)) true) as Hd.
      destruct (construct_definition E st v (get_value (tok st i)) true) as [m|e|p|]; try exact Logic.I.
      left. apply Hd; [|reflexivity]. apply (Hclosed a Ha). rewrite Hk. right. now left. }
    destruct (str_eqb (tk_name (tok st a)) "ImportStatement") eqn:E3.
    { apply str_eqb_eq in E3. pose proof (shape_here a _ Ha E3 ltac:(discriminate)) as Hs. shape_of Hs Hf.
      destruct Hf as (n1 & k1 & Hn1 & Hk & n2 & k2 & Hn2 & -> & ->). destruct Hn1 as [<-|[]], Hn2 as [<-|[]].
      apply names_cons in Hk as (i & r & Hk & Hin & Hr). destruct r as [|v r]; [discriminate|]. injection Hr as Hvn _.
      unfold hook_import. destruct ff as [f|] eqn:Eff.
      2:{ cbn. apply Hplaced; [exact Ha|rewrite E3; discriminate]. }
      destruct (find_child st (tok st a) "ImportIdentifiers") as [ii|] eqn:Eii.
      2:{ apply (child_none st a "ImportIdentifiers") in Eii. exfalso. apply (Eii i "ImportIdentifiers"); [rewrite Hk; now left|now left|exact Hin]. }
      destruct (find_child st (tok st a) "Path") as [q|] eqn:Ep.
      2:{ apply (child_none st a "Path") in Ep. exfalso. apply (Ep v "Path"); [rewrite Hk; right; now left|now left|exact Hvn]. }
      apply (child_some st a "Path") in Ep. apply (child_some st a "ImportIdentifiers") in Eii. apply first_in in Eii as (Hii & n & [<-|[]] & Hiin).
      pose proof (Hclosed a Ha ii Hii) as Hil.
      destruct (fs_join F f (get_value (tok st q))) as [file|] eqn:Ej.
      2:{ right. exists a, q, f. auto 8. }
      destruct (compile file (b_store w)) as [[rt isc|le] s'|p|] eqn:Ec; try exact Logic.I.
      - pose proof (shape_here ii _ Hil Hiin ltac:(discriminate)) as Hs. shape_of Hs Hg. destruct Hg as (g1 & g2 & Hg & Hall & ->).
        rewrite app_nil_r in Hg. subst g1. rewrite Forall_forall in Hall.
        pose proof (idents_ok (tk_kids (tok st ii))) as Hid.
        destruct (import_idents st (tk_kids (tok st ii))) as [xs|e|p|]; try exact Logic.I.
        + apply import_all_ok. apply Hid. intros k Hkk. split; [now apply (Hclosed ii)|].
          assert (Hi : In (tk_name (tok st k)) (kid_names ii)) by (apply (in_map (fun k => tk_name (tok st k))); exact Hkk).
          apply Hall in Hi as [Hi|[]]. now symmetry.
        + exfalso. apply Hid. intros k Hkk. split; [now apply (Hclosed ii)|].
          assert (Hi : In (tk_name (tok st k)) (kid_names ii)) by (apply (in_map (fun k => tk_name (tok st k))); exact Hkk).
          apply Hall in Hi as [Hi|[]]. now symmetry.
        + exfalso. apply Hid. intros k Hkk. split; [now apply (Hclosed ii)|].
          assert (Hi : In (tk_name (tok st k)) (kid_names ii)) by (apply (in_map (fun k => tk_name (tok st k))); exact Hkk).
          apply Hall in Hi as [Hi|[]]. now symmetry.
      - right. exists a, q, f. split; [exact Ha|]. split; [exact E3|]. split; [exact Ep|]. split; [exact Eff|]. right. exists file, (b_store w). auto. }
    destruct (str_eqb (tk_name (tok st a)) "PatternScope"); [|exact Logic.I].
    unfold hook_patterns. apply patterns_ok. intros k Hk. now apply (Hclosed a).
  Qed.
End Build.

(* ---------- compiling ---------- *)

Lemma walks_reach {W} (hooks : list (str * hook W)) st l w r : walks hooks st l w r ->
  (exists w', r = VOk w') \/ exists a w', In a l /\ r = run_hook hooks (tk_name (tok st a)) a w'.
Proof.
  induction 1 as [w|a l w w1 r H1 H2 IH|a l w r H1 H2]; [eauto| |].
  - destruct IH as [IH|(b & w' & Hb & IH)]; [now left|right]. exists b, w'. split; [now right|exact IH].
  - right. exists a, w. split; [now left|]. now apply hooked_run in H1.
Qed.

(* why compiling the source of [P] can panic *)
Definition excuse (E : env) (F : fs) (compile : str -> state -> res script_res) (P : parser) (ff : option str) (p : panic) : Prop :=
  exists st a, script_token E P st a /\
    (hopeless E st a p \/
     exists q f, tk_name (tok st a) = "ImportStatement" /\ first_kid st a ["Path"] q /\ ff = Some f /\
       ((fs_join F f (get_value (tok st q)) = None /\ p = PUnwrap) \/
        exists file s, fs_join F f (get_value (tok st q)) = Some file /\ compile file s = Pan p)).
Theorem compile_excused E F compile P name ff log n st p : tame E -> tidy E -> slen (p_src P) < isize_bound -> ascii_only (p_src P) ->
  compile_with n E F compile P name ff log st = Pan p -> excuse E F compile P ff p.
Proof.
  intros HE HT Hlen Hascii H. unfold compile_with in H.
  assert (Ht : forall r st1, tokenize n E P (script_ctx P name st) (Script_ E) (script_start E P name st) = Ret r st1 ->
    Tokenizes E P (script_ctx P name st) (Script_ E) (script_start E P name st) r st1) by (intros r st1 Hr; now exists n).
  pose proof (tokenize_safe E P HE Hlen Hascii n name st) as Hsafe. unfold script_start, script_ctx in Ht, Hsafe.
  destruct (context_new P name st) as [c st0] eqn:Ec. cbn [fst snd] in Ht, Hsafe.
  destruct (tokenize n E P c (Script_ E) _) as [r st1|q|]; [|destruct (Hsafe q eq_refl)|discriminate]. specialize (Ht r st1 eq_refl).
  destruct r as [root|[|e]]; [|discriminate..].
  assert (HTk : Tokenizes E P (script_ctx P name st) (Script_ E) (script_start E P name st) (TOk root) st1).
  { unfold script_start, script_ctx. rewrite Ec. exact Ht. }
  destruct (hoisted_tree _ _ _ _ _ _ _ HE HT HTk) as (l & Hp & Hd).
  destruct (script_shapes E P HE HT Hlen Hascii name st root st1 l HTk Hp) as (Hroot & Hfine & Hclean).
  inversion Hp as [|a0 r0 l1 l2 Hp1 Hp2]; subst. inversion Hp2; subst. rewrite app_nil_r in *.
  destruct (preorder_kids _ _ _ Hp1) as [Hin Hclosed].
  inversion Hd as [|? ? Hnr _]; subst.
  assert (Hname : forall a, In a l1 -> is_error (tok st1 a) = false -> tk_name (tok st1 a) <> "Error").
  { intros a Ha He Hn. destruct (Hfine a (or_intror Ha)) as [Hw _]. unfold well_shaped in Hw. rewrite He, Hn in Hw.
    destruct Hw as [(sl & Hw & _)|[Hw _]]; no_name Hw. }
  assert (Hshape : forall a, In a l1 -> message_in st1 a \/ script_shape (tk_name (tok st1 a)) (kid_names st1 a)).
  { intros a Ha. destruct (Hfine a (or_intror Ha)) as [Hw _]. unfold well_shaped in Hw. destruct (is_error (tok st1 a)) eqn:He.
    - left. split; apply Hw.
    - right. assert (Hk : labels st1 (tk_kids (tok st1 a)) = kid_names st1 a); [|now rewrite <- Hk].
      unfold labels, kid_names. f_equal. assert (Hno : forall k, In k (tk_kids (tok st1 a)) -> is_error (tok st1 k) = false).
      { apply Hclean; [now right|]. intros ->. contradiction. }
      clear - Hno. induction (tk_kids (tok st1 a)) as [|k ks IH]; [reflexivity|]. cbn. rewrite (Hno k (or_introl eq_refl)). cbn. f_equal. apply IH.
      intros x Hx. apply Hno. now right. }
  assert (Hpl : forall a, In a l1 -> tk_name (tok st1 a) <> "Error" -> rs (tk_mr (tok st1 a)) <= slen (p_src P) /\ re (tk_mr (tok st1 a)) <= slen (p_src P)).
  { intros a Ha Hn. destruct (Hfine a (or_intror Ha)) as [Hw Hpl]. apply Hpl. destruct (is_error (tok st1 a)) eqn:He; [|reflexivity].
    unfold well_shaped in Hw. rewrite He in Hw. now destruct Hw. }
  assert (Htok : forall a, In a l1 -> script_token E P st1 a).
  { intros a Ha. exists name, st, root, (root :: l1). split; [exact HTk|]. split; [exact Hp|now right]. }
  destruct (build_matcher E P F compile root name ff st1) as [[m s2|errs] st2|q|] eqn:Hb; try discriminate.
  - destruct log; cbn [andb] in H; [|discriminate]. destruct (log_ok st1 root) eqn:Hl; cbn [negb] in H; [discriminate|]. exfalso.
    unfold log_ok in Hl. assert (Ha : forallb (fun k => negb (str_eqb (tk_name (tok st1 k)) "Error") || match get_attr "__message" (tok st1 k) with Some _ => true | None => false end)
      (tk_kids (tok st1 root)) = true); [|congruence].
    apply forallb_forall. intros k Hk. destruct (str_eqb (tk_name (tok st1 k)) "Error") eqn:Ek; [|reflexivity]. apply str_eqb_eq in Ek. cbn.
    destruct (Hshape k (Hin k Hk)) as [[_ Hm]|Hs]; [destruct (get_attr _ _); [reflexivity|congruence]|].
    rewrite Ek in Hs. destruct Hs as [(sl & Hs & _)|[Hs _]]; no_name Hs.
  - injection H as ->. unfold build_matcher in Hb. destruct (str_eqb (tk_name (tok st1 root)) "Script") eqn:Er; cbn [negb] in Hb; [|discriminate].
    apply str_eqb_eq in Er. fold (script_hooks E F compile st1 (next_sid st1) ff) in Hb. set (w0 := mkBst name [] [] (sc_new st1)) in Hb.
    assert (Hv : visited E st1 l1 F compile ff (slen (p_src P)) (visit st1 (script_hooks E F compile st1 (next_sid st1) ff) root w0)).
    { destruct (visit st1 (script_hooks E F compile st1 (next_sid st1) ff) root w0) as [w|w e|q|] eqn:Hvis; try exact Logic.I;
        apply (visit_walks _ _ root (root :: l1)) in Hvis; try exact Hp; apply walks_reach in Hvis as [[w' Hw]|(a & w' & [<-|Ha] & Hw)]; try discriminate;
        try (rewrite Er in Hw; discriminate); rewrite Hw; apply hook_ok; eauto. }
    destruct (visit st1 _ root w0) as [w|w e|q|]; try discriminate.
    + cbn in Hv. destruct (pe_msg e) as [|c1 msg]; [discriminate|].
      destruct (ShapeProofs.error_text E P (script_body E) (shape_in (p_src P)) (lexed (p_src P)) Hlen Hascii (c1 :: msg) (match pe_range e with Some r => r | None => blank_range end)) as [t Ht2].
      { unfold error_placed in Hv. destruct (pe_range e); [apply Hv|cbn; lia]. }
      { unfold error_placed in Hv. destruct (pe_range e); [apply Hv|cbn; lia]. }
      rewrite Ht2 in Hb. discriminate.
    + injection Hb as ->. destruct Hv as [(a & Ha & Hh)|(a & y & f & Ha & Hn & Hy & Hff & Hi)].
      * exists st1, a. split; [now apply Htok|now left].
      * exists st1, a. split; [now apply Htok|]. right. exists y, f. auto.
Qed.

Theorem text_excused : forall E src name log n st p, tame E -> tidy E -> ascii_only src -> slen src < isize_bound ->
  compile_str n E src name log st = Pan p ->
  exists st1 a, script_token E (parser_new src) st1 a /\ hopeless E st1 a p.
Proof.
  intros E src name log n st p HE HT Ha Hl H. unfold compile_str in H. apply compile_excused in H; auto.
  destruct H as (st1 & a & Hs & [H|(q & f & _ & _ & Hf & _)]); [eauto|discriminate].
Qed.
Theorem file_excused : forall E F log depth n file st p, tame E -> tidy E ->
  (forall full src, fs_read F full = Some src -> ascii_only src /\ slen src < isize_bound) ->
  compile_file depth n E F log file st = Pan p -> spoilt E F file p.
Proof.
  intros E F log depth n file st p HE HT HF. revert file st. induction depth as [|d IH]; intros file st H; cbn [compile_file] in H; [discriminate|].
  destruct (fs_canon F file) as [full|] eqn:Ec; [|injection H as <-; now apply sp_place].
  destruct (fs_read F full) as [src|] eqn:Er; [|injection H as <-; eapply sp_read; eauto].
  destruct (HF _ _ Er) as [H1 H2]. apply compile_excused in H; auto.
  destruct H as (st1 & a & Hs & [H|(q & f & H3 & H4 & Hf & H)]); [eapply sp_token; eauto|]. injection Hf as <-.
  destruct H as [[H ->]|(other & s & H5 & H6)]; [eapply sp_path; eauto|]. eapply sp_import; eauto.
Qed.

Theorem shapes : forall E P name st root st1 l, tame E -> tidy E -> ascii_only (p_src P) -> slen (p_src P) < isize_bound ->
  Tokenizes E P (script_ctx P name st) (Script_ E) (script_start E P name st) (TOk root) st1 -> preorder st1 [root] l ->
  (tk_name (tok st1 root) = "Script" \/ is_error (tok st1 root) = true) /\
  forall a, In a l -> well_shaped st1 a /\
    (is_error (tok st1 a) = false -> rs (tk_mr (tok st1 a)) <= slen (p_src P) /\ re (tk_mr (tok st1 a)) <= slen (p_src P)) /\
    (a <> root -> forall k, In k (tk_kids (tok st1 a)) -> is_error (tok st1 k) = false).
Proof.
  intros E P name st root st1 l HE HT Ha Hl H Hp. destruct (script_shapes E P HE HT Hl Ha name st root st1 l H Hp) as (H1 & H2 & H3).
  split; [exact H1|]. intros a Hin. destruct (H2 a Hin) as [G1 G2]. split; [exact G1|]. split; [intros He; apply G2, He|]. now apply H3.
Qed.
Theorem signs : forall E P st a, tame E -> tidy E -> ascii_only (p_src P) -> slen (p_src P) < isize_bound -> script_token E P st a ->
  (tk_name (tok st a) = "SequenceMatcher" -> In "%"%char (p_src P)) /\ (tk_name (tok st a) = "RegexMatcher" -> In "/"%char (p_src P)).
Proof.
  intros E P st a HE HT Ha Hl (name & st0 & root & l & H & Hp & Hin).
  destruct (script_shapes E P HE HT Hl Ha name st0 root st l H Hp) as (_ & H2 & _). destruct (H2 a Hin) as [G1 G2]. unfold well_shaped in G1.
  destruct (is_error (tok st a)); [destruct G1 as (-> & _); split; discriminate|]. apply G2. reflexivity.
Qed.
Theorem plain_text : forall E src name log n st p, tame E -> tidy E -> ascii_only src -> slen src < isize_bound ->
  ~ In "%"%char src -> ~ In "/"%char src -> compile_str n E src name log st <> Pan p.
Proof.
  intros E src name log n st p HE HT Ha Hl H1 H2 H. apply text_excused in H as (st1 & a & Hs & Hh); auto.
  apply signs in Hs as [G1 G2]; auto. destruct Hh as [v Hn _ _|s l Hn _ _|s e l Hn _ _]; [apply H2, G2, Hn|apply H1, G1, Hn|apply H1, G1, Hn].
Qed.
Theorem parse_safe : forall E P name st n p, tame E -> ascii_only (p_src P) -> slen (p_src P) < isize_bound ->
  tokenize n E P (script_ctx P name st) (Script_ E) (script_start E P name st) <> Pan p.
Proof. intros E P name st n p HE Ha Hl. now apply tokenize_safe. Qed.
Theorem parse_returns : forall E P name st n, tame E -> tidy E -> returning E -> ascii_only (p_src P) -> slen (p_src P) < isize_bound ->
  (18 * N.to_nat (slen (p_src P)) + 24 <= n)%nat ->
  exists r st1, tokenize n E P (script_ctx P name st) (Script_ E) (script_start E P name st) = Ret r st1.
Proof.
  intros E P name st n HE HT Hu Ha Hl Hn. pose proof (parse_safe E P name st n) as H1. pose proof (script_ends E P name st n HE HT Hu Hl Hn) as H2.
  destruct (tokenize n E P _ _ _) as [r st1|p|]; [eauto| |congruence]. destruct (H1 p HE Ha Hl eq_refl).
Qed.
Theorem text_returns : forall E src name log st n, tame E -> tidy E -> returning E -> ascii_only src -> slen src < isize_bound ->
  (18 * N.to_nat (slen src) + 24 <= n)%nat ->
  (exists r st1, compile_str n E src name log st = Ret r st1) \/
  exists st1 a p, script_token E (parser_new src) st1 a /\ hopeless E st1 a p /\ compile_str n E src name log st = Pan p.
Proof.
  intros E src name log st n HE HT Hu Ha Hl Hn. destruct (compile_str n E src name log st) as [r st1|p|] eqn:H; [eauto| |].
  - right. destruct (text_excused _ _ _ _ _ _ _ HE HT Ha Hl H) as (st1 & a & H1 & H2). eauto 6.
  - exfalso. revert H. now apply str_ends.
Qed.

(* C84 *)
Lemma token_fine E P st a : tame E -> tidy E -> ascii_only (p_src P) -> slen (p_src P) < isize_bound -> script_token E P st a -> fine P st a.
Proof.
  intros HE HT Ha Hl (name & st0 & root & l & H & Hp & Hin).
  destruct (script_shapes E P HE HT Hl Ha name st0 root st l H Hp) as (_ & H2 & _). exact (H2 a Hin).
Qed.
Lemma token_kids E P st a k : script_token E P st a -> In k (tk_kids (tok st a)) -> script_token E P st k.
Proof.
  intros (name & st0 & root & l & H & Hp & Hin) Hk. exists name, st0, root, l. split; [exact H|]. split; [exact Hp|]. exact (proj2 (preorder_kids _ _ _ Hp) a k Hin Hk).
Qed.
Theorem leaves_written : forall E P st a, tame E -> tidy E -> ascii_only (p_src P) -> slen (p_src P) < isize_bound ->
  script_token E P st a -> In (tk_name (tok st a)) script_leaves -> written P st a.
Proof.
  intros E P st a HE HT Ha Hl Hs Hn. destruct (token_fine E P st a HE HT Ha Hl Hs) as [G1 G2]. unfold well_shaped in G1.
  destruct (is_error (tok st a)); [|now apply G2]. destruct G1 as (G1 & _). rewrite G1 in Hn. exfalso. no_name Hn.
Qed.
Lemma lexeme_string n v t rest : lexeme n v t rest -> named ["StartPattern"; "EndPattern"; "EscapePattern"] n -> string_text v t.
Proof.
  assert (Hno : forall x y : list string, forallb (fun n => negb (existsb (fun m => str_eqb (lit n) (lit m)) y)) x = true -> forall m, named x m -> named y m -> False).
  { intros x y H m H1 H2. unfold named in *. apply in_map_iff in H1 as (p & <- & Hp), H2 as (q & Hq & H2). rewrite forallb_forall in H. apply H in Hp.
    apply negb_true_iff in Hp. assert (Hx : existsb (fun m => str_eqb (lit p) (lit m)) y = true) by (apply existsb_exists; exists q; split; [exact H2|]; rewrite Hq; apply str_eqb_refl).
    congruence. }
  intros H Hn. destruct H as [m t rest H|m t rest H|m v t rest H H1|t rest|m t rest H|t rest|t rest|t rest|x rest|v raw rest]; auto.
  - exfalso. cbn in H, Hn. repeat destruct Hn as [<-|Hn]; try destruct Hn; repeat destruct H as [H|H]; try discriminate; destruct H.
  - exfalso. revert H Hn. now apply Hno.
  - exfalso. no_name Hn.
  - exfalso. revert H Hn. now apply Hno.
  - exfalso. no_name Hn.
  - exfalso. no_name Hn.
  - exfalso. no_name Hn.
  - exfalso. no_name Hn.
  - exfalso. no_name Hn.
Qed.
Lemma empty_string t : string_text [] t -> t = lit "''".
Proof. intros (raw & H & ->). inversion H. reflexivity. Qed.
Lemma empty_leaf E P st a : tame E -> tidy E -> ascii_only (p_src P) -> slen (p_src P) < isize_bound ->
  script_token E P st a -> named ["StartPattern"; "EndPattern"; "EscapePattern"] (tk_name (tok st a)) -> get_value (tok st a) = [] ->
  exists pre post, p_src P = pre ++ lit "''" ++ post.
Proof.
  intros HE HT Ha Hl Hs Hn Hv. destruct (leaves_written E P st a HE HT Ha Hl Hs) as (pre & t & post & H1 & _ & H2).
  { cbn in Hn. repeat destruct Hn as [<-|Hn]; try destruct Hn; pick. }
  rewrite Hv in H2. apply lexeme_string in H2; [|exact Hn]. apply empty_string in H2. subst t. eauto.
Qed.
Lemma filled_token E P st1 a p : tame E -> tidy E -> ascii_only (p_src P) -> slen (p_src P) < isize_bound ->
  script_token E P st1 a -> hopeless E st1 a p ->
  (In "/"%char (p_src P) /\ p = PUnwrap) \/ (In "%"%char (p_src P) /\ exists pre post, p_src P = pre ++ lit "''" ++ post).
Proof.
  intros HE HT Ha Hl Hs Hh.
  pose proof (signs E P st1 a HE HT Ha Hl Hs) as [G1 G2].
  pose proof (token_fine E P st1 a HE HT Ha Hl Hs) as [Hw _].
  assert (Hkids : tk_name (tok st1 a) = "SequenceMatcher" -> map (fun k => tk_name (tok st1 k)) (tk_kids (tok st1 a)) = names ["StartPattern"; "EndPattern"; "EscapePattern"]).
  { intros Hn. destruct Hs as (nm & st0 & root & l & HTk & Hp & Hin).
    destruct (script_shapes E P HE HT Hl Ha nm st0 root st1 l HTk Hp) as (Hroot & _ & Hclean).
    unfold well_shaped in Hw. destruct (is_error (tok st1 a)) eqn:He; [destruct Hw as (Hw & _); rewrite Hn in Hw; discriminate|].
    assert (Har : a <> root) by (intros ->; rewrite Hn, He in Hroot; destruct Hroot; discriminate).
    specialize (Hclean a Hin Har). rewrite Hn in Hw. shape_of Hw Hf. cbn [follows SpecShape.one names map In] in Hf.
    destruct Hf as (? & ? & [<-|[]] & Hf & ? & ? & [<-|[]] & -> & ? & ? & [<-|[]] & -> & ->). transitivity (labels st1 (tk_kids (tok st1 a))); [|exact Hf]. unfold labels. f_equal.
    symmetry. clear - Hclean. induction (tk_kids (tok st1 a)) as [|k r IH]; [reflexivity|]. cbn [filter]. rewrite (Hclean k (or_introl eq_refl)). cbn [negb].
    f_equal. apply IH. intros k' Hk'. apply Hclean. now right. }
  destruct Hh as [v Hn _ _|s l Hn Hk Hv|s e l Hn Hk Hv].
  - left. auto.
  - right. split; [auto|]. specialize (Hkids Hn). rewrite Hk in Hkids. injection Hkids as Hks _.
    eapply (empty_leaf E P st1 s); auto; [eapply token_kids; [exact Hs|rewrite Hk; now left]|]. rewrite Hks. now left.
  - right. split; [auto|]. specialize (Hkids Hn). rewrite Hk in Hkids. injection Hkids as _ Hks _.
    eapply (empty_leaf E P st1 e); auto; [eapply token_kids; [exact Hs|rewrite Hk; right; now left]|]. rewrite Hks. right. now left.
Qed.
Theorem filled_text : forall E src name log n st p, tame E -> tidy E -> ascii_only src -> slen src < isize_bound ->
  compile_str n E src name log st = Pan p ->
  (In "/"%char src /\ p = PUnwrap) \/ (In "%"%char src /\ exists pre post, src = pre ++ lit "''" ++ post).
Proof.
  intros E src name log n st p HE HT Ha Hl H. apply text_excused in H as (st1 & a & Hs & Hh); auto.
  now apply (filled_token E (parser_new src) st1 a p).
Qed.
Theorem filled_file : forall E F log depth n file st p, tame E -> tidy E ->
  (forall full src, fs_read F full = Some src -> ascii_only src /\ slen src < isize_bound) ->
  compile_file depth n E F log file st = Pan p -> exists other, reached E F file other /\ panic_reason E F other p.
Proof.
  intros E F log depth n file st p HE HT HF H. apply file_excused in H; auto.
  induction H as [file Hc|file full Hc Hr|file full src st1 a p Hc Hr Hs Hh|file full src st1 a q Hc Hr Hs Hn Hq Hj|file full src st1 a q other p Hc Hr Hs Hn Hq Hj Ho IH].
  - exists file. split; [apply rc_here|now apply pn_place].
  - exists file. split; [apply rc_here|now apply (pn_read E F file full)].
  - exists file. split; [apply rc_here|]. destruct (HF _ _ Hr) as [Ha Hl].
    destruct (filled_token E (parser_named src full) st1 a p HE HT Ha Hl Hs Hh) as [[H1 ->]|(H1 & pre & post & H2)].
    + now apply (pn_slash E F file full src).
    + change (p_src (parser_named src full)) with src in *. subst src. now apply (pn_percent E F file full pre post).
  - exists file. split; [apply rc_here|]. now apply (pn_path E F file full src st1 a q).
  - destruct IH as (last & H1 & H2). exists last. split; [|exact H2]. eapply rc_import; eauto.
Qed.
