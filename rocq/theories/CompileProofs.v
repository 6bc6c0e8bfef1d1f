(* What is compiled from written scripts. *)
From Verif Require Import TokenizeProofs ScopeProofs TreeProofs DepthProofs CombProofs.
From Verif Require Import ScriptTextProofs ScriptProofs FaultProofs.
Open Scope string_scope.
Open Scope list_scope.
Open Scope N_scope.

(* ---------- a tree without errors stays as it is ---------- *)

Lemma filter_none {A} (f : A -> bool) l : [] = filter f l -> forall a, In a l -> f a = false.
Proof.
  intros H a Ha. destruct (f a) eqn:Hf; [|reflexivity].
  assert (In a (filter f l)) by (now apply filter_In). rewrite <- H in *. contradiction.
Qed.
Lemma filter_all {A} (f : A -> bool) l : (forall a, In a l -> f a = true) -> filter f l = l.
Proof.
  induction l as [|x l IH]; intros H; [reflexivity|]. cbn. rewrite (H x (or_introl eq_refl)). f_equal.
  apply IH. intros a Ha. apply H. now right.
Qed.
Lemma filter_nothing {A} (f : A -> bool) l : (forall a, In a l -> f a = false) -> filter f l = [].
Proof.
  induction l as [|x l IH]; intros H; [reflexivity|]. cbn. rewrite (H x (or_introl eq_refl)).
  apply IH. intros a Ha. apply H. now right.
Qed.
Lemma preorder_kids st roots all : preorder st roots all ->
  (forall a, In a roots -> In a all) /\ forall a k, In a all -> In k (tk_kids (tok st a)) -> In k all.
Proof.
  induction 1 as [|a roots l1 l2 H1 [I1 J1] H2 [I2 J2]]; [split; contradiction|]. split.
  - intros b [<-|Hb]; [now left|]. right. apply in_or_app. right. now apply I2.
  - intros b k [<-|Hb] Hk; right; apply in_or_app.
    + left. now apply I1.
    + apply in_app_or in Hb as [Hb|Hb]; [left; now apply (J1 b)|right; now apply (J2 b)].
Qed.
Lemma nested_none st roots errs : nested_errors st roots errs ->
  forall all, preorder st roots all -> (forall a, In a all -> is_error (tok st a) = false) -> errs = [].
Proof.
  induction 1 as [|a roots l1 l2 H1 IH1 H2 IH2]; intros all Ha He; [reflexivity|].
  inversion Ha as [|a0 roots0 m1 m2 Hm1 Hm2]; subst.
  rewrite (IH1 m1), (IH2 m2); auto.
  - unfold error_kids. rewrite app_nil_r. cbn [app]. apply filter_nothing. intros k Hk. apply He. right. apply in_or_app. left.
    now apply (preorder_kids st (tk_kids (tok st a)) m1).
  - intros b Hb. apply He. right. apply in_or_app. now right.
  - intros b Hb. apply He. right. apply in_or_app. now left.
Qed.
Lemma set_kids_same t : set_kids (tk_kids t) t = t.
Proof. now destruct t. Qed.

Lemma hoisted_clean st root st' : hoisted st root st' -> errors_below st root [] -> forall a, tok st' a = tok st a.
Proof.
  intros (_ & _ & l & errs & Hp & Hn & Hr & Hl & Ho) (all & Ha & He) a.
  inversion Ha as [|a0 roots l1 l2 H1 H2]; subst. inversion H2; subst. rewrite app_nil_r in *.
  rewrite (preorder_det _ _ _ Hp _ H1) in *.
  pose proof (filter_none _ _ He) as Hf.
  assert (errs = []) as -> by (apply (nested_none _ _ _ Hn l1 H1); intros b Hb; apply Hf; now right).
  rewrite app_nil_r, set_kids_same in Hr.
  destruct (Nat.eq_dec a root) as [->|Hne]; [exact Hr|].
  destruct (in_dec Nat.eq_dec a l1) as [Hi|Hi]; [|now apply Ho].
  rewrite (Hl a Hi). unfold other_kids. rewrite filter_all; [apply set_kids_same|].
  intros k Hk. rewrite Hf; [reflexivity|]. right. now apply (proj2 (preorder_kids _ _ _ H1) a).
Qed.

(* ---------- parsing a script ---------- *)

Lemma script_known_start E P name st : known (next_sid st) (script_known E) (script_start E P name st).
Proof.
  unfold script_start, script_ctx, context_new, register_all, register, register_named. cbn [fst snd c_scope fold_left].
  assert (V : valid_scope (sc_new st) (next_sid st)).
  { unfold valid_scope, sc_new, next_sid. cbn. rewrite app_length. cbn. lia. }
  split; [repeat apply valid_set; exact V|].
  intros x v [Hx|[Hx|[]]]; injection Hx as <- <-.
  - rewrite get_set_other by (right; discriminate). now apply get_set_same.
  - apply get_set_same. now apply valid_set.
Qed.

(* a pattern anywhere in the source *)
Theorem pattern_fares E P p pre t r c s st : tame E -> tidy E ->
  ascii_only (p_src P) -> slen (p_src P) < isize_bound ->
  writes E p t -> p_src P = pre ++ t ++ r -> (forall x u, r = x :: u -> ~ In x (lit "*+{")) ->
  c_debug c = 0 -> c_off c = mkR (slen pre) (slen (p_src P)) -> valid_scope st s ->
  sc_get st s "SwitchMatcher" = Some (VMatcher (ScriptSwitchMatcher E)) ->
  sc_get st s "ProgramMatcher" = Some (VMatcher (ScriptProgramMatcher E)) ->
  exists a st', Runs E P (ScriptPattern E) c s st (Ok (SToken a)) st' /\
    re (tk_mr (tok st' a)) = slen (pre ++ t) /\
    match fault_of p with
    | None => construct_pattern E st' a = COk (meaning p)
    | Some f =>
        (forall msg, complains f msg -> construct_pattern E st' a = CErr msg) /\
        (forall q, crashes f q -> construct_pattern E st' a = CPan q)
    end.
Proof.
  intros HE HT Ha Hs Hw Hsrc Hr Hc Ho V K1 K2.
  destruct (proj1 (written_patterns E P s HE Ha Hs) p t Hw) as [_ Hp].
  destruct (Hp r) as (x & X1 & X2 & _ & X4 & _).
  { assert (G : forall y, In y (lit "*+{") -> ~ has_prefix [y] r).
    { intros y Hy [u Hu]. exact (Hr y u Hu Hy). }
    split; [|split]; apply G; cbn; auto. }
  destruct (X1 c st) as (y & st' & Hrun & _ & Hout); auto.
  - rewrite Ho. f_equal. unfold pos. rewrite Hsrc, !slen_app. lia.
  - split; [exact V|]. intros n v [Hn|[Hn|[]]]; injection Hn as <- <-; assumption.
  - now exists pre.
  - destruct y as [y|]; [|contradiction]. cbn [outcome_is] in Hout. inversion Hout as [a x0 Hx Hf| | | | |]; subst.
    exists a, st'. split; [exact Hrun|]. split.
    + inversion Hx; subst. cbn [t_rest] in *. match goal with H : re _ = pos _ _ |- _ => rewrite H end.
      unfold pos. rewrite Hsrc, !slen_app. lia.
    + assert (Htree : is_tree st' a) by (eapply runs_trees; eauto; now left).
      pose proof (X4 _ _ _ Hx) as Hfate. unfold pattern_fate in Hfate. destruct (fault_of p).
      * rewrite (construct_fails _ _ _ _ Htree Hfate). split; [exact (fun m => failure_complains _ m)|exact (fun q => failure_crashes _ q)].
      * now apply construct_spec.
Qed.

Theorem pattern_reads E P p pre t r c s st : tame E -> tidy E -> ascii_only (p_src P) -> slen (p_src P) < isize_bound ->
  writes E p t -> p_src P = pre ++ t ++ r -> (forall x u, r = x :: u -> ~ In x (lit "*+{")) ->
  c_debug c = 0 -> c_off c = mkR (slen pre) (slen (p_src P)) -> valid_scope st s ->
  sc_get st s "SwitchMatcher" = Some (VMatcher (ScriptSwitchMatcher E)) ->
  sc_get st s "ProgramMatcher" = Some (VMatcher (ScriptProgramMatcher E)) -> fault_of p = None ->
  exists a st', Runs E P (ScriptPattern E) c s st (Ok (SToken a)) st' /\
    re (tk_mr (tok st' a)) = slen (pre ++ t) /\ construct_pattern E st' a = COk (meaning p).
Proof.
  intros. edestruct (pattern_fares E P p pre t r c s st) as (a & st' & H12 & H13 & H14); eauto.
  rewrite H11 in H14. eauto.
Qed.
Theorem pattern_refused E P p f pre t r c s st : tame E -> tidy E -> ascii_only (p_src P) -> slen (p_src P) < isize_bound ->
  writes E p t -> p_src P = pre ++ t ++ r -> (forall x u, r = x :: u -> ~ In x (lit "*+{")) ->
  c_debug c = 0 -> c_off c = mkR (slen pre) (slen (p_src P)) -> valid_scope st s ->
  sc_get st s "SwitchMatcher" = Some (VMatcher (ScriptSwitchMatcher E)) ->
  sc_get st s "ProgramMatcher" = Some (VMatcher (ScriptProgramMatcher E)) -> fault_of p = Some f ->
  exists a st', Runs E P (ScriptPattern E) c s st (Ok (SToken a)) st' /\
    re (tk_mr (tok st' a)) = slen (pre ++ t) /\
    (forall msg, complains f msg -> construct_pattern E st' a = CErr msg) /\
    (forall q, crashes f q -> construct_pattern E st' a = CPan q).
Proof.
  intros. edestruct (pattern_fares E P p pre t r c s st) as (a & st' & H12 & H13 & H14); eauto.
  rewrite H11 in H14. eauto.
Qed.

Section Compile.
  Variables (E : env) (P : parser) (F : fs) (compile : str -> state -> res script_res) (name : str) (ff : option str).
  Hypothesis HE : tame E.
  Hypothesis HT : tidy E.
  Hypothesis Hascii : ascii_only (p_src P).
  Hypothesis Hsmall : slen (p_src P) < isize_bound.

  Lemma place_slices r : rs r <= re r -> re r <= slen (p_src P) -> sliceable (p_src P) r /\ re r < usize_max.
  Proof.
    intros H1 H2. split; [|unfold isize_bound, usize_max in *; lia].
    split; [exact H1|]. split; [exact H2|]. split; apply ascii_boundary; auto; lia.
  Qed.
  Lemma stands_placed x place : stands P x place -> sliceable (p_src P) place /\ re place < usize_max.
  Proof. intros (pre & post & H1 & ->). apply place_slices; cbn [rs re]; rewrite ?H1, !slen_app; lia. Qed.
  Lemma blame_placed b t : blames P b t -> placed P t.
  Proof.
    destruct b; cbn [blames].
    - apply fault_placed.
    - intros (place & H1 & H2 & ->) msg pl H. injection H as <- <-. now apply place_slices.
    - intros (place & H1 & ->) msg pl H. injection H as <- <-. now apply stands_placed in H1.
    - intros (place & H1 & ->) msg pl H. injection H as <- <-. now apply stands_placed in H1.
    - intros -> msg pl H. discriminate.
    - intros -> msg pl H. discriminate.
  Qed.

  Lemma shown_in h st l ts : shows_all P h st l ts -> forall k, In k l -> exists t, In t ts /\ shows P h st k t.
  Proof.
    induction ts as [|t ts IH] in l |- *; intros H k Hk; inversion H; subst; [destruct Hk|].
    destruct Hk as [<-|Hk]; [eauto with datatypes|]. destruct (IH _ ltac:(eassumption) k Hk) as (t' & H1 & H2). eauto with datatypes.
  Qed.
  Lemma script_parses d st : script_text E d (p_src P) ->
    exists root st1, Tokenizes E P (script_ctx P name st) (Script_ E) (script_start E P name st) (TOk root) st1 /\
      tk_name (tok st1 root) = "Script" /\
      (forall sc name0 s0 s1, all_stated F compile sc ff (s_statements d) s0 s1 -> faultless (s_patterns d) ->
        exists l, preorder st1 [root] l /\
          script_says E F compile st1 sc ff l (name0, [], s0) (s_name name0 d, map meaning (s_patterns d), s1)) /\
      (forall sc name0 s0 b, script_wrong F compile sc ff d s0 b ->
        exists l t, preorder st1 [root] l /\ blames P b t /\ script_fails E F compile st1 sc ff l (name0, [], s0) t) /\
      (forall k, In k (tk_kids (tok st1 root)) -> tk_name (tok st1 k) <> lit "Error").
  Proof.
    intros Hd.
    assert (L : left_over P (p_src P)) by (now exists []).
    assert (Hrun : forall sc, exists t x st1,
      Runs E P (Script_ E) (script_ctx P name st) (next_sid st) (script_start E P name st) (Ok (SToken x)) st1 /\
      shows P (heap_size (script_start E P name st)) st1 x t /\ t_name t = lit "Script" /\
      tells_script E P F compile sc ff d t /\ (forall k, In k (t_kids t) -> t_name k <> lit "Error")).
    { intros sc. destruct (sees_script E P (next_sid st) HE Hascii Hsmall F compile sc ff d (p_src P) Hd L) as (t & Hs & Hn & Ht & Hne).
      destruct (Hs (script_ctx P name st) (script_start E P name st)) as (x & st1 & Hr & _ & Ho).
      - reflexivity.
      - unfold script_ctx, context_new. cbn. unfold pos. rewrite N.sub_diag. reflexivity.
      - apply script_known_start.
      - exact L.
      - destruct x as [y|]; [|contradiction]. cbn [outcome_is] in Ho. inversion Ho; subst. eexists t, _, st1. eauto 12. }
    destruct (Hrun 0%nat) as (t & x & st1 & Hr & Hx & Hn & _ & Hne).
    destruct (tokenize_ok E P (script_ctx P name st) (Script_ E) (script_start E P name st) (SToken x) x st1 HE HT Hr (ro_token x)) as (st' & Htk & Hh).
    pose proof (hoisted_clean _ _ _ Hh (proj1 (shows_clean P _ _) _ _ Hx)) as Hsame.
    assert (Hlooks : same_looks (heap_size (script_start E P name st)) st1 st').
    { split; [destruct Hh as (_ & -> & _); lia|]. intros a _. rewrite Hsame. apply alike_refl. }
    exists x, st'. split; [exact Htk|]. split.
    - inversion Hx; subst. rewrite Hsame. cbn [t_name] in Hn. congruence.
    - enough (G : forall sc name0 s0 s1,
        (all_stated F compile sc ff (s_statements d) s0 s1 -> faultless (s_patterns d) ->
         tells E F compile sc ff st' [x] (name0, [], s0) (s_name name0 d, map meaning (s_patterns d), s1)) /\
        (forall b, script_wrong F compile sc ff d s0 b -> breaks E P F compile sc ff st' [x] (name0, [], s0) b)).
      { split; [intros sc name0 s0 s1; exact (proj1 (G sc name0 s0 s1))|]. split.
        2:{ intros k. rewrite !Hsame. intros Hk. pose proof (shown_kids _ _ _ _ _ Hx) as Hks.
            destruct (shown_in _ _ _ _ Hks k Hk) as (t' & H1 & H2). rewrite (shown_name _ _ _ _ _ H2). auto. }
        intros sc name0 s0 b Hb.
        destruct (proj1 (shows_clean P _ _) _ _ (proj1 (shows_same P Hsmall _ _ _ Hlooks) _ _ Hx)) as (all & Hall & _).
        destruct (proj2 (G sc name0 s0 s0) b Hb) as (tr & B1 & B2). exists all, tr. auto. }
      intros sc name0 s0 s1. destruct (Hrun sc) as (t2 & x2 & st2 & Hr2 & Hx2 & Hn2 & Ht2 & _).
      destruct (runs_det _ _ _ _ _ _ _ _ _ _ Hr Hr2) as [E1 E2]. injection E1 as <-. subst st2.
      apply (shows_same P Hsmall _ _ _ Hlooks) in Hx2. exact (Ht2 _ _ _ Hx2 name0 s0 s1).
  Qed.

  Theorem script_compiles d st : script_text E d (p_src P) -> faultless (s_patterns d) ->
    exists root st1, Tokenizes E P (script_ctx P name st) (Script_ E) (script_start E P name st) (TOk root) st1 /\
      forall st', all_stated F compile (next_sid st1) ff (s_statements d) (sc_new st1) st' ->
        exists fuel, compile_with fuel E F compile P name ff false st =
          Ret (ScriptOk (compiled_script name (next_sid st1) d) (next_sid st1)) st'.
  Proof.
    intros Hd Hps. destruct (script_parses d st Hd) as (root & st1 & Htk & Hn & Hsay & _). exists root, st1. split; [exact Htk|].
    intros st' Hall. apply compile_spec; auto. destruct (Hsay _ name _ _ Hall Hps) as (l & Hl & Hs).
    exists root, st1, l, (s_name name d), (map meaning (s_patterns d)). auto 10.
  Qed.
  Theorem script_refused d st : script_text E d (p_src P) ->
    exists root st1, Tokenizes E P (script_ctx P name st) (Script_ E) (script_start E P name st) (TOk root) st1 /\
      forall b, script_wrong F compile (next_sid st1) ff d (sc_new st1) b ->
        exists t fuel, blames P b t /\ ends_in P t (compile_with fuel E F compile P name ff false st).
  Proof.
    intros Hd. destruct (script_parses d st Hd) as (root & st1 & Htk & Hn & _ & Hf & _). exists root, st1. split; [exact Htk|].
    intros b Hb. destruct (Hf _ name _ _ Hb) as (l & t & Hl & Ht & Hs). pose proof (blame_placed b t Ht) as Hpl.
    destruct (compile_fails E F compile P name ff st root st1 l t HE HT Htk Hn Hl Hpl Hs) as [fuel Hfu]. eauto.
  Qed.
  Lemma faulty_ends f t fuel st : blames P (Faulty f) t -> ends_in P t (compile_with fuel E F compile P name ff false st) ->
    (forall p, crashes f p -> exists fuel, compile_with fuel E F compile P name ff false st = Pan p) /\
    (forall msg, complains f msg -> exists fuel text st', error_text P (pattern_message msg) (mkR 0 0) text /\
       compile_with fuel E F compile P name ff false st = Ret (ScriptErr [mkPE text (Some (mkR 0 0))]) st').
  Proof.
    intros Hb He. split.
    - intros p Hp. rewrite (trouble_det _ _ _ Hb (to_crash _ _ Hp)) in He. eauto.
    - intros msg Hm. rewrite (trouble_det _ _ _ Hb (to_complaint _ _ Hm)) in He. destruct He as (text & st' & H1 & H2). eauto 6.
  Qed.
  Theorem script_faulted d st : script_text E d (p_src P) ->
    exists root st1, Tokenizes E P (script_ctx P name st) (Script_ E) (script_start E P name st) (TOk root) st1 /\
      forall f, script_wrong F compile (next_sid st1) ff d (sc_new st1) (Faulty f) ->
        (forall p, crashes f p -> exists fuel, compile_with fuel E F compile P name ff false st = Pan p) /\
        (forall msg, complains f msg -> exists fuel text st', error_text P (pattern_message msg) (mkR 0 0) text /\
           compile_with fuel E F compile P name ff false st = Ret (ScriptErr [mkPE text (Some (mkR 0 0))]) st').
  Proof.
    intros Hd. destruct (script_refused d st Hd) as (root & st1 & Htk & Hf). exists root, st1. split; [exact Htk|].
    intros f Hw. destruct (Hf _ Hw) as (t & fuel & H1 & H2). eapply faulty_ends; eauto.
  Qed.

  Lemma script_sid st root st1 : scope_tame E ->
    Tokenizes E P (script_ctx P name st) (Script_ E) (script_start E P name st) (TOk root) st1 ->
    next_sid st1 = S (next_sid st).
  Proof.
    intros Hs Ht. destruct (tokenize_hoists _ _ _ _ _ _ _ HE HT Ht) as (x & st2 & l & Hr & _ & _ & _ & (Hsc & _) & _).
    apply runs_kept in Hr as [Hr _]; [|exact Hs]. unfold next_sid. rewrite Hsc, Hr.
    unfold script_start, script_ctx, context_new, register_all, register, register_named, sc_set. cbn [fst snd fold_left].
    rewrite !set_stack_len. unfold sc_new. cbn. rewrite app_length. cbn. lia.
  Qed.

  (* without imports *)
  Lemma states_all sc : forall ss s0, valid_scope s0 sc -> (forall ns path, ~ In (Import ns path) ss) ->
    first_fault (map statement_fault ss) = None ->
    exists s1, all_stated F compile sc ff ss s0 s1 /\ valid_scope s1 sc /\ st_heap s1 = st_heap s0 /\
      (forall x, sc_get s1 sc x = match last_definition x ss with Some m => Some (VMatcher m) | None => sc_get s0 sc x end) /\
      (forall sc' x, sc' <> sc -> sc_get s1 sc' x = sc_get s0 sc' x).
  Proof.
    induction ss as [|d ss IH]; intros s0 V Hi Hf.
    - exists s0. split; [constructor|]. repeat split; auto.
    - assert (Hd : exists x m, defines d = Some (x, m) /\ stated F compile sc ff d s0 (sc_set s0 sc x (VMatcher m))).
      { destruct d as [x whole|x o i k l r|ns path].
        - eexists _, _. split; [reflexivity|]. constructor.
        - eexists _, _. split; [reflexivity|]. constructor. cbn [map statement_fault first_fault] in Hf. now destruct (definition_fault k r).
        - exfalso. apply (Hi ns path). now left. }
      destruct Hd as (x & m & Hd & Hst).
      destruct (IH (sc_set s0 sc x (VMatcher m))) as (s1 & H1 & H2 & H3 & H4 & H5).
      + now apply valid_set.
      + intros ns path Hin. apply (Hi ns path). now right.
      + cbn [map first_fault] in Hf. now destruct (statement_fault d).
      + exists s1. split; [econstructor; eauto|]. split; [exact H2|]. split; [rewrite H3; reflexivity|]. split.
        * intros y. rewrite H4. cbn [last_definition]. rewrite Hd. destruct (last_definition y ss); [reflexivity|].
          destruct (str_eqb x y) eqn:He.
          -- apply str_eqb_eq in He. subst y. now apply get_set_same.
          -- apply get_set_other. right. intros ->. now rewrite str_eqb_refl in He.
        * intros sc' y Hne. rewrite H5 by exact Hne. apply get_set_other. left. congruence.
  Qed.
  Lemma fault_app l l' : first_fault (l ++ l') = match first_fault l with Some f => Some f | None => first_fault l' end.
  Proof. induction l as [|[f|] l IH]; cbn; auto. Qed.
  Lemma no_fault_each ps : first_fault (map fault_of ps) = None -> faultless ps.
  Proof. induction ps as [|p ps IH]; intros H; [constructor|]. cbn in H. destruct (fault_of p) eqn:Hp; [discriminate|]. constructor; auto. now apply IH. Qed.
  Theorem script_compiles_whole d st : scope_tame E -> script_text E d (p_src P) ->
    (forall ns path, ~ In (Import ns path) (s_statements d)) -> script_fault d = None ->
    exists fuel st', compile_with fuel E F compile P name ff false st =
        Ret (ScriptOk (compiled_script name (S (next_sid st)) d) (S (next_sid st))) st' /\
      valid_scope st' (S (next_sid st)) /\
      forall x, sc_get st' (S (next_sid st)) x = option_map VMatcher (last_definition x (s_statements d)).
  Proof.
    intros Hs Hd Hi Hf. unfold script_fault in Hf. rewrite fault_app in Hf. destruct (first_fault (map statement_fault _)) eqn:Hf1; [discriminate|].
    destruct (script_compiles d st Hd (no_fault_each _ Hf)) as (root & st1 & Ht & Hc).
    pose proof (script_sid st root st1 Hs Ht) as Hn.
    destruct (states_all (next_sid st1) (s_statements d) (sc_new st1)) as (st' & H1 & H2 & _ & H4 & _).
    - unfold valid_scope, next_sid, sc_new. cbn. rewrite app_length. cbn. lia.
    - exact Hi.
    - exact Hf1.
    - destruct (Hc st' H1) as [fuel Hfu]. exists fuel, st'. rewrite Hn in *. split; [exact Hfu|]. split; [exact H2|].
      intros x. rewrite H4. destruct (last_definition x (s_statements d)); [reflexivity|]. cbn [option_map].
      unfold sc_get, stack_of, sc_new. cbn [st_scopes]. rewrite <- Hn. unfold next_sid. rewrite app_nth2, Nat.sub_diag by lia. reflexivity.
  Qed.
  Theorem script_compiles_alone d st : scope_tame E -> script_text E d (p_src P) ->
    (forall ns path, ~ In (Import ns path) (s_statements d)) -> script_fault d = None ->
    exists fuel st', compile_with fuel E F compile P name ff false st =
        Ret (ScriptOk (compiled_script name (S (next_sid st)) d) (S (next_sid st))) st' /\
      forall x, sc_get st' (S (next_sid st)) x = option_map VMatcher (last_definition x (s_statements d)).
  Proof. intros. destruct (script_compiles_whole d st) as (fuel & st' & K1 & _ & K3); eauto. Qed.
  Lemma fails_alone sc : forall ss s0 f, valid_scope s0 sc -> (forall ns path, ~ In (Import ns path) ss) ->
    first_fault (map statement_fault ss) = Some f -> statements_wrong F compile sc ff ss s0 (Faulty f).
  Proof.
    induction ss as [|d ss IH]; intros s0 f V Hi Hf; [discriminate|]. cbn [map first_fault] in Hf.
    destruct (statement_fault d) as [g|] eqn:Hd; [injection Hf as ->; apply sx_here; now apply sw_fault|].
    destruct (states_all sc [d] s0 V) as (s1 & H1 & V1 & _).
    - intros ns path [Hin|[]]. apply (Hi ns path). now left.
    - cbn. now rewrite Hd.
    - inversion H1 as [|d0 l0 a b c Hst Hno]; subst. inversion Hno; subst.
      eapply sx_later; [exact Hst|]. apply IH; auto. intros ns path Hin. apply (Hi ns path). now right.
  Qed.
  Theorem script_refused_alone d st f : script_text E d (p_src P) ->
    (forall ns path, ~ In (Import ns path) (s_statements d)) -> script_fault d = Some f ->
    (forall p, crashes f p -> exists fuel, compile_with fuel E F compile P name ff false st = Pan p) /\
    (forall msg, complains f msg -> exists fuel text st', error_text P (pattern_message msg) (mkR 0 0) text /\
       compile_with fuel E F compile P name ff false st = Ret (ScriptErr [mkPE text (Some (mkR 0 0))]) st').
  Proof.
    intros Hd Hi Hf. destruct (script_faulted d st Hd) as (root & st1 & Ht & Hc).
    assert (V : valid_scope (sc_new st1) (next_sid st1)).
    { unfold valid_scope, next_sid, sc_new. cbn. rewrite app_length. cbn. lia. }
    apply Hc.
    { unfold script_fault in Hf. rewrite fault_app in Hf. destruct (first_fault (map statement_fault _)) eqn:Hf1.
      - injection Hf as ->. apply xf_statement. now apply fails_alone.
      - destruct (states_all (next_sid st1) (s_statements d) (sc_new st1) V Hi Hf1) as (s1 & H1 & _). eapply xf_pattern; eauto. }
  Qed.
End Compile.
