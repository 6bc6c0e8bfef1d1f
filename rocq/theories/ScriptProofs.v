(* Proofs about building matchers from parsed scripts. *)
From Verif Require Import ScriptBuild Spec SpecScript Facts DecimalProofs FrameProofs Basics TokenizeProofs TreeProofs
  AtomProofs ProgramProofs CombProofs.
Open Scope string_scope.
Open Scope list_scope.
Open Scope N_scope.

(* ---------- children by name ---------- *)

Lemma among_true st x (names : list String.string) :
  existsb (fun n => str_eqb (tk_name (tok st x)) (lit n)) names = true <->
  exists n, In n names /\ tk_name (tok st x) = lit n.
Proof.
  rewrite existsb_exists. split; intros (n & H1 & H2); exists n; split; auto; now apply str_eqb_eq.
Qed.

Lemma among_some st a names k :
  find_child_among st (tok st a) names = Some k <-> first_kid st a names k.
Proof.
  unfold find_child_among, first_kid. generalize (tk_kids (tok st a)) as l.
  induction l as [|x l IH]; cbn [find].
  - split; [easy|]. intros ([|] & ? & H & _); easy.
  - destruct (existsb _ names) eqn:Ex.
    + split.
      * intros H. injection H as <-. exists [], l. repeat split; auto; try easy. now apply among_true.
      * intros ([|y b] & r & H & _ & Hb).
        -- injection H as -> _. reflexivity.
        -- injection H as -> _. apply among_true in Ex as (n & Hn & Hx).
           now destruct (Hb y n (or_introl eq_refl) Hn).
    + rewrite IH. assert (Hx : forall n, In n names -> tk_name (tok st x) <> lit n).
      { intros n Hn Hx. assert (existsb (fun n => str_eqb (tk_name (tok st x)) (lit n)) names = true); [|congruence].
        apply among_true. eauto. }
      split.
      * intros (b & r & -> & H & Hb). exists (x :: b), r. repeat split; auto.
        intros y n [<-|Hy] Hn; auto.
      * intros ([|y b] & r & H & (n & Hn & Hk) & Hb).
        -- injection H as -> _. now destruct (Hx n Hn).
        -- injection H as -> ->. exists b, r. repeat split; eauto. intros z n' Hz. apply Hb. now right.
Qed.

Lemma among_none st a names :
  find_child_among st (tok st a) names = None <-> no_kid st a names.
Proof.
  unfold find_child_among, no_kid. split.
  - intros H x n Hx Hn He. apply (find_none _ _ H) in Hx.
    assert (existsb (fun n => str_eqb (tk_name (tok st x)) (lit n)) names = true); [|congruence].
    apply among_true; eauto.
  - intros H. destruct (find _ _) as [x|] eqn:Hf; [|reflexivity]. apply find_some in Hf as [Hx Hf].
    apply among_true in Hf as (n & Hn & He). now destruct (H x n Hx Hn).
Qed.

Lemma child_among st a (n : String.string) : find_child st (tok st a) (lit n) = find_child_among st (tok st a) [n].
Proof.
  unfold find_child, find_child_among. induction (tk_kids (tok st a)) as [|x l IH]; [reflexivity|].
  cbn [find existsb]. rewrite orb_false_r, IH. reflexivity.
Qed.

Lemma child_some st a (n : String.string) k : find_child st (tok st a) (lit n) = Some k <-> first_kid st a [n] k.
Proof. rewrite child_among. apply among_some. Qed.
Lemma child_none st a (n : String.string) : find_child st (tok st a) (lit n) = None <-> no_kid st a [n].
Proof. rewrite child_among. apply among_none. Qed.
Lemma has_true st a (n : String.string) : has_child st (tok st a) (lit n) = true <-> exists k, first_kid st a [n] k.
Proof.
  unfold has_child. destruct (find_child st (tok st a) (lit n)) as [k|] eqn:H.
  - split; auto. intros _. exists k. now apply child_some.
  - split; [easy|]. intros [k Hk]. apply child_some in Hk. congruence.
Qed.
Lemma has_false st a (n : String.string) : has_child st (tok st a) (lit n) = false <-> no_kid st a [n].
Proof.
  unfold has_child. destruct (find_child st (tok st a) (lit n)) as [k|] eqn:H.
  - split; [easy|]. intros Hk. apply child_none in Hk. congruence.
  - split; auto. intros _. now apply child_none.
Qed.

(* ---------- repeat specifiers ---------- *)

Lemma plus_not_digit s : ~ (forall x, In x ("+"%char :: s) -> is_digit x).
Proof. intros H. specialize (H _ (or_introl eq_refl)). unfold is_digit in H. cbn in H. lia. Qed.

Lemma parse_usize_spec s n : parse_usize s = Some n <-> usize_text n s.
Proof.
  unfold usize_text, numeral. destruct s as [|x s].
  { split; [easy|]. intros [[H _]|[d [H _]]]; easy. }
  unfold parse_usize. destruct (Ascii.eqb_spec x "+") as [->|Hx].
  - destruct s as [|y s].
    { split; [easy|]. intros [(_ & H & _)|[d [H Hd]]]; [now apply plus_not_digit in H|].
      injection H as <-. now destruct Hd. }
    rewrite parse_digits_spec by (unfold usize_max; lia). split.
    + intros (H1 & H2 & H3). right. exists (y :: s). split; [reflexivity|]. split; [easy|auto].
    + intros [(_ & H & _)|[d [H (H0 & H1 & H2 & H3)]]]; [now apply plus_not_digit in H|].
      injection H as <-. auto.
  - rewrite parse_digits_spec by (unfold usize_max; lia). split.
    + intros (H1 & H2 & H3). left. split; [easy|auto].
    + intros [(H0 & H1 & H2 & H3)|[d [H _]]]; auto. congruence.
Qed.

Lemma parse_or_err_spec s n : parse_or_err s = COk n <-> usize_text n s.
Proof.
  rewrite <- parse_usize_spec. unfold parse_or_err. destruct (parse_usize s) as [x|].
  - split; congruence.
  - destruct (forallb _ s); easy.
Qed.

Lemma eqb_lit (s : str) (n : String.string) : str_eqb s (lit n) = true <-> s = lit n.
Proof. apply str_eqb_eq. Qed.

Lemma repeat_range_spec st a lo hi : repeat_range st a = COk (lo, hi) <-> repeat_means st a lo hi.
Proof.
  unfold repeat_range. split.
  - destruct (str_eqb (tk_name (tok st a)) "RepeatZeroOrMore") eqn:H1.
    { apply str_eqb_eq in H1. intros H. injection H as <- <-. now apply rm_star. }
    destruct (str_eqb (tk_name (tok st a)) "RepeatOneOrMore") eqn:H2.
    { apply str_eqb_eq in H2. intros H. injection H as <- <-. now apply rm_plus. }
    destruct (str_eqb (tk_name (tok st a)) "RepeatRange") eqn:H3; [|easy].
    apply str_eqb_eq in H3.
    destruct (find_child st (tok st a) "Minimum") as [k|] eqn:Hk; [|easy].
    apply (child_some st a "Minimum") in Hk.
    destruct (parse_or_err (get_cvalue (tok st k))) as [n| | |] eqn:Hp; try easy.
    apply parse_or_err_spec in Hp.
    destruct (has_child st (tok st a) "Seperator") eqn:Hs.
    + apply (has_true st a "Seperator") in Hs as [sep Hs].
      destruct (find_child st (tok st a) "Maximum") as [k2|] eqn:Hk2.
      * apply (child_some st a "Maximum") in Hk2.
        destruct (parse_or_err (get_cvalue (tok st k2))) as [n2| | |] eqn:Hp2; try easy.
        apply parse_or_err_spec in Hp2.
        destruct (N.ltb_spec n2 n) as [|Hle]; [easy|].
        intros H. injection H as <- <-. eapply rm_between; eauto.
      * apply (child_none st a "Maximum") in Hk2. intros H. injection H as <- <-. eapply rm_from; eauto.
    + apply (has_false st a "Seperator") in Hs. intros H. injection H as <- <-. eapply rm_exact; eauto.
  - intros H; destruct H as [Hn|Hn|k n Hn F U S|k sep n Hn F U S M|k sep k2 n n2 Hn F U S M U2 L];
      rewrite Hn; try reflexivity;
      change (str_eqb "RepeatRange" "RepeatZeroOrMore") with false;
      change (str_eqb "RepeatRange" "RepeatOneOrMore") with false;
      change (str_eqb "RepeatRange" "RepeatRange") with true; cbv iota.
    all: apply (child_some st a "Minimum") in F; apply parse_or_err_spec in U.
    + apply (has_false st a "Seperator") in S. rewrite F, U, S. reflexivity.
    + assert (S' : has_child st (tok st a) "Seperator" = true) by (apply (has_true st a "Seperator"); eauto).
      apply (child_none st a "Maximum") in M. rewrite F, U, S', M. reflexivity.
    + assert (S' : has_child st (tok st a) "Seperator" = true) by (apply (has_true st a "Seperator"); eauto).
      apply (child_some st a "Maximum") in M. apply parse_or_err_spec in U2.
      rewrite F, U, S', M, U2.
      destruct (N.ltb_spec n2 n); [lia|reflexivity].
Qed.

(* ---------- the layers ---------- *)

Lemma child_at st (t : token) n x : child st t n = COk x <-> exists k, nth_error (tk_kids t) n = Some k /\ x = tok st k.
Proof.
  unfold child. destruct (nth_error (tk_kids t) n) as [k|]; split.
  - intros H. injection H as <-. eauto.
  - intros (k' & H & ->). now injection H as <-.
  - easy.
  - intros (k' & H & _). easy.
Qed.
Lemma kid0 {A} (l : list A) k : nth_error l 0 = Some k <-> exists r, l = k :: r.
Proof.
  destruct l; cbn; split; [easy|intros [r H]; easy|intros H; injection H as ->; eauto|intros [r H]; now injection H as ->].
Qed.
Lemma kid1 {A} (l : list A) k : nth_error l 1 = Some k <-> exists x r, l = x :: k :: r.
Proof.
  destruct l as [|x [|y l]]; cbn; split; try easy; try (intros (? & ? & H); easy).
  - intros H; injection H as ->; eauto.
  - intros (? & ? & H). now injection H as -> -> ->.
Qed.
Lemma kid2 {A} (l : list A) k : nth_error l 2 = Some k <-> exists x y r, l = x :: y :: k :: r.
Proof.
  destruct l as [|x [|y [|z l]]]; cbn; split; try easy; try (intros (? & ? & ? & H); easy).
  - intros H; injection H as ->; eauto.
  - intros (? & ? & ? & H). now injection H as -> -> -> ->.
Qed.

Lemma collect_spec st l : forall acc acc',
  collect_attrs st l acc = COk acc' <-> attr_list st l acc acc'.
Proof.
  induction l as [|a l IH]; intros acc acc'; cbn [collect_attrs].
  - split; [intros H; injection H as <-; constructor|intros H; now inversion H].
  - split.
    + destruct (child st (tok st a) 0) as [k| | |] eqn:H0; try easy.
      destruct (child st (tok st a) 1) as [v| | |] eqn:H1; try easy.
      apply child_at in H0 as (k' & H0 & ->), H1 as (v' & H1 & ->).
      apply kid0 in H0 as [r0 H0]. apply kid1 in H1 as (x & r & H1).
      rewrite IH. intros H. rewrite H1 in H0. injection H0 as -> _.
      econstructor; eauto.
    + intros H. inversion H as [|? ? k v r ? ? Hk Hrec]; subst.
      assert (H0 : child st (tok st a) 0 = COk (tok st k)) by (apply child_at; exists k; now rewrite Hk).
      assert (H1 : child st (tok st a) 1 = COk (tok st v)) by (apply child_at; exists v; now rewrite Hk).
      rewrite H0, H1. now apply IH.
Qed.

Lemma attrs_spec st a m m' : wrap_attrs st (tok st a) m = COk m' <-> with_attrs st a m m'.
Proof.
  unfold wrap_attrs. destruct (find_child st (tok st a) "Attributes") as [k|] eqn:Hk.
  - assert (F : first_kid st a ["Attributes"] k) by now apply (child_some st a "Attributes").
    assert (U : forall k', first_kid st a ["Attributes"] k' -> k' = k).
    { intros k' F'. apply (child_some st a "Attributes") in F'. congruence. }
    assert (N : no_kid st a ["Attributes"] -> False).
    { intros F'. apply (child_none st a "Attributes") in F'. congruence. }
    destruct (tk_kids (tok st k)) as [|x l] eqn:Hl.
    + split.
      * intros H. injection H as <-. eapply wa_empty; eauto.
      * intros H. destruct H as [|? ?|? ? F' Hn]; [easy|reflexivity|]. apply U in F'. subst. congruence.
    + split.
      * destruct (collect_attrs st (x :: l) []) as [at_| | |] eqn:Hc; try easy.
        intros H. injection H as <-. rewrite <- Hl in Hc. apply collect_spec in Hc.
        eapply wa_some; eauto. congruence.
      * intros H. destruct H as [|? F' Hn|? l' F' Hn Hp]; [easy| |]; apply U in F'; subst; [congruence|].
        rewrite <- Hl. apply collect_spec in Hp. now rewrite Hp.
  - apply (child_none st a "Attributes") in Hk. split.
    + intros H. injection H as <-. now apply wa_none.
    + intros H. destruct H as [|? F|? ? F]; [reflexivity| |]; exfalso;
        apply (child_some st a "Attributes") in F; apply (child_none st a "Attributes") in Hk; congruence.
Qed.

Lemma kid_clash st a n k : no_kid st a [n] -> first_kid st a [n] k -> False.
Proof.
  intros H F. apply child_none in H. apply child_some in F. congruence.
Qed.

Lemma sign_spec st a (o n : String.string) m m' :
  wrap_modifier (has_child st (tok st a) (lit o)) (has_child st (tok st a) (lit n)) m = m' <->
  with_sign st a o n m m'.
Proof.
  unfold wrap_modifier. destruct (has_child st (tok st a) (lit o)) eqn:Ho.
  - apply has_true in Ho as [k Hk]. split.
    + intros <-. eapply ws_opt; eauto.
    + intros H. destruct H as [|? H|H]; [reflexivity| |]; exfalso; eauto using kid_clash.
  - apply has_false in Ho. destruct (has_child st (tok st a) (lit n)) eqn:Hn.
    + apply has_true in Hn as [k Hk]. split.
      * intros <-. eapply ws_not; eauto.
      * intros H. destruct H as [? H|? H|H]; [|reflexivity|]; exfalso; eauto using kid_clash.
    + apply has_false in Hn. split.
      * intros <-. now apply ws_none.
      * intros H. destruct H as [? H|? H|H]; [| |reflexivity]; exfalso; eauto using kid_clash.
Qed.

Lemma wrap_repeat_spec st a m m' : wrap_repeat st (tok st a) m = COk m' <-> with_repeat st a m m'.
Proof.
  unfold wrap_repeat. destruct (find_child_among st (tok st a) REPEAT_SPECIFIER) as [k|] eqn:Hk.
  - assert (F : first_kid st a repeats k) by now apply among_some.
    split.
    + destruct (repeat_range st k) as [[lo hi]| | |] eqn:Hr; try easy.
      apply repeat_range_spec in Hr. intros H. injection H as <-. cbn [fst snd LoopR get_range].
      eapply wr_some; eauto.
    + intros H. destruct H as [Hn|k' lo hi F' R].
      * apply among_none in Hn. change repeats with REPEAT_SPECIFIER in Hn. congruence.
      * apply among_some in F'. change repeats with REPEAT_SPECIFIER in F'.
        assert (k' = k) by congruence. subst. apply repeat_range_spec in R. now rewrite R.
  - apply among_none in Hk. split.
    + intros H. injection H as <-. now apply wr_none.
    + intros H. destruct H as [|k' lo hi F' R]; [reflexivity|].
      apply among_none in Hk. apply among_some in F'. change repeats with REPEAT_SPECIFIER in F'. congruence.
Qed.

Lemma name_spec name m m' : match name with [] => m | _ => m_set_name name m end = m' <-> with_name name m m'.
Proof.
  unfold with_name. destruct name as [|x n]; split.
  - intros <-. now left.
  - now intros [[_ ->]|[H _]].
  - intros <-. now right.
  - now intros [[H _]|[_ ->]].
Qed.

(* ---------- sound and complete ---------- *)

Lemma build_all_mean E st f : (forall a m, f a = COk m -> pattern_means E st a m) ->
  forall l ms, build_all f l = COk ms -> patterns_mean E st l ms.
Proof.
  intros Hf. induction l as [|a l IH]; intros ms; cbn [build_all].
  - intros H. injection H as <-. constructor.
  - destruct (f a) as [m| | |] eqn:Ha; try easy. destruct (build_all f l) as [ms'| | |]; try easy.
    intros H. injection H as <-. constructor; auto.
Qed.

Ltac name_case H := match goal with |- context [str_eqb ?n ?l] => destruct (str_eqb n l) eqn:H; [apply str_eqb_eq in H|] end.

Lemma inner_mean E st f : (forall a m, f a = COk m -> pattern_means E st a m) ->
  forall a m, build_inner E f st a = COk m -> core_means E st a m.
Proof.
  intros Hf a m. unfold build_inner.
  name_case H1.
  { destruct (child st (tok st a) 0) as [c| | |] eqn:Hc; try easy.
    apply child_at in Hc as (k & Hc & ->). apply kid0 in Hc as [r Hr].
    destruct (get_value (tok st k)) as [|x v] eqn:Hv; [easy|]. intros H. injection H as <-.
    eapply cm_equals; eauto. easy. }
  name_case H2.
  { destruct (get_value (tok st a)) as [|x v] eqn:Hv; [easy|].
    unfold compile_regex. destruct (find_child st (tok st a) "Flags") as [k|] eqn:Hk.
    - apply (child_some st a "Flags") in Hk. destruct (e_regex E _) as [g|] eqn:Hg; [|easy].
      intros H. injection H as <-. eapply cm_regex_flags; eauto. easy.
    - apply (child_none st a "Flags") in Hk. destruct (e_regex E _) as [g|] eqn:Hg; [|easy].
      intros H. injection H as <-. eapply cm_regex; eauto. easy. }
  name_case H3.
  { destruct (child st (tok st a) 0) as [x| | |] eqn:Hx; try easy.
    destruct (child st (tok st a) 1) as [y| | |] eqn:Hy; try easy.
    destruct (child st (tok st a) 2) as [z| | |] eqn:Hz; try easy.
    apply child_at in Hx as (x' & Hx & ->), Hy as (y' & Hy & ->), Hz as (z' & Hz & ->).
    apply kid2 in Hz as (x2 & y2 & r & Hl). rewrite Hl in Hx, Hy. injection Hx as ->. injection Hy as ->.
    destruct (N.eqb_spec (slen (get_value (tok st x'))) 0) as [|Nx]; [easy|].
    destruct (N.eqb_spec (slen (get_value (tok st y'))) 0) as [|Ny]; [easy|].
    rewrite slen_0 in Nx, Ny. intros H. injection H as <-.
    eapply cm_sequence; eauto; reflexivity. }
  name_case H4.
  { destruct (child st (tok st a) 0) as [c| | |] eqn:Hc; try easy.
    apply child_at in Hc as (k & Hc & ->). apply kid0 in Hc as [r Hr].
    destruct (get_value (tok st k)) as [|x v] eqn:Hv; [easy|]. intros H. injection H as <-.
    eapply cm_custom; eauto. easy. }
  name_case H5.
  { destruct (tk_kids (tok st a)) as [|k l] eqn:Hl.
    - intros H. injection H as <-. apply cm_empty; auto.
    - destruct (build_all f (k :: l)) as [ms| | |] eqn:Hb; try easy.
      intros H. injection H as <-. apply cm_switch; auto; rewrite Hl; [easy|].
      eapply build_all_mean; eauto. }
  name_case H6; [|easy].
  { destruct (tk_kids (tok st a)) as [|k l] eqn:Hl.
    - intros H. injection H as <-. apply cm_empty; auto.
    - destruct (build_all f (k :: l)) as [ms| | |] eqn:Hb; try easy.
      intros H. injection H as <-. apply cm_program; auto; rewrite Hl; [easy|].
      eapply build_all_mean; eauto. }
Qed.

Lemma def_mean E st f : (forall a m, f a = COk m -> pattern_means E st a m) ->
  forall a name captured m, build_def E f st a name captured = COk m ->
  exists m', def_means E st a name m' /\ m = if captured then m' else MDiscard m'.
Proof.
  intros Hf a name captured m. unfold build_def.
  destruct (str_eqb (tk_name (tok st a)) "PatternDefinition") eqn:Hn; [apply str_eqb_eq in Hn|easy].
  cbn [negb]. destruct (find_child_among st (tok st a) PATTERN_MATCHER) as [k|] eqn:Hk; [|easy].
  apply among_some in Hk.
  destruct (build_inner E f st k) as [core| | |] eqn:Hi; try easy.
  apply (inner_mean E st f Hf) in Hi.
  destruct (wrap_attrs st (tok st a) _) as [m1| | |] eqn:Ha; try easy. apply attrs_spec in Ha.
  destruct (wrap_repeat st (tok st a) _) as [m2| | |] eqn:Hr; try easy. apply wrap_repeat_spec in Hr.
  intros H. injection H as <-. eexists. split; [|reflexivity].
  eapply dm_layers; eauto.
  - now apply name_spec.
  - now apply sign_spec.
  - now apply sign_spec.
Qed.

Lemma pat_mean E st f : (forall a m, f a = COk m -> pattern_means E st a m) ->
  forall a m, build_pat E f st a = COk m -> pattern_means E st a m.
Proof.
  intros Hf a m. unfold build_pat.
  name_case H1.
  { destruct (find_child st (tok st a) "MatcherName") as [nt|] eqn:Hnt.
    - apply (child_some st a "MatcherName") in Hnt.
      destruct (child st (tok st nt) 0) as [c| | |] eqn:Hc; try easy.
      apply child_at in Hc as (nk & Hc & ->). apply kid0 in Hc as [nr Hnr].
      destruct (nth_error (tk_kids (tok st a)) 1) as [d|] eqn:Hd; [|easy].
      apply kid1 in Hd as (x & r & Hd). intros H.
      apply (def_mean E st f Hf) in H as (m' & H & ->). eapply pm_named; eauto.
    - apply (child_none st a "MatcherName") in Hnt.
      destruct (nth_error (tk_kids (tok st a)) 0) as [d|] eqn:Hd; [|easy].
      apply kid0 in Hd as (r & Hd). intros H.
      apply (def_mean E st f Hf) in H as (m' & H & ->). eapply pm_captured; eauto. }
  name_case H2; [|easy].
  intros H. apply (def_mean E st f Hf) in H as (m' & H & ->). now apply pm_plain.
Qed.

Lemma build_mean E st : forall n a m, build n E st a = COk m -> pattern_means E st a m.
Proof.
  induction n as [|n IH]; [easy|]. intros a m. cbn [build]. now apply pat_mean.
Qed.

Scheme pm_ind := Minimality for pattern_means Sort Prop
  with dm_ind := Minimality for def_means Sort Prop
  with cm_ind := Minimality for core_means Sort Prop
  with ps_ind := Minimality for patterns_mean Sort Prop.
Combined Scheme means_ind from pm_ind, dm_ind, cm_ind, ps_ind.

Definition eventually {A} (f : nat -> cres A) (r : cres A) : Prop :=
  exists n0, forall n, (n0 <= n)%nat -> f n = r.

Lemma means_build E st :
  (forall a m, pattern_means E st a m -> eventually (fun n => build n E st a) (COk m)) /\
  (forall a name m, def_means E st a name m ->
     forall captured, eventually (fun n => build_def E (build n E st) st a name captured)
                                 (COk (if captured then m else MDiscard m))) /\
  (forall a m, core_means E st a m -> eventually (fun n => build_inner E (build n E st) st a) (COk m)) /\
  (forall l ms, patterns_mean E st l ms -> eventually (fun n => build_all (build n E st) l) (COk ms)).
Proof.
  apply means_ind.
  - intros a nt nk nr x d r m Hn Hnt Hnk Hk _ IH. destruct (IH true) as [n0 IHn]. exists (S n0).
    intros [|n] Hle; [lia|]. cbn [build]. unfold build_pat. rewrite Hn.
    change (str_eqb "PatternDefinitionCaptured" "PatternDefinitionCaptured") with true. cbv iota.
    apply (child_some st a "MatcherName") in Hnt. rewrite Hnt.
    unfold child. rewrite Hnk, Hk. cbn [nth_error]. apply IHn. lia.
  - intros a d r m Hn Hnt Hk _ IH. destruct (IH true) as [n0 IHn]. exists (S n0).
    intros [|n] Hle; [lia|]. cbn [build]. unfold build_pat. rewrite Hn.
    change (str_eqb "PatternDefinitionCaptured" "PatternDefinitionCaptured") with true. cbv iota.
    apply (child_none st a "MatcherName") in Hnt. rewrite Hnt, Hk. cbn [nth_error]. apply IHn. lia.
  - intros a m Hn _ IH. destruct (IH false) as [n0 IHn]. exists (S n0).
    intros [|n] Hle; [lia|]. cbn [build]. unfold build_pat. rewrite Hn.
    change (str_eqb "PatternDefinition" "PatternDefinitionCaptured") with false.
    change (str_eqb "PatternDefinition" "PatternDefinition") with true. cbv iota. apply IHn. lia.
  - intros a name k core named m1 m2 m3 m Hn Hk _ [n0 IH] H1 H2 H3 H4 H5 captured. exists n0.
    intros n Hle. unfold build_def. rewrite Hn.
    change (negb (str_eqb "PatternDefinition" "PatternDefinition")) with false. cbv iota.
    apply among_some in Hk. change cores with PATTERN_MATCHER in Hk. rewrite Hk, (IH n Hle).
    apply name_spec in H1. rewrite H1. apply attrs_spec in H2. rewrite H2.
    apply sign_spec in H3. change (lit "InnerOptionalModifier") with (lit "InnerOptionalModifier") in H3.
    rewrite H3. apply wrap_repeat_spec in H4. rewrite H4. apply sign_spec in H5. rewrite H5. reflexivity.
  - intros a k r v Hn Hk Hv Hne. exists O. intros n _. unfold build_inner, child. rewrite Hn, Hk.
    cbv [text_of] in Hv. change (str_eqb "EqualsMatcher" "EqualsMatcher") with true. cbv iota. cbn [nth_error].
    rewrite Hv. destruct v; [easy|reflexivity].
  - intros a v f Hn Hv Hne Hf Hr. exists O. intros n _. unfold build_inner, compile_regex. rewrite Hn.
    cbv [text_of] in Hv. change (str_eqb "RegexMatcher" "EqualsMatcher") with false.
    change (str_eqb "RegexMatcher" "RegexMatcher") with true. cbv iota.
    apply (child_none st a "Flags") in Hf. destruct v as [|x v]; [easy|]. rewrite Hv, Hf. rewrite Hr. reflexivity.
  - intros a v k f Hn Hv Hne Hf Hr. exists O. intros n _. unfold build_inner, compile_regex. rewrite Hn.
    cbv [text_of] in Hv. change (str_eqb "RegexMatcher" "EqualsMatcher") with false.
    change (str_eqb "RegexMatcher" "RegexMatcher") with true. cbv iota.
    apply (child_some st a "Flags") in Hf. destruct v as [|x v]; [easy|]. rewrite Hv, Hf. rewrite Hr. reflexivity.
  - intros a s e x r vs ve vx Hn Hk Hs He Hx Ns Ne. exists O. intros n _. unfold build_inner, child.
    rewrite Hn, Hk. cbv [text_of] in Hs, He, Hx. cbn [nth_error]. rewrite Hs, He, Hx.
    change (str_eqb "SequenceMatcher" "EqualsMatcher") with false.
    change (str_eqb "SequenceMatcher" "RegexMatcher") with false.
    change (str_eqb "SequenceMatcher" "SequenceMatcher") with true. cbv iota.
    apply slen_pos in Ns, Ne.
    destruct (N.eqb_spec (slen vs) 0); [lia|]. destruct (N.eqb_spec (slen ve) 0); [lia|]. reflexivity.
  - intros a k r v Hn Hk Hv Hne. exists O. intros n _. unfold build_inner, child. rewrite Hn, Hk.
    cbv [text_of] in Hv. cbn [nth_error]. rewrite Hv. destruct v; [easy|reflexivity].
  - intros a Hn Hk. exists O. intros n _. unfold build_inner. rewrite Hk.
    destruct Hn as [Hn|Hn]; rewrite Hn; reflexivity.
  - intros a ms Hn Hk _ [n0 IH]. exists n0. intros n Hle. specialize (IH n Hle).
    unfold build_inner. rewrite Hn. destruct (tk_kids (tok st a)) as [|k l]; [easy|].
    change (str_eqb "SwitchMatcher" "EqualsMatcher") with false.
    change (str_eqb "SwitchMatcher" "RegexMatcher") with false.
    change (str_eqb "SwitchMatcher" "SequenceMatcher") with false.
    change (str_eqb "SwitchMatcher" "CustomMatcher") with false.
    change (str_eqb "SwitchMatcher" "SwitchMatcher") with true. cbv iota. now rewrite IH.
  - intros a ms Hn Hk _ [n0 IH]. exists n0. intros n Hle. specialize (IH n Hle).
    unfold build_inner. rewrite Hn. destruct (tk_kids (tok st a)) as [|k l]; [easy|].
    change (str_eqb "ProgramMatcher" "EqualsMatcher") with false.
    change (str_eqb "ProgramMatcher" "RegexMatcher") with false.
    change (str_eqb "ProgramMatcher" "SequenceMatcher") with false.
    change (str_eqb "ProgramMatcher" "CustomMatcher") with false.
    change (str_eqb "ProgramMatcher" "SwitchMatcher") with false.
    change (str_eqb "ProgramMatcher" "ProgramMatcher") with true. cbv iota. now rewrite IH.
  - exists O. intros n _. reflexivity.
  - intros a l m ms _ [n1 IH1] _ [n2 IH2]. exists (Nat.max n1 n2). intros n Hle. cbn [build_all].
    rewrite IH1, IH2 by lia. reflexivity.
Qed.

(* ---------- the depth bound is never reached on trees ---------- *)

Definition settled {A} (x y : cres A) : Prop := x = CFuel \/ x = y.

Lemma build_all_settled f g l : (forall a, settled (f a) (g a)) -> settled (build_all f l) (build_all g l).
Proof.
  intros H. induction l as [|a l IH]; cbn [build_all]; [now right|].
  destruct (H a) as [->| ->]; [now left|]. destruct (g a); try now right.
  destruct IH as [->| ->]; [now left|now right].
Qed.

Lemma inner_settled E f g st a : (forall k, settled (f k) (g k)) ->
  settled (build_inner E f st a) (build_inner E g st a).
Proof.
  intros H. unfold build_inner.
  do 4 (match goal with |- settled (if ?b then _ else _) _ => destruct b; [now right|] end).
  destruct (str_eqb _ "SwitchMatcher").
  { destruct (tk_kids (tok st a)) as [|k l]; [now right|].
    destruct (build_all_settled f g (k :: l) H) as [->| ->]; [now left|now right]. }
  destruct (str_eqb _ "ProgramMatcher"); [|now right].
  destruct (tk_kids (tok st a)) as [|k l]; [now right|].
  destruct (build_all_settled f g (k :: l) H) as [->| ->]; [now left|now right].
Qed.

Lemma def_settled E f g st a name c : (forall k, settled (f k) (g k)) ->
  settled (build_def E f st a name c) (build_def E g st a name c).
Proof.
  intros H. unfold build_def. destruct (negb _); [now right|].
  destruct (find_child_among _ _ _) as [k|]; [|now right].
  destruct (inner_settled E f g st k H) as [->| ->]; [now left|now right].
Qed.

Lemma pat_settled E f g st a : (forall k, settled (f k) (g k)) ->
  settled (build_pat E f st a) (build_pat E g st a).
Proof.
  intros H. unfold build_pat. destruct (str_eqb _ "PatternDefinitionCaptured").
  - destruct (find_child _ _ _) as [nt|].
    + destruct (child _ _ _); try now right. destruct (nth_error _ 1); [|now right]. now apply def_settled.
    + destruct (nth_error _ 0); [|now right]. now apply def_settled.
  - destruct (str_eqb _ "PatternDefinition"); [|now right]. now apply def_settled.
Qed.

Lemma build_settled E st : forall n n' a, (n <= n')%nat -> settled (build n E st a) (build n' E st a).
Proof.
  induction n as [|n IH]; intros n' a Hle; [now left|].
  destruct n' as [|n']; [lia|]. cbn [build]. apply pat_settled. intros k. apply IH. lia.
Qed.

(* tokens of a list that are in the store *)
Definition weight (st : state) (l : list addr) : nat :=
  List.length (filter (fun a => Nat.ltb a (heap_size st)) l).

Lemma weight_app st a b : weight st (a ++ b) = (weight st a + weight st b)%nat.
Proof. unfold weight. now rewrite filter_app, app_length. Qed.

Lemma weight_nodup st l : NoDup l -> (weight st l <= heap_size st)%nat.
Proof.
  intros H. unfold weight. transitivity (List.length (seq 0 (heap_size st))); [|rewrite seq_length; lia].
  apply NoDup_incl_length; [now apply NoDup_filter|].
  intros x Hx. apply filter_In in Hx as [_ Hx]. apply Nat.ltb_lt in Hx. apply in_seq. lia.
Qed.

Lemma has_kids st a k : In k (tk_kids (tok st a)) -> (a < heap_size st)%nat.
Proof.
  intros H. destruct (Nat.ltb_spec a (heap_size st)) as [|Hle]; [assumption|].
  unfold tok in H. rewrite nth_overflow in H by exact Hle. destruct H.
Qed.

Lemma preorder_pick st roots l k : preorder st roots l -> In k roots ->
  exists l', preorder st [k] l' /\ (weight st l' <= weight st l)%nat.
Proof.
  intros H. induction H as [|a roots l1 l2 H1 IH1 H2 IH2]; [easy|]. intros [<-|Hk].
  - exists (a :: l1 ++ []). split; [now apply pre_cons; [|constructor]|].
    change (a :: l1 ++ l2) with ([a] ++ (l1 ++ l2)). change (a :: l1 ++ []) with ([a] ++ (l1 ++ [])).
    rewrite !weight_app. change (weight st []) with O. lia.
  - destruct (IH2 Hk) as (l' & Hl & Hw). exists l'. split; [assumption|].
    change (a :: l1 ++ l2) with ([a] ++ (l1 ++ l2)). rewrite !weight_app. lia.
Qed.

Lemma subtree st a l k : preorder st [a] l -> In k (tk_kids (tok st a)) ->
  exists l', preorder st [k] l' /\ (weight st l' < weight st l)%nat.
Proof.
  intros H Hk. inversion H as [|? ? l1 l2 H1 H2]; subst. inversion H2; subst.
  destruct (preorder_pick _ _ _ _ H1 Hk) as (l' & Hl & Hw). exists l'. split; [assumption|].
  change (a :: l1 ++ []) with ([a] ++ (l1 ++ [])). rewrite !weight_app. change (weight st []) with O. unfold weight at 2. cbn [filter].
  destruct (Nat.ltb_spec a (heap_size st)) as [_|Hle]; [cbn; lia|].
  apply has_kids in Hk. lia.
Qed.

Lemma among_in st t names k : find_child_among st t names = Some k -> In k (tk_kids t).
Proof. intros H. now apply find_some in H. Qed.

Lemma build_all_enough f l : (forall k, In k l -> f k <> @CFuel matcher) -> build_all f l <> CFuel.
Proof.
  induction l as [|a l IH]; intros H; cbn [build_all]; [easy|].
  pose proof (H a (or_introl eq_refl)) as Ha. destruct (f a); try easy.
  assert (build_all f l <> CFuel) as Hl by (apply IH; intros k Hk; apply H; now right).
  now destruct (build_all f l).
Qed.

Lemma inner_enough E f st a : (forall k, In k (tk_kids (tok st a)) -> f k <> CFuel) ->
  build_inner E f st a <> CFuel.
Proof.
  intros H. unfold build_inner, child, compile_regex.
  destruct (str_eqb _ "EqualsMatcher"). { destruct (nth_error _ 0); [|easy]. now destruct (get_value _). }
  destruct (str_eqb _ "RegexMatcher").
  { destruct (get_value _); [easy|]. destruct (find_child _ _ _); now destruct (e_regex E _). }
  destruct (str_eqb _ "SequenceMatcher").
  { destruct (nth_error _ 0); [|easy]. destruct (nth_error _ 1); [|easy]. destruct (nth_error _ 2); [|easy].
    destruct (_ =? 0); [easy|]. now destruct (_ =? 0). }
  destruct (str_eqb _ "CustomMatcher"). { destruct (nth_error _ 0); [|easy]. now destruct (get_value _). }
  destruct (str_eqb _ "SwitchMatcher").
  { destruct (tk_kids (tok st a)) as [|k l]; [easy|].
    pose proof (build_all_enough f (k :: l) H) as Hb. now destruct (build_all f (k :: l)). }
  destruct (str_eqb _ "ProgramMatcher"); [|easy].
  destruct (tk_kids (tok st a)) as [|k l]; [easy|].
  pose proof (build_all_enough f (k :: l) H) as Hb. now destruct (build_all f (k :: l)).
Qed.

Lemma collect_enough st l : forall acc, collect_attrs st l acc <> CFuel.
Proof.
  induction l as [|a l IH]; intros acc; cbn [collect_attrs]; [easy|]. unfold child.
  destruct (nth_error _ 0); [|easy]. destruct (nth_error _ 1); [|easy]. apply IH.
Qed.

Lemma parse_enough s : parse_or_err s <> CFuel.
Proof. unfold parse_or_err. destruct (parse_usize s); [easy|]. now destruct (forallb _ s). Qed.

Lemma repeat_enough st a : repeat_range st a <> CFuel.
Proof.
  unfold repeat_range. destruct (str_eqb _ _); [easy|]. destruct (str_eqb _ _); [easy|].
  destruct (str_eqb _ _); [|easy]. destruct (find_child _ _ _) as [k|]; [|easy].
  pose proof (parse_enough (get_cvalue (tok st k))). destruct (parse_or_err _); try easy.
  destruct (has_child _ _ _); [|easy]. destruct (find_child _ _ _) as [k'|]; [|easy].
  pose proof (parse_enough (get_cvalue (tok st k'))). destruct (parse_or_err _); try easy.
  now destruct (_ <? _).
Qed.

Lemma def_enough E f st a name c :
  (forall k k', In k (tk_kids (tok st a)) -> In k' (tk_kids (tok st k)) -> f k' <> CFuel) ->
  build_def E f st a name c <> CFuel.
Proof.
  intros H. unfold build_def. destruct (negb _); [easy|].
  destruct (find_child_among _ _ _) as [k|] eqn:Hk; [|easy]. apply among_in in Hk.
  pose proof (inner_enough E f st k (fun k' => H k k' Hk)) as Hi.
  destruct (build_inner E f st k) as [m| | |]; try easy.
  match goal with |- match wrap_attrs ?x ?y ?z with _ => _ end <> _ =>
    assert (Ha : wrap_attrs x y z <> CFuel); [|destruct (wrap_attrs x y z); try easy] end.
  { unfold wrap_attrs. destruct (find_child _ _ _) as [k'|]; [|easy].
    destruct (tk_kids (tok st k')); [easy|].
    pose proof (collect_enough st (a0 :: l) []). now destruct (collect_attrs _ _ _). }
  match goal with |- match wrap_repeat ?x ?y ?z with _ => _ end <> _ =>
    assert (Hr : wrap_repeat x y z <> CFuel); [|now destruct (wrap_repeat x y z)] end.
  unfold wrap_repeat. destruct (find_child_among _ _ _) as [k'|]; [|easy].
  pose proof (repeat_enough st k'). now destruct (repeat_range st k').
Qed.

Lemma build_enough E st : forall n a l, preorder st [a] l -> (weight st l < n)%nat -> build n E st a <> CFuel.
Proof.
  induction n as [|n IH]; intros a l Hp Hw; [lia|]. cbn [build]. unfold build_pat.
  assert (Hdef : forall d l', preorder st [d] l' -> (weight st l' <= weight st l)%nat ->
                 forall name c, build_def E (build n E st) st d name c <> CFuel).
  { intros d l' Hd Hw' name c. apply def_enough. intros k k' Hk Hk'.
    destruct (subtree _ _ _ _ Hd Hk) as (l1 & H1 & W1). destruct (subtree _ _ _ _ H1 Hk') as (l2 & H2 & W2).
    apply (IH k' l2 H2). lia. }
  assert (Hkid : forall k name c, In k (tk_kids (tok st a)) -> build_def E (build n E st) st k name c <> CFuel).
  { intros k name c Hk. destruct (subtree _ _ _ _ Hp Hk) as (l1 & H1 & W1). apply (Hdef k l1 H1). lia. }
  destruct (str_eqb _ "PatternDefinitionCaptured").
  - destruct (find_child _ _ _) as [nt|].
    + unfold child. destruct (nth_error _ 0); [|easy].
      destruct (nth_error (tk_kids (tok st a)) 1) eqn:H1; [|easy]. apply Hkid. now apply nth_error_In in H1.
    + destruct (nth_error (tk_kids (tok st a)) 0) eqn:H1; [|easy]. apply Hkid. now apply nth_error_In in H1.
  - destruct (str_eqb _ "PatternDefinition"); [|easy]. now apply (Hdef a l Hp).
Qed.

Lemma construct_enough E st a : is_tree st a -> construct_pattern E st a <> CFuel.
Proof.
  intros (l & Hp & Hd). unfold construct_pattern. apply (build_enough E st _ a l Hp).
  pose proof (weight_nodup st l Hd). unfold heap_size in *. lia.
Qed.

Lemma construct_spec E st a m : is_tree st a ->
  (construct_pattern E st a = COk m <-> pattern_means E st a m).
Proof.
  intros Ht. split; [apply build_mean|]. intros Hm.
  destruct (proj1 (means_build E st) _ _ Hm) as [n0 Hn].
  pose proof (construct_enough E st a Ht) as He. unfold construct_pattern in *.
  set (n := S (List.length (st_heap st))) in *.
  destruct (build_settled E st n (Nat.max n n0) a) as [H|H]; [lia|easy|].
  rewrite H. apply Hn. lia.
Qed.

Lemma NoDup_parts {A} (l r : list A) : NoDup (l ++ r) -> NoDup l /\ NoDup r.
Proof.
  induction l as [|x l IH]; cbn; intros H; [split; [constructor|assumption]|].
  inversion H as [|? ? Hx Hr]; subst. destruct (IH Hr). split; [|assumption]. constructor; [|assumption].
  intros Hi. apply Hx. apply in_or_app. now left.
Qed.

Lemma kid_tree st a k : is_tree st a -> In k (tk_kids (tok st a)) -> is_tree st k.
Proof.
  intros (l & Hp & Hd) Hk. inversion Hp as [|? ? l1 l2 H1 H2]; subst. inversion H2; subst.
  rewrite app_nil_r in Hd. inversion Hd as [|? ? _ Hd1]; subst. clear -H1 Hd1 Hk.
  induction H1 as [|b roots x y Hx IHx Hy IHy]; [easy|].
  change (b :: x ++ y) with ((b :: x) ++ y) in Hd1. destruct Hk as [<-|Hk].
  - exists (b :: x ++ []). split; [now apply pre_cons; [|constructor]|].
    rewrite app_nil_r. now apply NoDup_parts in Hd1.
  - apply IHy; [assumption|]. now apply NoDup_parts in Hd1.
Qed.

Lemma definition_spec E st a name captured m : is_tree st a ->
  (construct_definition E st a name captured = COk m <->
   exists m', def_means E st a name m' /\ m = if captured then m' else MDiscard m').
Proof.
  intros Ht. unfold construct_definition. split.
  - apply def_mean. intros b m'. apply build_mean.
  - intros (m' & Hm & ->). destruct (proj1 (proj2 (means_build E st)) _ _ _ Hm captured) as [n0 Hn].
    set (n := S (List.length (st_heap st))).
    assert (He : build_def E (construct_pattern E st) st a name captured <> CFuel).
    { apply def_enough. intros k k' Hk Hk'. apply construct_enough. eauto using kid_tree. }
    destruct (def_settled E (construct_pattern E st) (build (Nat.max n n0) E st) st a name captured) as [H|H].
    + intros k. unfold construct_pattern. apply build_settled. unfold n. lia.
    + easy.
    + rewrite H. apply Hn. lia.
Qed.

(* ---------- whole scripts ---------- *)

Lemma tree_members st roots l : preorder st roots l -> NoDup l -> forall a, In a l -> is_tree st a.
Proof.
  intros H. induction H as [|b roots l1 l2 H1 IH1 H2 IH2]; intros Hd a Ha; [destruct Ha|].
  change (b :: l1 ++ l2) with ((b :: l1) ++ l2) in Hd, Ha. apply in_app_or in Ha.
  apply NoDup_parts in Hd as [Hd1 Hd2]. destruct Ha as [[<-|Ha]|Ha]; [| |now apply IH2].
  - exists (b :: l1 ++ []). split; [now apply pre_cons; [|constructor]|]. now rewrite app_nil_r.
  - apply IH1; [|assumption]. now inversion Hd1.
Qed.

Lemma import_ident_spec st a i x n : import_ident st a = COk (i, x, n) <->
  first_kid st a ["ImportName"] i /\ x = get_value (tok st i) /\
  ((no_kid st a ["ImportAsName"] /\ n = x) \/
   exists k, first_kid st a ["ImportAsName"] k /\ n = get_value (tok st k)).
Proof.
  unfold import_ident. destruct (find_child st (tok st a) "ImportName") as [j|] eqn:Hj.
  - apply (child_some st a "ImportName") in Hj.
    destruct (find_child st (tok st a) "ImportAsName") as [k|] eqn:Hk.
    + apply (child_some st a "ImportAsName") in Hk. split.
      * intros H. injection H as <- <- <-. repeat split; auto. right. eauto.
      * intros (H1 & -> & [[H _]|(k' & H & ->)]); [now destruct (kid_clash _ _ _ _ H Hk)|].
        apply child_some in H1, H, Hj, Hk. repeat f_equal; congruence.
    + apply (child_none st a "ImportAsName") in Hk. split.
      * intros H. injection H as <- <- <-. repeat split; auto.
      * intros (H1 & -> & [[_ ->]|(k' & H & ->)]); [|now destruct (kid_clash _ _ _ _ Hk H)].
        apply child_some in H1, Hj. repeat f_equal; congruence.
  - split; [easy|]. intros (H & _). apply (child_some st a "ImportName") in H. congruence.
Qed.

Lemma import_idents_spec st l : forall ids,
  (exists xs, import_idents st l = COk xs /\ map (fun p => (snd (fst p), snd p)) xs = ids) <-> import_names st l ids.
Proof.
  induction l as [|a l IH]; intros ids; cbn [import_idents].
  - split.
    + intros (xs & H & <-). injection H as <-. constructor.
    + intros H. inversion H. exists []. auto.
  - split.
    + intros (xs & H & <-). destruct (import_ident st a) as [[[i x] n]| | |] eqn:Hi; try easy.
      destruct (import_idents st l) as [ys| | |] eqn:Hl; try easy. injection H as <-.
      cbn [map fst snd]. apply import_ident_spec in Hi as (H1 & -> & [[H2 ->]|(k & H2 & ->)]).
      * apply in_same; auto. apply IH. eauto.
      * apply in_as; auto. apply IH. eauto.
    + intros H. inversion H as [|? ? i ids' H1 H2 H3|? ? i x ids' H1 H2 H3]; subst; apply IH in H3 as (xs & -> & <-).
      * assert (Hi : import_ident st a = COk (i, get_value (tok st i), get_value (tok st i))).
        { apply import_ident_spec. repeat split; auto. }
        rewrite Hi. eexists. split; reflexivity.
      * assert (Hi : import_ident st a = COk (i, get_value (tok st i), get_value (tok st x))).
        { apply import_ident_spec. repeat split; auto. right. eauto. }
        rewrite Hi. eexists. split; reflexivity.
Qed.

Definition ask (p : addr * str * str) : str * str := (snd (fst p), snd p).

Lemma last_snoc_default {A} (l : list A) d d' : l <> [] -> last l d = last l d'.
Proof. induction l as [|x [|y l] IH]; [easy|reflexivity|]. intros _. apply IH. easy. Qed.

Lemma alias_spec l : forall d, last_root_alias l d = root_alias (map ask l) d.
Proof.
  unfold last_root_alias, root_alias. induction l as [|[[i x] n] l IH]; intros d; [reflexivity|].
  cbn [fold_left map filter ask fst snd]. destruct (str_eqb x "_").
  - rewrite IH. cbn [map snd]. destruct (map snd _) as [|y r] eqn:Hm; [reflexivity|].
    rewrite (last_snoc_default (y :: r) n d) by easy. reflexivity.
  - apply IH.
Qed.

Definition view_of_bst (w : bst) : script_state := (b_name w, b_pats w, b_store w).

Lemma import_all_spec st sc root isc file l : forall w w',
  import_all st sc root isc file l w = VOk w' ->
  b_name w' = b_name w /\ b_pats w' = b_pats w /\ b_errs w' = b_errs w /\
  imports sc root isc (map ask l) (b_store w) (b_store w').
Proof.
  induction l as [|[[i x] n] l IH]; intros w w' H; cbn [import_all] in H.
  - injection H as <-. repeat split; auto. constructor.
  - cbn [map ask fst snd]. destruct (str_eqb x "_") eqn:Hx.
    + apply str_eqb_eq in Hx. subst x. destruct (str_eqb n "_") eqn:Hn; [easy|]. apply str_eqb_neq in Hn.
      apply IH in H as (H1 & H2 & H3 & H4). repeat split; auto. apply im_root; auto.
    + apply str_eqb_neq in Hx. destruct (sc_get (b_store w) isc x) as [[ | |m]|] eqn:Hg; try easy.
      apply IH in H as (H1 & H2 & H3 & H4). repeat split; auto. eapply im_definition; eauto.
Qed.

Lemma imports_all st sc root isc file l : forall w s',
  imports sc root isc (map ask l) (b_store w) s' ->
  import_all st sc root isc file l w = VOk (mkBst (b_name w) (b_pats w) (b_errs w) s').
Proof.
  induction l as [|[[i x] n] l IH]; intros w s' H; cbn [import_all map ask fst snd] in *.
  - inversion H; subst. now destruct w.
  - inversion H as [|? ? ? ? Hn Hr|? ? m ? ? ? Hx Hg Hr]; subst.
    + change (str_eqb "_" "_") with true. cbv iota. apply str_eqb_neq in Hn. rewrite Hn.
      exact (IH (define sc n root w) s' Hr).
    + apply str_eqb_neq in Hx. rewrite Hx, Hg.
      exact (IH (define sc n (MSetScope (Some isc) (MMap m (MapRename n))) w) s' Hr).
Qed.

Lemma add_patterns_spec E st l : (forall a, In a l -> is_tree st a) -> forall w w',
  add_patterns E st l w = VOk w' <->
  exists ms, patterns_mean E st (filter (pattern_token st) l) ms /\
    w' = mkBst (b_name w) (b_pats w ++ ms) (b_errs w) (b_store w).
Proof.
  induction l as [|a l IH]; intros Ht w w'; cbn [add_patterns filter].
  - split.
    + intros H. injection H as <-. exists []. split; [constructor|]. rewrite app_nil_r. now destruct w.
    + intros (ms & H & ->). inversion H; subst. rewrite app_nil_r. now destruct w.
  - specialize (IH (fun b Hb => Ht b (or_intror Hb))).
    fold (pattern_token st a). destruct (pattern_token st a); [|apply IH].
    pose proof (construct_spec E st a) as Hc.
    assert (Hta : is_tree st a) by (apply Ht; now left).
    split.
    + destruct (construct_pattern E st a) as [m| | |] eqn:Hm; try easy.
      intros H. apply IH in H as (ms & H1 & ->). exists (m :: ms). cbn [b_name b_pats b_errs b_store].
      split; [constructor; auto; now apply Hc|]. now rewrite <- app_assoc.
    + intros (ms & H & ->). inversion H as [|? ? m ms' H1 H2]; subst.
      apply (Hc m Hta) in H1. rewrite H1. apply IH. exists ms'. split; [assumption|].
      cbn [b_name b_pats b_errs b_store]. now rewrite <- app_assoc.
Qed.

Section Hooks.
  Variables (E : env) (F : fs) (compile : str -> state -> res script_res).
  Variables (st : state) (sc : sid) (from_file : option str).

  Definition script_hooks : list (str * hook bst) :=
    [(lit "Error", hook_error st);
     (lit "AdextopaScope", hook_scope st);
     (lit "AssignmentExpression", hook_assign E st sc);
     (lit "ImportStatement", hook_import F compile st sc from_file);
     (lit "PatternScope", hook_patterns E st)].

  Notation token_says := (token_says E F compile st sc from_file).

  Lemma hook_pick name a w :
    run_hook script_hooks name a w =
    if str_eqb name "Error" then hook_error st a w
    else if str_eqb name "AdextopaScope" then hook_scope st a w
    else if str_eqb name "AssignmentExpression" then hook_assign E st sc a w
    else if str_eqb name "ImportStatement" then hook_import F compile st sc from_file a w
    else if str_eqb name "PatternScope" then hook_patterns E st a w
    else VOk w.
  Proof.
    unfold run_hook, pick_hook, script_hooks. cbn [find_hook].
    rewrite !(str_eqb_sym (lit _) name). unfold run_hook.
    destruct (str_eqb name "Error"); [reflexivity|].
    destruct (str_eqb name "AdextopaScope"); [reflexivity|].
    destruct (str_eqb name "AssignmentExpression"); [reflexivity|].
    destruct (str_eqb name "ImportStatement"); [reflexivity|].
    destruct (str_eqb name "PatternScope"); reflexivity.
  Qed.

  Lemma hook_says a w w' : is_tree st a ->
    run_hook script_hooks (tk_name (tok st a)) a w = VOk w' -> token_says a (view_of_bst w) (view_of_bst w').
  Proof.
    intros Ht. rewrite hook_pick.
    name_case H1.
    { unfold hook_error. destruct (get_attr _ _) eqn:Hg; [|easy]. intros H. injection H as <-.
      unfold view_of_bst. cbn [b_name b_pats b_store]. apply sy_error; congruence. }
    name_case H2.
    { unfold hook_scope. destruct (get_attr _ _) eqn:Hg; intros H; injection H as <-.
      - now apply sy_name.
      - now apply sy_no_name. }
    name_case H3.
    { unfold hook_assign. destruct (tk_kids (tok st a)) as [|i [|v r]] eqn:Hk; try easy.
      name_case H4.
      - intros H. injection H as <-. eapply sy_alias; eauto.
      - name_case H5.
        + destruct (construct_definition E st v (get_value (tok st i)) true) as [m| | |] eqn:Hc; try easy.
          apply definition_spec in Hc as (m' & Hm & ->).
          * intros H. injection H as <-. eapply sy_define; eauto.
          * apply (kid_tree st a); auto. rewrite Hk. right. now left.
        + intros H. injection H as <-. apply str_eqb_neq in H4, H5. eapply sy_assign_other; eauto. }
    name_case H4.
    { unfold hook_import. destruct from_file as [ff|] eqn:Hff; [|easy].
      destruct (find_child st (tok st a) "ImportIdentifiers") as [ii|] eqn:Hii; [|easy].
      destruct (find_child st (tok st a) "Path") as [p|] eqn:Hp; [|easy].
      apply (child_some st a "ImportIdentifiers") in Hii. apply (child_some st a "Path") in Hp.
      destruct (fs_join F ff (get_value (tok st p))) as [file|] eqn:Hj; [|easy].
      destruct (compile file (b_store w)) as [[root isc|]| |] eqn:Hc; try easy.
      destruct (import_idents st (tk_kids (tok st ii))) as [l| | |] eqn:Hl; try easy.
      intros H. apply import_all_spec in H as (H5 & H6 & _ & H7). cbn [b_name b_pats b_store] in *.
      rewrite alias_spec in H7. unfold view_of_bst. rewrite H5, H6.
      assert (Hn : import_names st (tk_kids (tok st ii)) (map ask l)) by (apply import_idents_spec; eauto).
      eapply sy_import; eauto. }
    name_case H5.
    { unfold hook_patterns. intros H. apply add_patterns_spec in H as (ms & Hm & ->).
      - unfold view_of_bst. cbn [b_name b_pats b_store]. now apply sy_patterns.
      - intros k Hk. eapply kid_tree; eauto. }
    intros H. injection H as <-. apply sy_other. apply str_eqb_neq in H1, H2, H3, H4, H5.
    intros [H|[H|[H|[H|[H|[]]]]]]; congruence.
  Qed.

  Ltac pick H := rewrite H;
    repeat match goal with |- context [str_eqb (lit ?x) (lit ?y)] =>
      let b := eval vm_compute in (str_eqb (lit x) (lit y)) in change (str_eqb (lit x) (lit y)) with b; cbv iota end.

  Lemma says_hook a w v' : is_tree st a -> token_says a (view_of_bst w) v' ->
    exists w', run_hook script_hooks (tk_name (tok st a)) a w = VOk w' /\ view_of_bst w' = v'.
  Proof.
    intros Ht H. rewrite hook_pick. unfold view_of_bst in H.
    inversion H as [? Hn Hg|v name pats s Hn Hg|? Hn Hg|i v r name pats s Hn Hk Hv|i v r m name pats s Hn Hk Hv Hm
                   |i v r ? Hn Hk Hv Hv'|ff ii p file root isc s1 ids name pats s s' Hn Hff Hii Hp Hj Hc Hi Him
                   |ms name pats s Hn Hm|? Hn]; subst.
    - pick Hn. unfold hook_error. destruct (get_attr "__message" (tok st a)); [|easy].
      eexists. split; reflexivity.
    - pick Hn. unfold hook_scope. rewrite Hg. eexists. split; reflexivity.
    - pick Hn. unfold hook_scope. rewrite Hg. eexists. split; reflexivity.
    - pick Hn. unfold hook_assign. rewrite Hk. pick Hv. eexists. split; reflexivity.
    - pick Hn. unfold hook_assign. rewrite Hk. pick Hv.
      assert (Hd : construct_definition E st v (get_value (tok st i)) true = COk m).
      { apply definition_spec; [|exists m; auto]. apply (kid_tree st a); auto. rewrite Hk. right. now left. }
      rewrite Hd. eexists. split; reflexivity.
    - pick Hn. unfold hook_assign. rewrite Hk. apply str_eqb_neq in Hv, Hv'. rewrite Hv, Hv'.
      exists w. split; reflexivity.
    - pick Hn. unfold hook_import. apply (child_some st a "ImportIdentifiers") in Hii.
      apply (child_some st a "Path") in Hp. rewrite Hii, Hp, Hj, Hc.
      apply import_idents_spec in Hi as (xs & Hx & <-). rewrite Hx.
      change (map (fun p : addr * str * str => (snd (fst p), snd p)) xs) with (map ask xs) in Him.
      rewrite alias_spec.
      rewrite (imports_all st sc _ isc file xs (mkBst (b_name w) (b_pats w) (b_errs w) s1) s' Him).
      eexists. split; reflexivity.
    - pick Hn. unfold hook_patterns.
      assert (Ha : add_patterns E st (tk_kids (tok st a)) w = VOk (mkBst (b_name w) (b_pats w ++ ms) (b_errs w) (b_store w))).
      { apply add_patterns_spec; [intros k Hk; eapply kid_tree; eauto|]. exists ms. auto. }
      rewrite Ha. eexists. split; reflexivity.
    - assert (Hne : forall x, In x [lit "Error"; lit "AdextopaScope"; lit "AssignmentExpression"; lit "ImportStatement"; lit "PatternScope"] ->
        str_eqb (tk_name (tok st a)) x = false).
      { intros x Hx. apply str_eqb_neq. intros <-. now apply Hn. }
      rewrite !Hne by (cbn; auto 10). exists w. split; reflexivity.
  Qed.

  Notation script_says := (script_says E F compile st sc from_file).

  Lemma walks_says l : (forall a, In a l -> is_tree st a) -> forall w r, walks script_hooks st l w r ->
    forall w', r = VOk w' -> script_says l (view_of_bst w) (view_of_bst w').
  Proof.
    intros Ht w r H. induction H as [w|a l w w1 r Hh Hw IH|a l w r Hh Hn]; intros w' Hr.
    - injection Hr as <-. constructor.
    - subst r. apply hooked_run in Hh. econstructor; [apply hook_says; eauto; apply Ht; now left|].
      apply IH; auto. intros b Hb. apply Ht. now right.
    - subst r. now destruct (Hn w').
  Qed.

  Lemma says_walks l : (forall a, In a l -> is_tree st a) -> forall w v', script_says l (view_of_bst w) v' ->
    exists w', walks script_hooks st l w (VOk w') /\ view_of_bst w' = v'.
  Proof.
    induction l as [|a l IH]; intros Ht w v' H; inversion H as [|? ? ? v1 ? Ha Hl]; subst.
    - exists w. split; [constructor|reflexivity].
    - apply says_hook in Ha as (w1 & Hw1 & <-); [|apply Ht; now left].
      destruct (IH (fun b Hb => Ht b (or_intror Hb)) w1 v' Hl) as (w' & Hw & Hv).
      exists w'. split; [|assumption]. eapply wk_next; [|exact Hw]. rewrite <- Hw1. apply run_hooked.
  Qed.
End Hooks.

Lemma build_matcher_spec E P F compile root name from_file st m s' st' : is_tree st root ->
  (build_matcher E P F compile root name from_file st = Ret (ScriptOk m s') st' <->
   tk_name (tok st root) = "Script" /\ s' = next_sid st /\
   exists l name' pats, preorder st [root] l /\
     script_says E F compile st (next_sid st) from_file l (name, [], sc_new st) (name', pats, st') /\
     m = MProgram [MSetScope (Some (next_sid st)) (MProxy (MProgram pats (mkPI "Program" None false false)) "Flatten" false)]
                  (mkPI name' None false true)).
Proof.
  intros (l & Hp & Hd). pose proof (tree_members st [root] l Hp Hd) as Ht.
  unfold build_matcher. fold (script_hooks E F compile st (next_sid st) from_file).
  destruct (str_eqb (tk_name (tok st root)) "Script") eqn:Hn; cbn [negb].
  2: { apply str_eqb_neq in Hn. split; [easy|]. intros [H _]. easy. }
  apply str_eqb_eq in Hn.
  set (w0 := mkBst name [] [] (sc_new st)).
  destruct (visit st (script_hooks E F compile st (next_sid st) from_file) root w0) as [w|w e|p|] eqn:Hv.
  - apply (visit_walks _ _ root l) in Hv; [|exact Hp]. split.
    + intros H. injection H as <- <- <-. repeat split; auto. exists l, (b_name w), (b_pats w).
      split; [assumption|]. split; [|reflexivity]. exact (walks_says E F compile st _ _ l Ht w0 _ Hv w eq_refl).
    + intros (_ & -> & l' & name' & pats & Hp' & Hs & ->).
      assert (l' = l) by (symmetry; eapply preorder_det; eauto). subst l'.
      apply (says_walks E F compile st _ _ l Ht w0) in Hs as (w' & Hw & Hview).
      assert (Hu : VOk w' = VOk w) by (rewrite (walks_walk _ _ _ _ _ Hw), (walks_walk _ _ _ _ _ Hv); reflexivity).
      injection Hu as ->. unfold view_of_bst in Hview. injection Hview as <- <- <-. reflexivity.
  - split.
    + destruct (pe_msg e); [discriminate|]. destruct (error_string _ _ _ _); discriminate.
    + intros (_ & -> & l' & name' & pats & Hp' & Hs & ->). exfalso.
      assert (l' = l) by (symmetry; eapply preorder_det; eauto). subst l'.
      apply (says_walks E F compile st _ _ l Ht w0) in Hs as (w' & Hw & Hview).
      apply (visit_walks _ _ root l) in Hw; [congruence|exact Hp].
  - split; [discriminate|]. intros (_ & -> & l' & name' & pats & Hp' & Hs & ->). exfalso.
    assert (l' = l) by (symmetry; eapply preorder_det; eauto). subst l'.
    apply (says_walks E F compile st _ _ l Ht w0) in Hs as (w' & Hw & Hview).
    apply (visit_walks _ _ root l) in Hw; [congruence|exact Hp].
  - split; [discriminate|]. intros (_ & -> & l' & name' & pats & Hp' & Hs & ->). exfalso.
    assert (l' = l) by (symmetry; eapply preorder_det; eauto). subst l'.
    apply (says_walks E F compile st _ _ l Ht w0) in Hs as (w' & Hw & Hview).
    apply (visit_walks _ _ root l) in Hw; [congruence|exact Hp].
Qed.

(* ---------- consequences ---------- *)

Lemma repeat_rejects st a k k' sep n n' :
  tk_name (tok st a) = "RepeatRange" -> first_kid st a ["Minimum"] k -> usize_text n (get_cvalue (tok st k)) ->
  first_kid st a ["Seperator"] sep -> first_kid st a ["Maximum"] k' -> usize_text n' (get_cvalue (tok st k')) ->
  n' < n -> exists e, repeat_range st a = CErr e.
Proof.
  intros Hn Hk Hv Hs Hk' Hv' Hlt. unfold repeat_range. rewrite Hn.
  change (str_eqb "RepeatRange" "RepeatZeroOrMore") with false.
  change (str_eqb "RepeatRange" "RepeatOneOrMore") with false.
  change (str_eqb "RepeatRange" "RepeatRange") with true. cbv iota.
  apply (child_some st a "Minimum") in Hk. apply (child_some st a "Maximum") in Hk'.
  assert (Hh : has_child st (tok st a) "Seperator" = true) by (apply has_true; eauto).
  rewrite Hk, Hh, Hk'. apply parse_or_err_spec in Hv, Hv'. rewrite Hv, Hv'. apply N.ltb_lt in Hlt. rewrite Hlt. eauto.
Qed.

Definition not_error (st : state) (a : addr) : bool := negb (str_eqb (tk_name (tok st a)) "Error").

Lemma says_error E F compile st sc ff a w w' : tk_name (tok st a) = "Error" ->
  token_says E F compile st sc ff a w w' -> w' = w.
Proof.
  intros Hn H. inversion H; subst; auto; match goal with G : tk_name (tok st a) = _ |- _ => rewrite Hn in G; discriminate end.
Qed.

Lemma errors_ignored E F compile st sc ff l :
  (forall a, In a l -> tk_name (tok st a) = "Error" -> get_attr "__message" (tok st a) <> None) ->
  forall w w', script_says E F compile st sc ff l w w' <->
               script_says E F compile st sc ff (filter (fun a => negb (str_eqb (tk_name (tok st a)) "Error")) l) w w'.
Proof.
  induction l as [|a l IH]; intros Hm w w'; [reflexivity|]. cbn [filter].
  specialize (IH (fun b Hb => Hm b (or_intror Hb))).
  destruct (str_eqb (tk_name (tok st a)) "Error") eqn:Hn; cbn [negb].
  - apply str_eqb_eq in Hn. split.
    + intros H. inversion H as [|? ? ? w1 ? H1 H2]; subst. apply says_error in H1; [subst w1|assumption]. now apply IH.
    + intros H. apply (ss_cons _ _ _ _ _ _ a l w w w'); [|now apply IH].
      apply sy_error; auto. apply Hm; auto. now left.
  - split; intros H; inversion H as [|? ? ? w1 ? H1 H2]; subst; econstructor; eauto; now apply IH.
Qed.

Definition script_matcher (name : str) (sc : sid) (pats : list matcher) : matcher :=
  MProgram [MSetScope (Some sc) (MProxy (MProgram pats (mkPI "Program" None false false)) "Flatten" false)]
           (mkPI name None false true).

Lemma hoisted_tree E P c m st a st' : tame E -> tidy E -> Tokenizes E P c m st (TOk a) st' -> is_tree st' a.
Proof.
  intros H1 H2 H. destruct (tokenize_hoists _ _ _ _ _ _ _ H1 H2 H) as (x & st1 & l & _ & _ & _ & Hd & _ & _ & _ & l' & Hp & Hl).
  exists l'. split; [assumption|]. now apply (Permutation_NoDup Hl).
Qed.

Lemma compile_spec E F compile P name ff st m sc st' : tame E -> tidy E ->
  ((exists fuel, compile_with fuel E F compile P name ff false st = Ret (ScriptOk m sc) st') <->
   exists root st1 l name' pats,
     Tokenizes E P (script_ctx P name st) (Script_ E) (script_start E P name st) (TOk root) st1 /\
     tk_name (tok st1 root) = "Script" /\ preorder st1 [root] l /\
     script_says E F compile st1 (next_sid st1) ff l (name, [], sc_new st1) (name', pats, st') /\
     sc = next_sid st1 /\
     m = MProgram [MSetScope (Some sc) (MProxy (MProgram pats (mkPI "Program" None false false)) "Flatten" false)]
                  (mkPI name' None false true)).
Proof.
  intros H1 H2. unfold script_start, script_ctx. destruct (context_new P name st) as [c st0] eqn:Hc. cbn [fst snd]. split.
  - intros (fuel & H). unfold compile_with in H. rewrite Hc in H.
    destruct (tokenize fuel E P c (Script_ E) _) as [[root|[|e]] st1| |] eqn:Ht; try easy.
    destruct (build_matcher E P F compile root name ff st1) as [[m1 sc1|]| |] eqn:Hb; try easy.
    injection H as <- <- <-.
    assert (HT : Tokenizes E P c (Script_ E) (register_all st0 c [ScriptSwitchMatcher E; ScriptProgramMatcher E]) (TOk root) st1) by (now exists fuel).
    apply build_matcher_spec in Hb as (Hn & -> & l & name' & pats & Hp & Hs & ->).
    + exists root, st1, l, name', pats. repeat split; auto.
    + eapply hoisted_tree; eauto.
  - intros (root & st1 & l & name' & pats & HT & Hn & Hp & Hs & -> & ->).
    destruct HT as [fuel Ht]. exists fuel. unfold compile_with. rewrite Hc, Ht.
    assert (Hb : build_matcher E P F compile root name ff st1 = Ret (ScriptOk (script_matcher name' (next_sid st1) pats) (next_sid st1)) st').
    { apply build_matcher_spec.
      - eapply (hoisted_tree E P); eauto. exists fuel. exact Ht.
      - repeat split; auto. exists l, name', pats. auto. }
    rewrite Hb. reflexivity.
Qed.

Lemma skip_equals E P v n custom c s st x st' :
  Runs E P (MDiscard (MEquals (FStr v) n custom)) c s st (Ok x) st' -> exists z, x = SSkip z.
Proof.
  intros [f H]. destruct f as [|[|f]]; [discriminate|discriminate|]. cbn [exec step] in H. unfold before_exec in H.
  cbn [m_custom] in H. cbn [fetch_value] in H.
  destruct (matches_str _ _ _) as [[r|]|]; try easy.
  - destruct (dbg _ _ _ _); [|easy].
    match type of H with context [alloc ?s0 _] => set (st1 := s0) in * end.
    cbn [discard_result] in H. unfold skip_token in H. rewrite !tok_alloc_new in H.
    cbn [error_tokens] in H. rewrite !tok_alloc_new in H. cbn [std_token tk_kids fold_left is_error tk_flags] in H.
    change (negb (N.land 0 IS_ERROR =? 0)) with false in H. cbv iota in H.
    destruct (isize_sub _ _ _) in H; [|easy]. injection H as <- _. eauto.
  - destruct (dbg _ _ _ _); [|easy]. cbn [discard_result] in H. easy.
Qed.

Lemma sequence_ok E P f1 f2 f3 n custom c s st x st' :
  Runs E P (MSequence f1 f2 f3 n custom) c s st (Ok x) st' ->
  exists a t, x = SToken a /\ tok st' a = t /\ (heap_size st <= a < heap_size st')%nat /\ tk_name t = n /\ tk_kind t = KStandard /\ is_error t = false.
Proof.
  intros [f H]. destruct f as [|f]; [easy|]. cbn [exec step] in H. unfold exec_sequence in H.
  repeat match type of H with
  | context [match ?e with _ => _ end] =>
      lazymatch e with context [match _ with _ => _ end] => fail | _ => idtac end;
      let G := fresh in destruct e eqn:G; try easy
  end.
  all: injection H as <- <-; eexists; eexists; split; [reflexivity|]; split; [apply tok_alloc_new|].
  all: unfold heap_size, next_addr, before_exec; cbn [alloc st_heap]; rewrite app_length;
    destruct custom; cbn; rewrite ?set_stack_heap; repeat split; auto; lia.
Qed.

Lemma matcher_name_child E P c s st a st' : c_debug c = 0 -> tame E ->
  Runs E P ScriptMatcherName c s st (Ok (SToken a)) st' ->
  exists k, tk_kids (tok st' a) = [k] /\ tk_name (tok st' k) = "Name".
Proof.
  intros Hc Ht H. unfold ScriptMatcherName, ProgramN in H.
  apply (does_program E P c (mkPI "MatcherName" None false true) s st _ Hc eq_refl eq_refl (Done (Ok (SToken a)) st')) in H as (w & Hp & Hl); [|easy].
  inversion Hp as [|m ms done off sx x st1 done' off' st2 w' Hr Hk Hp2|m ms done off sx b st1 w' Hr Hk Hp2
    |m ms done off sx x st1 Hr Hx|m ms done off sx st1 Hr|m ms done off sx e st1 Hr|m ms done off sx x st1 p Hr Hb
    |m ms done off sx p Hr|m ms done off sx Hr]; subst; try (inversion Hl; fail).
  2: { destruct Hr as [Hr|Hr]; apply skip_equals in Hr as (z & Hr); discriminate. }
  2: { apply skip_equals in Hr as (z & ->). destruct Hx. }
  pose proof (runs_frame _ _ _ _ _ _ _ _ Ht Hr) as [[Hsz _] _]. rewrite program_start_size in Hsz.
  apply skip_equals in Hr as (z & ->). inversion Hk; subst; [|discriminate].
  clear Hp Hk.
  inversion Hp2 as [|m ms done off sx x stb done' offb stc w' Hr Hk Hp3|m ms done off sx b stb w' Hr Hk Hp3
    |m ms done off sx x stb Hr Hx|m ms done off sx stb Hr|m ms done off sx e stb Hr|m ms done off sx x stb p Hr Hb
    |m ms done off sx p Hr|m ms done off sx Hr]; subst; try (inversion Hl; fail).
  2: { destruct Hr as [Hr|Hr]; apply sequence_ok in Hr as (b' & t & E1 & E2 & E3 & E4 & E5 & E6); [|discriminate].
       injection E1 as <-. congruence. }
  2: { apply sequence_ok in Hr as (b' & t & -> & _). destruct Hx. }
  apply sequence_ok in Hr as (k & t & -> & E2 & E3 & E4 & E5 & E6).
  inversion Hk; subst. clear Hk Hp2. inversion Hp3; subst. inversion Hl as [? ? ? ? ? Hcl| | | | | | | | | | |]; subst.
  inversion Hcl as [Hcs Ha Hs|]; subst. exists k.
  match goal with |- context [set_tok ?s0 _ (filled _ ?d _)] => set (st9 := s0) in *; set (dn := d) in * end.
  assert (Hs9 : heap_size st9 = heap_size stb).
  { unfold st9, heap_size. cbn [set_tok st_heap]. now rewrite upd_length. }
  fold (heap_size st). rewrite tok_set_same by (fold (heap_size st9); lia). split; [reflexivity|].
  rewrite tok_set_other by lia. unfold st9. rewrite tok_set_same by (fold (heap_size stb); lia).
  unfold adopted. rewrite E6. cbn [andb set_parent tk_name]. assumption.
Qed.

(* a string literal with a character of more than one byte before its end *)
Lemma string_panics name E P c s st text y t :
  sliceable (p_src P) (c_off c) ->
  window (p_src P) (rs (c_off c)) (re (c_off c)) ("'"%char :: text) ->
  passes "'" "\" text (y :: t) -> continuation y ->
  Panics E P (ScriptStringN name) c s st PSlice.
Proof.
  intros Hs Hw Hp Hy. unfold ScriptStringN, SequenceN. cbn [Sequence_ m_set_name].
  eapply (sequence_panics E P (lit "'") (lit "'") (lit "\") name true c s st text y t); auto; try discriminate.
Qed.

Lemma string_panics_first name E P c s st x y t :
  sliceable (p_src P) (c_off c) ->
  window (p_src P) (rs (c_off c)) (re (c_off c)) ("'"%char :: x :: y :: t) ->
  192 <= N_of_ascii x -> continuation y ->
  Panics E P (ScriptStringN name) c s st PSlice.
Proof.
  intros Hs Hw Hx Hy. eapply string_panics; eauto.
  assert (Hne : forall z : ascii, N_of_ascii z < 192 -> z <> x) by (intros z Hz <-; lia).
  apply pass_byte; [| |constructor].
  - intros [u H]. cbn in H. injection H as H _. apply (Hne "'"%char); [cbn; lia|auto].
  - intros _ [u H]. cbn in H. injection H as H _. apply (Hne "\"%char); [cbn; lia|auto].
Qed.

Lemma first_kid_det st a ns k k' : first_kid st a ns k -> first_kid st a ns k' -> k = k'.
Proof. intros H1 H2. apply among_some in H1, H2. congruence. Qed.

Lemma named_capture E st a nt nk nr m : is_tree st a ->
  tk_name (tok st a) = "PatternDefinitionCaptured" -> first_kid st a ["MatcherName"] nt ->
  tk_kids (tok st nt) = nk :: nr ->
  (construct_pattern E st a = COk m <->
   exists x d r, tk_kids (tok st a) = x :: d :: r /\ def_means E st d (tk_name (tok st nk)) m).
Proof.
  intros Ht Hn Hk Hks. rewrite construct_spec by assumption. split.
  - intros H. inversion H as [? nt' nk' nr' x d r ? H1 H2 H3 H4 H5|? d r ? H1 H2 H3 H4|? ? H1 H2]; subst.
    + rewrite (first_kid_det _ _ _ _ _ H2 Hk) in H3. rewrite Hks in H3. injection H3 as <- <-. eauto.
    + now destruct (kid_clash _ _ _ _ H2 Hk).
    + rewrite Hn in H1. discriminate.
  - intros (x & d & r & H1 & H2). eapply pm_named; eauto.
Qed.

Lemma alias_only E F compile st sc ff a i v r name pats s w' :
  tk_name (tok st a) = "AssignmentExpression" -> tk_kids (tok st a) = i :: v :: r ->
  tk_name (tok st v) = "Identifier" ->
  (token_says E F compile st sc ff a (name, pats, s) w' <->
   w' = (name, pats,
         sc_set s sc (get_value (tok st i)) (VMatcher (MRef (FStr (get_value (tok st a))) "Ref" false)))).
Proof.
  intros Hn Hk Hv. split.
  - intros H. inversion H; subst;
      try (match goal with G : tk_name (tok st a) = _ |- _ => rewrite Hn in G; discriminate end);
      try (match goal with G : tk_kids (tok st a) = _ |- _ => rewrite Hk in G; injection G as <- <- <- end);
      try (match goal with G : tk_name (tok st v) = _ |- _ => rewrite Hv in G; discriminate end);
      try reflexivity; try contradiction.
    match goal with G : ~ In _ _ |- _ => rewrite Hn in G; destruct G; cbn; auto end.
  - intros ->. eapply sy_alias; eauto.
Qed.

Lemma unresolved E P x n c s st : (forall m, sc_get st s x <> Some (VMatcher m)) ->
  exists e, Runs E P (MRef (FStr x) n false) c s st (Err (FError e)) st.
Proof.
  intros H. eexists. exists 1%nat. cbn [exec step fetch_value]. unfold before_exec. cbn [m_custom].
  destruct (sc_get st s x) as [[| |m]|] eqn:Hg; [reflexivity|reflexivity| |reflexivity].
  now destruct (H m).
Qed.
