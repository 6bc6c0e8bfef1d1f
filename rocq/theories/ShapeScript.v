(* The grammar of scripts: it does not panic, and what its tokens look like. *)
From Verif Require Import LexProofs ScriptBuild Spec SpecMore SpecScript Utf8Proofs FrameProofs SpecGuard GuardProofs GuardEnds GuardScript
  SpecSyntax SpecLex ShapeLex SpecShape SpecRefused ShapeProofs.
Open Scope string_scope.
Open Scope list_scope.
Open Scope N_scope.

Notation kindlist := (list (option str)).
Fixpoint somes (l : kindlist) : list str :=
  match l with [] => [] | Some x :: l' => x :: somes l' | None :: l' => somes l' end.
Lemma somes_app l l' : somes (l ++ l') = somes l ++ somes l'.
Proof. induction l as [|[x|] l IH]; cbn; [reflexivity|now rewrite IH|exact IH]. Qed.
Lemma labels_kinds st l : labels st l = somes (kinds st l).
Proof.
  unfold labels, kinds. induction l as [|a l IH]; cbn; [reflexivity|]. destruct (is_error (tok st a)); cbn; [exact IH|now rewrite IH].
Qed.

Lemma follows_app l1 : forall l2 k1 k2, follows l1 k1 -> follows l2 k2 -> follows (l1 ++ l2) (k1 ++ k2).
Proof.
  induction l1 as [|x l1 IH]; intros l2 k1 k2 H1 H2; cbn [follows app] in *; [now subst|].
  destruct x as [ns|ns|ns].
  - destruct H1 as (n & k & Hn & -> & H1). exists n, (k ++ k2). auto.
  - destruct H1 as [H1|(n & k & Hn & -> & H1)]; [left; auto|right]. exists n, (k ++ k2). auto.
  - destruct H1 as (k & k' & -> & Hn & H1). exists k, (k' ++ k2). rewrite app_assoc. auto.
Qed.

(* the names of tokens that are left out, or that are not kept *)
Definition helpers : list str := names ["Program"; "Loop"; "Matches"; "Equals"; "Whitespace"; "RegexCaptureLoop"; "IdentifiersLoop"].
(* what the text must contain for there to be a token of this name *)
Definition evident (src name : str) : Prop :=
  (name = "SequenceMatcher" -> In "%"%char src) /\ (name = "RegexMatcher" -> In "/"%char src).
Definition shape_in (src name : str) (ks : kindlist) : Prop :=
  In name helpers \/ (script_shape name (somes ks) /\ (name = "Attributes" -> ~ In None ks) /\ (In name script_leaves -> ks = []) /\ evident src name).
(* what the text of a token without children must be *)
Definition lexed (src name : str) (r : range) (v : str) : Prop :=
  In name helpers \/ exists pre t post, src = pre ++ t ++ post /\ r = mkR (slen pre) (slen pre + slen t) /\ lexeme name v t post.
Lemma tree_no_leaf name slots : In (name, slots) script_tree -> ~ In name script_leaves.
Proof.
  assert (H : Forall (fun x => ~ In (fst x) script_leaves) script_tree).
  { repeat constructor; intros H; cbn in H; repeat destruct H as [H|H]; try discriminate; exact H. }
  intros Hin. rewrite Forall_forall in H. exact (H _ Hin).
Qed.

Definition tok_in (ns : list string) (o : out) : Prop := exists n ks b, In n (names ns) /\ o = OTok false n ks b.
(* names out of [ns], errors only if [er] *)
Definition among (er : bool) (ns : list string) (ks : kindlist) : Prop :=
  Forall (fun k => match k with Some n => In n (names ns) | None => er = true end) ks.
Lemma among_app er ns k k' : among er ns k -> among er ns k' -> among er ns (k ++ k').
Proof. intros H1 H2. apply Forall_app. auto. Qed.
Lemma among_somes er ns ks : among er ns ks -> Forall (fun n => In n (names ns)) (somes ks).
Proof.
  induction ks as [|[x|] ks IH]; intros H; [constructor|..]; inversion H; subst; cbn; auto.
Qed.
Lemma among_none ns ks : among false ns ks -> ~ In None ks.
Proof. intros H Hin. unfold among in H. rewrite Forall_forall in H. apply H in Hin. discriminate. Qed.
(* the children so far *)
Definition sofar (er : bool) (pre : list slot) (ks : kindlist) : Prop := follows pre (somes ks) /\ (er = false -> ~ In None ks).
Lemma sofar_app er pre ks l ks' : sofar er pre ks -> follows l (somes ks') -> (er = false -> ~ In None ks') -> sofar er (pre ++ l) (ks ++ ks').
Proof.
  intros [H1 H2] H3 H4. split; [rewrite somes_app; now apply follows_app|].
  intros He Hin. apply in_app_or in Hin as [Hin|Hin]; [now apply H2|now apply H4].
Qed.
Lemma sofar_same er pre ks ks' : sofar er pre ks -> somes ks' = [] -> (er = false -> ~ In None ks') -> sofar er pre (ks ++ ks').
Proof. intros H1 H2 H3. rewrite <- (app_nil_r pre). apply sofar_app; auto. Qed.

Ltac pick := cbn; repeat first [left; reflexivity|right].
Ltac own := intros _ ?b ?Hb; first [discriminate Hb|injection Hb as <-; reflexivity].

Section Script.
  Variables (E : env) (P : parser).
  Hypothesis HE : tame E.
  Hypothesis Hlen : slen (p_src P) < isize_bound.
  Hypothesis Hascii : ascii_only (p_src P).
  Notation body := (script_body E).
  Notation Sh := (shape_in (p_src P)).
  Notation Lx := (lexed (p_src P)).

  Notation Ft := (said_unquoted P).

  Section At.
    Variable N0 : nat.
    Notation Sem := (ShapeProofs.Sem E P body Sh Lx Ft N0).
    Notation SemAt := (ShapeProofs.SemAt E P body Sh Lx Ft).
    Notation own := (ShapeProofs.own body).
    Notation fits := ShapeProofs.fits.
    Notation chain := (ShapeProofs.chain E P body Sh Lx Ft).
    Notation all_notes := ShapeProofs.all_notes.

    (* ---------- programs ---------- *)

    Definition ok_level (md lv : level) : Prop := lv = Strong \/ lv = Strict \/ (md = Lax /\ lv = Errors).
    Lemma all_stable : stable all_notes.
    Proof. intros s st a t _ _. exact Logic.I. Qed.

    Lemma c_step n q md (M : kindlist -> Prop) (B : str -> kindlist -> Prop) lv m (T : out -> Prop) pats (K K1 K' : kindlist -> Prop) :
      Sem q lv m T -> (n <= N0)%nat ->
      ok_level md lv -> (m_consuming m = true \/ forall o, T o -> adds o = []) ->
      (forall b p, T (OBrk b p) -> md = Strong) ->
      (forall ks o, K ks -> T o -> is_break o = false -> K1 (ks ++ adds o) /\ M (ks ++ adds o)) ->
      (forall ks b p, K ks -> T (OBrk b p) -> B b (ks ++ adds p)) ->
      chain n q md M B all_notes pats K1 K' -> chain n q md M B all_notes (m :: pats) K K'.
    Proof.
      intros H Hn Hlv Hc Hbr HK HB Hch. eapply ch_cons with (I1 := all_notes); [apply all_stable|eapply sem_pat; eassumption| |exact HK|exact HB|exact Hch].
      split; [|split; [|split]].
      - intros _ ->. destruct Hlv as [Hl|[Hl|[_ Hl]]]; discriminate.
      - intros _ Hm. destruct Hlv as [Hl|[Hl|[Hl _]]]; auto; contradiction.
      - intros Hm o Ho. destruct Hc as [Hc|Hc]; [congruence|left; auto].
      - exact Hbr.
    Qed.
    Notation none := (fun (_ : str) (_ : kindlist) => False).
    Notation any := (fun _ : kindlist => True).
    Section Steps.
      Variables (n : nat) (q : bool) (md lv : level) (er : bool) (m : matcher) (pats : list matcher) (pre : list slot) (K' : kindlist -> Prop).
      Hypothesis Hn : (n <= N0)%nat.
      Hypothesis Hlv : ok_level md lv.
      Hypothesis Hcons : m_consuming m = true.
      Lemma c_skip : Sem q lv m (fun o => o = OSkip) -> chain n q md any none all_notes pats (sofar er pre) K' ->
        chain n q md any none all_notes (m :: pats) (sofar er pre) K'.
      Proof.
        intros H Hch. eapply c_step; eauto; [discriminate| |discriminate]. intros ks o Hk -> _. cbn [adds]. rewrite app_nil_r. auto.
      Qed.
      Lemma c_one ns : Sem q lv m (tok_in ns) -> chain n q md any none all_notes pats (sofar er (pre ++ [one ns])) K' ->
        chain n q md any none all_notes (m :: pats) (sofar er pre) K'.
      Proof.
        intros H Hch. eapply c_step; eauto; [intros b p (x & ks & b' & _ & Ho); discriminate| |intros ks b p _ (x & l & b' & _ & Ho); discriminate].
        intros ks o Hk (x & l & b & Hx & ->) _. split; [|exact Logic.I]. cbn [adds]. apply sofar_app; [exact Hk| |intros _ [Hi|[]]; discriminate].
        cbn. exists x, []. auto.
      Qed.
      Lemma c_opt ns : Sem q lv m (fun o => o = OSkip \/ tok_in ns o) -> chain n q md any none all_notes pats (sofar er (pre ++ [opt ns])) K' ->
        chain n q md any none all_notes (m :: pats) (sofar er pre) K'.
      Proof.
        intros H Hch. eapply c_step; eauto; [intros b p [Ho|(x & ks & b' & _ & Ho)]; discriminate| |intros ks b p _ [Ho|(x & l & b' & _ & Ho)]; discriminate].
        intros ks o Hk Ho _. split; [|exact Logic.I]. destruct Ho as [->|(x & l & b & Hx & ->)]; cbn [adds].
        - apply sofar_app; [exact Hk|left; reflexivity|intros _ []].
        - apply sofar_app; [exact Hk| |intros _ [Hi|[]]; discriminate]. right. exists x, []. cbn. auto.
      Qed.
      Lemma c_many ns : Sem q lv m (fun o => o = OSkip \/ exists ks, o = OPrx ks /\ among er ns ks) ->
        chain n q md any none all_notes pats (sofar er (pre ++ [many ns])) K' -> chain n q md any none all_notes (m :: pats) (sofar er pre) K'.
      Proof.
        intros H Hch. eapply c_step; eauto; [intros b p [Ho|(l & Ho & _)]; discriminate| |intros ks b p _ [Ho|(l & Ho & _)]; discriminate].
        intros ks o Hk Ho _. split; [|exact Logic.I]. destruct Ho as [->|(l & -> & Hl)]; cbn [adds].
        - apply sofar_app; [exact Hk| |intros _ []]. exists [], []. repeat split; constructor.
        - apply sofar_app; [exact Hk| |intros ->; now apply (among_none ns)]. exists (somes l), []. rewrite app_nil_r. split; [reflexivity|].
          split; [now apply (among_somes er)|reflexivity].
      Qed.
      Lemma c_assert : er = true -> Sem q lv m (fun o => o = OSkip \/ o = OTok true "Error" [] false) ->
        chain n q md any none all_notes pats (sofar er pre) K' -> chain n q md any none all_notes (m :: pats) (sofar er pre) K'.
      Proof.
        intros He H Hch. eapply c_step; eauto; [intros b p [Ho|Ho]; discriminate| |intros ks b p _ [Ho|Ho]; discriminate].
        intros ks o Hk Ho _. split; [|exact Logic.I]. destruct Ho as [->| ->]; cbn [adds]; [now rewrite app_nil_r|].
        apply sofar_same; [exact Hk|reflexivity|congruence].
      Qed.
    End Steps.
    Lemma c_pin n q md er m pats pre K' : (n <= N0)%nat -> Sem q Strong m (fun o => o = OPin) ->
      chain n q md any none all_notes pats (sofar er pre) K' -> chain n q md any none all_notes (m :: pats) (sofar er pre) K'.
    Proof.
      intros Hn H Hch. eapply c_step; eauto; [left; reflexivity|right; intros o ->; reflexivity|discriminate| |discriminate].
      intros ks o Hk -> _. cbn [adds]. rewrite app_nil_r. auto.
    Qed.
    (* a program of this kind *)
    Lemma s_signed q md er name slots pats i : md <> Errors -> pi_name i = name -> pi_iter i = None -> pi_stop i = false -> own (MProgram pats i) ->
      In (name, slots) script_tree -> (name <> "Attributes") ->
      (forall n, (n <= N0)%nat -> chain n q md any none all_notes pats (sofar er []) (fun ks => sofar er slots ks /\ evident (p_src P) name)) ->
      Sem q md (MProgram pats i) (fun o => exists ks, o = OTok false name ks true).
    Proof.
      intros Hmd Hname Hi Hp Ho Hin Hna Hch.
      eapply sem_program with (B := none) (K' := fun ks => sofar er slots ks /\ evident (p_src P) name); auto.
      - intros n Hn. specialize (Hch n Hn). revert Hch. generalize (fun ks => sofar er slots ks /\ evident (p_src P) name). intros K' Hch.
        inversion Hch as [I0 K K0 HK|I0 I1 m lv T pats' K K1 K0 S1 Hpat Hfits HT HB Hch']; subst.
        + apply ch_nil. intros ks ->. apply HK. split; [reflexivity|intros _ []].
        + assert (H0 : forall ks, ks = [] -> sofar er [] ks) by (intros ks ->; split; [reflexivity|intros _ []]).
          eapply ch_cons; eauto. destruct Hfits as (F1 & F2 & F3 & F4). split; [exact F1|]. split; [exact F2|]. split; [|exact F4].
          intros Hm o Ho'. destruct (F3 Hm o Ho') as [F|[F5 F6]]; [now left|]. exfalso. apply (F6 []); auto.
      - intros ks [[Hk1 Hk2] He] Hks. rewrite Hname. split; [|eauto]. right. split; [left; eauto|]. split; [intros ->; contradiction|]. split; [intros Hl; now apply (tree_no_leaf _ _ Hin) in Hl|exact He].
      - intros b ks [].
    Qed.
    Lemma chain_more n q md M B J pats (K K' K2 : kindlist -> Prop) : chain n q md M B J pats K K' -> (forall ks, K' ks -> K2 ks) ->
      chain n q md M B J pats K K2.
    Proof. induction 1; intros Hk; [apply ch_nil; auto|eapply ch_cons; eauto]. Qed.
    Lemma chain_and n q md M B J pats (K K' : kindlist -> Prop) (Q : Prop) : chain n q md M B J pats K K' ->
      chain n q md M B J pats (fun ks => K ks /\ Q) (fun ks => K' ks /\ Q).
    Proof.
      induction 1 as [J K K' HK|J J1 m lv T pats K K1 K' S1 Hp Hf HT HB Hch IH]; [apply ch_nil; intros ks [H1 H2]; auto|].
      eapply ch_cons with (K1 := fun ks => K1 ks /\ Q); [exact S1|exact Hp| | |intros ks b p [Hk _]; now apply HB|exact IH].
      - destruct Hf as (F1 & F2 & F3 & F4). split; [exact F1|]. split; [exact F2|]. split; [|exact F4].
        intros Hm o Ho. destruct (F3 Hm o Ho) as [F|[F5 F6]]; [now left|right]. split; [exact F5|]. intros ks [Hk _]. auto.
      - intros ks o [Hk HQ] Ho Hb. destruct (HT ks o Hk Ho Hb) as [H1 H2]. auto.
    Qed.
    Lemma s_program q md er name slots pats i : md <> Errors -> pi_name i = name -> pi_iter i = None -> pi_stop i = false -> own (MProgram pats i) ->
      In (name, slots) script_tree -> (name <> "Attributes") -> (name <> "SequenceMatcher" /\ name <> "RegexMatcher") ->
      (forall n, (n <= N0)%nat -> chain n q md any none all_notes pats (sofar er []) (sofar er slots)) ->
      Sem q md (MProgram pats i) (fun o => exists ks, o = OTok false name ks true).
    Proof.
      intros Hmd Hname Hi Hp Ho Hin Hna [He1 He2] Hch. eapply s_signed with (er := er); eauto.
      intros n Hn. eapply chain_more; [apply Hch, Hn|]. intros ks Hk. split; [exact Hk|]. split; intros; contradiction.
    Qed.
    (* loops over tokens with these names *)
    Lemma l_step n q md lv er name ns m (T : out -> Prop) pats : Sem q lv m T -> (n <= N0)%nat -> ok_level md lv -> m_consuming m = true ->
      (forall b p, T (OBrk b p) -> md = Strong /\ (b = name \/ b = "") /\ among er ns (adds p)) ->
      (forall o, T o -> is_break o = false -> among er ns (adds o)) ->
      let B := fun b ks => (b = name \/ b = "") /\ among er ns ks in
      chain n q md (among er ns) B all_notes pats (among er ns) (among er ns) ->
      chain n q md (among er ns) B all_notes (m :: pats) (among er ns) (among er ns).
    Proof.
      intros H Hn Hlv Hc Hb HT B Hch. eapply c_step; eauto.
      - intros b p Ho. apply (Hb b p Ho).
      - intros ks o Hk Ho Hbr. split; apply among_app; auto.
      - intros ks b p Hk Ho. destruct (Hb b p Ho) as (_ & H1 & H2). split; [exact H1|now apply among_app].
    Qed.
    Lemma s_loop q md er name ns pats i lo hi : md <> Errors -> pi_name i = name -> pi_iter i = Some (lo, hi) -> pi_stop i = false -> own (MProgram pats i) ->
      (forall ks, among er ns ks -> Sh name ks) ->
      (forall n, (n <= N0)%nat -> chain n q md (among er ns) (fun b ks => (b = name \/ b = "") /\ among er ns ks) all_notes pats (among er ns) (among er ns)) ->
      Sem q md (MProgram pats i) (fun o => (lo = 0 /\ o = OSkip) \/ exists ks, o = OTok false name ks true /\ among er ns ks).
    Proof.
      intros Hmd Hname Hi Hp Ho HS Hch.
      eapply sem_loop with (A := among er ns) (B := fun b ks => (b = name \/ b = "") /\ among er ns ks); eauto.
      - constructor.
      - intros ks Hk Hks. rewrite Hname. split; [now apply HS|]. right. eauto.
      - intros b ks [H1 H2]. rewrite Hname. auto.
    Qed.
    Lemma shape_many name ns er ks : In (lit name, [many ns]) script_tree -> (lit name = lit "Attributes" -> er = false) -> among er ns ks -> Sh name ks.
    Proof.
      intros Hin Hna Hk. right. split; [|split; [|split; [intros Hl; now apply (tree_no_leaf _ _ Hin) in Hl|]]].
      - left. exists [many ns]. split; [exact Hin|]. exists (somes ks), []. rewrite app_nil_r. split; [reflexivity|]. split; [now apply (among_somes er)|reflexivity].
      - intros Hn. rewrite (Hna Hn) in Hk. now apply (among_none ns).
      - split; intros Hn; rewrite Hn in Hin; cbn in Hin; repeat destruct Hin as [Hin|Hin]; try discriminate; destruct Hin.
    Qed.
    Lemma sem_to q lv m (T T' : out -> Prop) : Sem q lv m T -> (forall o, T o -> T' o) -> Sem q lv m T'.
    Proof. intros H HT. eapply sem_weaken; eauto. Qed.

    (* ---------- leaves ---------- *)

    Lemma leaf_shape n : In (lit n) helpers \/ In (lit n) script_leaves -> Sh n [].
    Proof. intros [H|H]; [now left|right]. split; [right; auto|]. split; [intros _ []|]. split; [auto|].
      split; intros Hn; rewrite Hn in H; cbn in H; repeat destruct H as [H|H]; try discriminate; destruct H.
    Qed.
    Definition known_leaf (n : string) (Q : Prop) : Prop := In (lit n) helpers \/ (In (lit n) script_leaves /\ Q).
    Lemma leaf_known n Q : known_leaf n Q -> In (lit n) helpers \/ In (lit n) script_leaves.
    Proof. intros [H|[H _]]; auto. Qed.
    Lemma ascii_rest pre (w : str) post : p_src P = pre ++ w ++ post -> ascii_only (w ++ post).
    Proof. intros He x Hx. apply Hascii. rewrite He. apply in_or_app. now right. Qed.
    Lemma lexed_at n r v w post : at_text P r w post -> lexeme n v w post -> Lx n r v.
    Proof.
      intros (pre & He & H1 & H2) H. right. exists pre, w, post. split; [exact He|]. split; [|exact H]. destruct r. cbn in *. now rewrite H1, H2.
    Qed.
    Lemma s_equals q n v b : own (MEquals (FStr v) (lit n) b) -> known_leaf n (In (lit n, v) fixed) ->
      Sem q Strong (MEquals (FStr v) (lit n) b) (fun o => o = OTok false n [] true).
    Proof.
      intros Ho Hn. apply sem_equals; auto; [eapply leaf_shape, leaf_known, Hn|]. intros r post Hat. destruct Hn as [Hn|[_ Hn]]; [now left|].
      eapply lexed_at; [exact Hat|]. now apply lx_fixed.
    Qed.
    Lemma matches_at n f : known_leaf n (finds f n) -> forall r w post, at_text P r w post -> f (w ++ post) = Some (0, slen w) -> 0 < slen w -> Lx n r w.
    Proof.
      intros [Hn|[_ Hn]] r w post Hat Hf Hw; [now left|]. eapply lexed_at; [exact Hat|]. apply Hn; auto. destruct Hat as (pre & He & _). exact (ascii_rest _ _ _ He).
    Qed.
    Lemma s_matches0 q n f b : own (MMatches f (lit n) b) -> known_leaf n (finds f n) -> sane_find f ->
      Sem q Strong (MMatches f (lit n) b) (fun o => o = OSkip \/ o = OTok false n [] true).
    Proof. intros Ho Hn Hf. apply sem_matches; auto; [eapply leaf_shape, leaf_known, Hn|now apply matches_at]. Qed.
    Lemma s_matches q n f b : own (MMatches f (lit n) b) -> known_leaf n (finds f n) -> sane_find f ->
      (forall w z, f w = Some (0, z) -> 0 < z) ->
      Sem q Strong (MMatches f (lit n) b) (fun o => o = OTok false n [] true).
    Proof. intros Ho Hn Hf Hz. apply sem_matches; auto; [eapply leaf_shape, leaf_known, Hn|now apply matches_at]. Qed.
    Notation strings := ["String"; "Value"; "Path"; "Name"; "StartPattern"; "EndPattern"; "EscapePattern"].
    Lemma s_string q n : own (ScriptStringN (lit n)) -> In (lit n) script_leaves -> named strings (lit n) -> Sem q Strong (ScriptStringN (lit n)) (tok_in [n]).
    Proof.
      intros Ho Hn Hs. apply sem_sequence; auto; try reflexivity; [apply leaf_shape; now right| |].
      - intros r raw v text post Hat Hsc. eapply lexed_at; [exact Hat|]. apply lx_string; [exact Hs|]. exists raw. split; [|reflexivity].
        exact (scans_literal _ _ _ _ Hsc).
      - intros b. exists (lit n), [], b. split; [now left|reflexivity].
    Qed.
    Lemma s_named q lv m n : Sem q lv m (fun o => o = OTok false (lit n) [] true) -> Sem q lv m (tok_in [n]).
    Proof. intros H. eapply sem_to; [exact H|]. intros o ->. exists (lit n), [], true. split; [now left|reflexivity]. Qed.
    (* what is thrown away *)
    Lemma s_gone q m n : Sem true Strong m (fun o => o = OSkip \/ o = OTok false n [] true) -> Sem q Strong (MDiscard m) (fun o => o = OSkip).
    Proof. intros H. eapply sem_discard; eauto. intros o [->| ->]; split; (discriminate || reflexivity). Qed.
    Lemma s_gone_eq q v : Sem q Strong (MDiscard (Equals_ v)) (fun o => o = OSkip).
    Proof.
      apply s_gone with (n := lit "Equals"). eapply sem_to; [apply (s_equals true "Equals" v false); [discriminate|left; pick]|]. intros o ->. now right.
    Qed.
    Lemma s_gone_re q f : sane_find f -> Sem q Strong (MDiscard (Matches_ f)) (fun o => o = OSkip).
    Proof. intros Hf. apply s_gone with (n := lit "Matches"). apply (s_matches0 true "Matches" f false); [discriminate|left; pick|exact Hf]. Qed.
    Lemma s_ws q f : sane_find f -> Sem q Strong (MDiscard (MatchesN "Whitespace" f)) (fun o => o = OSkip).
    Proof.
      intros Hf. apply s_gone with (n := lit "Whitespace"). apply (s_matches0 true "Whitespace" f true); [own|left; pick|exact Hf].
    Qed.
    Lemma s_ws0 q : Sem q Strong (ScriptWS0 E) (fun o => o = OSkip).
    Proof. apply s_ws, re_find_sane. Qed.
    Lemma s_wsn0 q : Sem q Strong (ScriptWSN0 E) (fun o => o = OSkip).
    Proof. apply s_ws, re_find_sane. Qed.
    Lemma s_opt q lv m ns : Sem q lv m (tok_in ns) -> Sem q lv (MOptional m) (fun o => o = OSkip \/ tok_in ns o).
    Proof. intros H. eapply sem_optional; eauto. Qed.
    Lemma tok_in_more ns ns' o : (forall n, In n ns -> In n ns') -> tok_in ns o -> tok_in ns' o.
    Proof.
      intros H (n & ks & b & Hn & ->). exists n, ks, b. split; [|reflexivity]. unfold names in *. apply in_map_iff in Hn as (x & <- & Hx).
      apply in_map. auto.
    Qed.
    Lemma s_switch q lv pats i (T : out -> Prop) : own (MProgram pats i) -> pi_iter i = None -> pi_stop i = true ->
      Forall (fun m => Sem q lv m T) pats -> Sem q lv (MProgram pats i) T.
    Proof. intros H1 H2 H3 H4. apply sem_switch; auto. rewrite Forall_forall in H4. exact H4. Qed.
    Notation ids := ["Identifier"; "ImportName"; "ImportAsName"].
    Lemma s_identifier q n : own (ScriptIdentifierN (lit n)) -> In (lit n) script_leaves -> named ids (lit n) -> Sem q Strong (ScriptIdentifierN (lit n)) (tok_in [n]).
    Proof.
      intros Ho Hn Hi. apply s_named. apply s_matches; auto; [right; split; [exact Hn|now apply finds_identifier]|apply re_find_sane|]. intros w z. now apply re_takes.
    Qed.

    (* a closing bracket *)
    Lemma s_close q v nm : Sem q Strong (Program_ [Equals_ v; MBreak nm]) (fun o => o = OBrk nm (OTok false "Program" [Some (lit "Equals")] true)).
    Proof.
      eapply sem_program with (B := fun b ks => b = nm /\ ks = [Some (lit "Equals")]) (K' := fun _ => False); auto; try discriminate.
      - intros n Hn. eapply c_step with (K1 := fun ks => ks = [Some (lit "Equals")]);
          [apply (s_equals q "Equals" v false); [discriminate|left; pick]|exact Hn|now left|now left|discriminate| |discriminate|].
        + intros ks o -> -> _. auto.
        + eapply c_step with (K1 := fun _ => False); [apply sem_break with (T := fun o => o = OBrk nm ONone); reflexivity|exact Hn|now left|now left|reflexivity| | |].
          * intros ks o _ -> H. discriminate.
          * intros ks b p -> H. injection H as -> ->. auto.
          * apply ch_nil. auto.
      - intros ks [].
      - intros b ks [-> ->] _. split; [left; pick|reflexivity].
    Qed.
    Lemma s_close_gone q v nm : Sem q Strong (MDiscard (Program_ [Equals_ v; MBreak nm])) (fun o => o = OBrk nm OSkip).
    Proof. eapply sem_discard; try eassumption; [apply s_close|]. intros o ->. split; [discriminate|reflexivity]. Qed.

    (* ---------- attributes ---------- *)

    Ltac lev := first [now left|now (right; left)|now (right; right)].
    Ltac gone := first [apply s_ws0|apply s_wsn0|apply s_gone_eq|apply s_gone_re; apply re_find_sane].
    Ltac skip := eapply c_skip with (lv := Strong); [assumption|lev|reflexivity|gone|].
    Ltac one_of l t := eapply c_one with (lv := l); [assumption|lev|reflexivity|t|].
    Ltac opt_of l t := eapply c_opt with (lv := l); [assumption|lev|reflexivity|t|].
    Ltac str_of := apply s_string; [own|pick|pick].
    Ltac id_of := apply s_identifier; [own|pick|pick].
    Ltac found := first [apply finds_attr|apply finds_comment|apply finds_flags|apply finds_part|apply finds_escape|apply finds_digits; pick].
    Ltac eq_of := apply s_named; apply s_equals; [own|right; split; pick].
    Ltac re_of := apply s_named; apply s_matches; [own|right; split; [pick|found]|apply re_find_sane|intros w z; now apply re_takes].
    Ltac prog l e := eapply s_program with (md := l) (er := e); [discriminate|reflexivity|reflexivity|reflexivity|own| |discriminate|split; discriminate|intros n Hn].
    Ltac prog_by l e := eapply s_signed with (md := l) (er := e); [discriminate|reflexivity|reflexivity|reflexivity|own| |discriminate|intros n Hn].

    Lemma unquoted_fatal k c s st st' a t : good P c -> exec k E P (Matches_ (re_unquoted E)) c s st = Ret (Ok (SToken a)) st' ->
      error_string E P msg_malformed (tk_mr (tok st' a)) = Val t -> Ft (mkPE t (Some (tk_mr (tok st' a)))).
    Proof.
      intros Hc H Ht. apply (matches_found E P body Sh Lx Hlen N0) in H as (w & post & (pre & He & H1 & H2) & Hf & Hw); [|apply re_find_sane|exact Hc].
      destruct (tk_mr (tok st' a)) as [x y] eqn:Er. cbn [rs re] in H1, H2. subst x y. exists pre, w, post, t.
      split; [exact He|]. split.
      { apply (take_unquoted E); [|exact Hf]. intros x Hx. apply Hascii. rewrite He. apply in_or_app. now right. }
      split; [|reflexivity].
      destruct (MapProofs.error_string_text E P msg_malformed (mkR (slen pre) (slen pre + slen w))) as (t' & T1 & T2).
      { apply ascii_sliceable; [exact Hascii|cbn; lia|]. cbn [rs re]. rewrite He, !slen_app. lia. }
      { cbn [re]. assert (slen pre + slen w <= slen (p_src P)) by (rewrite He, !slen_app; lia). unfold usize_max, isize_bound in *. lia. }
      rewrite Ht in T2. injection T2 as <-. exact T1.
    Qed.
    Notation x_start := (lit "AttributeStartOffset").
    Lemma s_attribute : Sem false Strict (ScriptAttribute E) (tok_in ["Attribute"]).
    Proof.
      eapply sem_to with (T := fun o => exists ks, o = OTok false "Attribute" ks true); [|intros o (ks & ->); exists (lit "Attribute"), ks, true; split; [now left|reflexivity]].
      eapply sem_program with (B := none) (K' := sofar true [one ["Name"]; one ["Value"]]); try reflexivity; try assumption; try discriminate; [| |intros b ks []].
      - intros n Hn. 
        assert (Hstep : forall (I I1 : sid -> state -> Prop) lv m (T : out -> Prop) pats (K K1 K' : kindlist -> Prop), stable I1 -> pat E P body Sh Lx Ft n I I1 false lv m T ->
          ok_level Strict lv -> (forall b p, ~ T (OBrk b p)) -> m_consuming m = true ->
          (forall ks o, K ks -> T o -> K1 (ks ++ adds o)) -> chain n false Strict any none I1 pats K1 K' -> chain n false Strict any none I (m :: pats) K K').
        { intros I I1 lv m T pats K K1 K' S1 Hp Hlv Hb Hc HK Hch. eapply ch_cons; [exact S1|exact Hp| |intros ks o Hk Ho _; split; [now apply HK|exact Logic.I]| |exact Hch].
          - split; [|split; [|split]].
            + intros _ ->. destruct Hlv as [Hl|[Hl|[_ Hl]]]; discriminate.
            + intros _ Hm. destruct Hlv as [Hl|[Hl|[Hl _]]]; auto; discriminate.
            + congruence.
            + intros b p Ho. now apply Hb in Ho.
          - intros ks b p _ Ho. now apply Hb in Ho. }
        assert (Hskip : forall m pats pre K', Sem false Strong m (fun o => o = OSkip) -> flat x_start m -> m_consuming m = true ->
          chain n false Strict any none (bookmark P x_start) pats (sofar true pre) K' ->
          chain n false Strict any none (bookmark P x_start) (m :: pats) (sofar true pre) K').
        { intros m pats pre K' Hm Hf Hc Hch. eapply Hstep; [apply bookmark_stable|eapply pat_flat; eassumption|now left|discriminate|exact Hc| |exact Hch].
          intros ks o Hk ->. cbn [adds]. now rewrite app_nil_r. }
        assert (Hone : forall nm m pats pre K', Sem false Strong m (tok_in [nm]) -> flat x_start m -> m_consuming m = true ->
          chain n false Strict any none (bookmark P x_start) pats (sofar true (pre ++ [one [nm]])) K' ->
          chain n false Strict any none (bookmark P x_start) (m :: pats) (sofar true pre) K').
        { intros nm m pats pre K' Hm Hf Hc Hch. eapply Hstep; [apply bookmark_stable|eapply pat_flat; eassumption|now left| |exact Hc| |exact Hch].
          - intros b p (x & ks & b' & _ & Ho). discriminate.
          - intros ks o Hk (x & ks' & b' & Hx & ->). apply sofar_app; [exact Hk| |discriminate]. exists x, []. split; [exact Hx|split; reflexivity]. }
        eapply Hstep with (K1 := sofar true []); [apply bookmark_stable|apply pat_store; first [reflexivity|assumption|own]|now left|discriminate|reflexivity|intros ks o -> ->; split; [reflexivity|discriminate]|].
        eapply Hone with (nm := "Name"); [re_of|apply fl_matches; discriminate|reflexivity|].
        apply Hskip; [gone|apply fl_discard, fl_matches; discriminate|reflexivity|].
        apply Hskip; [gone|apply fl_discard, fl_equals; discriminate|reflexivity|].
        apply Hskip; [gone|apply fl_discard, fl_matches; discriminate|reflexivity|].
        apply Hskip; [|apply fl_fatal, fl_matches; discriminate|reflexivity|].
        { eapply sem_fatal with (T := fun o => o = OTok false "Matches" [] true); try eassumption; try discriminate; try reflexivity.
          - apply s_matches; [discriminate|left; pick|apply re_find_sane|intros w z; now apply re_takes].
          - intros o ->. right. eauto.
          - intros o ->. discriminate.
          - apply unquoted_fatal. }
        eapply Hone with (nm := "Value"); [str_of|apply fl_sequence; discriminate|reflexivity|].
        eapply ch_cons with (I1 := all_notes) (K1 := sofar true [one ["Name"]; one ["Value"]]); [apply all_stable| | | | |apply ch_nil; auto].
        + apply (pat_look E P body Sh Lx Ft HE Hlen Hascii N0 n x_start (Matches_ (re_underscore E)) "Attribute names can not start with an underscore" "Pin" true
            (fun o => o = OTok false "Matches" [] true)).
          * apply s_matches; [discriminate|left; pick|apply re_find_sane|intros w z; now apply re_takes].
          * exact Hn.
          * intros o ->. eauto.
          * intros H. cbn in H. repeat destruct H as [H|H]; try discriminate. exact H.
          * discriminate.
          * own.
        + split; [|split; [|split]].
          * discriminate.
          * discriminate.
          * intros _ o _. right. split; [discriminate|]. intros ks [(x & k & _ & Hk & _) _] ->. discriminate.
          * intros b p [Ho|Ho]; discriminate.
        + intros ks o Hk Ho _. split; [|exact Logic.I]. destruct Ho as [->| ->]; cbn [adds]; [now rewrite app_nil_r|].
          apply sofar_same; [exact Hk|reflexivity|discriminate].
        + intros ks b p _ [Ho|Ho]; discriminate.
      - intros ks [Hk _] _. split; [|eauto]. right. split; [left; exists [one ["Name"]; one ["Value"]]; split; [pick|exact Hk]|split; [discriminate|split; [intros Hl; exfalso; revert Hl; apply (tree_no_leaf _ [one ["Name"]; one ["Value"]]); pick|split; discriminate]]].
    Qed.
    Lemma s_attributes : Sem false Strict (ScriptAttributes E) (fun o => o = OSkip \/ tok_in ["Attributes"] o).
    Proof.
      apply s_opt. eapply sem_to.
      - eapply s_loop with (er := false) (ns := ["Attribute"]) (name := lit "Attributes"); try reflexivity; [discriminate|own| |].
        + intros ks Hk. eapply shape_many; [|reflexivity|exact Hk]. pick.
        + intros n Hn. eapply l_step; [apply s_attribute|exact Hn|lev|reflexivity| | |].
          * intros b p (x & ks & b' & _ & Ho). discriminate.
          * intros o (x & ks & b' & Hx & ->) _. constructor; [exact Hx|constructor].
          * eapply l_step; [apply s_wsn0|exact Hn|lev|reflexivity|discriminate| |apply ch_nil; auto]. intros o -> _. constructor.
      - intros o [[Hl _]|(ks & -> & _)]; [discriminate|]. exists (lit "Attributes"), ks, true. split; [now left|reflexivity].
    Qed.
    Lemma HSa : forall ks, Sh "Attributes" ks -> Forall (fun k => k = Some (lit "Attribute")) ks.
    Proof.
      intros ks [H|(H1 & H2 & _)]; [cbn in H; repeat destruct H as [H|H]; try discriminate; destruct H|]. specialize (H2 eq_refl).
      destruct H1 as [(sl & Hin & Hf)|[Hin _]]; cbn in Hin; repeat destruct Hin as [Hin|Hin]; try discriminate; try (destruct Hin; fail).
      injection Hin as <-. destruct Hf as (k1 & k2 & Hk & Hf & ->). rewrite app_nil_r in Hk. subst k1.
      induction ks as [|[x|] ks IH]; [constructor| |exfalso; apply H2; now left].
      cbn in Hf. inversion Hf as [|? ? [Hx|[]] Hf']; subst. constructor; [reflexivity|]. apply IH; first [exact Hf'|intros Hi; apply H2; now right].
    Qed.
    Lemma somes_length l : (List.length (somes l) <= List.length l)%nat.
    Proof. induction l as [|[x|] l IH]; cbn; lia. Qed.
    Lemma HSb : forall ks, Sh "Attribute" ks -> (2 <= List.length ks)%nat.
    Proof.
      intros ks [H|[H1 _]]; [cbn in H; repeat destruct H as [H|H]; try discriminate; destruct H|].
      destruct H1 as [(sl & Hin & Hf)|[Hin _]]; cbn in Hin; repeat destruct Hin as [Hin|Hin]; try discriminate; try (destruct Hin; fail).
      injection Hin as <-. destruct Hf as (n1 & k1 & _ & Hk & n2 & k2 & _ & -> & ->). pose proof (somes_length ks). rewrite Hk in H. exact H.
    Qed.

    (* ---------- what the text must contain ---------- *)

    Lemma sem_sign q lv m (T : out -> Prop) (Q : Prop) : (forall n c s st x st', exec n E P m c s st = Ret (Ok x) st' -> Q) ->
      Sem q lv m T -> Sem q lv m (fun o => T o /\ Q).
    Proof.
      intros HQ H n Hn c s st Hk Hc. specialize (H n Hn c s st Hk Hc). unfold ends, after in *.
      destruct (exec n E P m c s st) as [[x|e] st'|p|] eqn:Ee; auto. destruct H as (H1 & H2 & H3 & H4 & H5).
      split; [exact H1|]. split; [exact H2|]. split; [exact H3|]. split; [exact H4|]. split; [exact H5|]. eapply HQ, Ee.
    Qed.
    Lemma first_sign n q md lv er m pats name slots (T : out -> Prop) (Q : Prop) (K1 : kindlist -> Prop) : (n <= N0)%nat -> ok_level md lv -> m_consuming m = true ->
      Sem q lv m T -> (forall n c s st x st', exec n E P m c s st = Ret (Ok x) st' -> Q) -> (forall b p, ~ T (OBrk b p)) ->
      (forall ks o, sofar er [] ks -> T o -> K1 (ks ++ adds o)) -> (Q -> evident (p_src P) name) ->
      chain n q md any none all_notes pats K1 (sofar er slots) ->
      chain n q md any none all_notes (m :: pats) (sofar er []) (fun ks => sofar er slots ks /\ evident (p_src P) name).
    Proof.
      intros Hn Hlv Hc HS HQ Hb HK He Hch. eapply c_step with (K1 := fun ks => K1 ks /\ Q); [eapply sem_sign; [exact HQ|exact HS]|exact Hn|exact Hlv|now left| | | |].
      - intros b p [Ho _]. exfalso. eapply Hb, Ho.
      - intros ks o Hk [Ho HQ'] _. auto.
      - intros ks b p _ [Ho _]. exfalso. eapply Hb, Ho.
      - eapply chain_more; [apply chain_and, Hch|]. intros ks [H1 H2]. auto.
    Qed.
    Lemma find_one r k : forall s pos x, find_from [One (ch k) :: r] pos s = Some x -> exists l, In (N_of_ascii k, l) s.
    Proof.
      induction s as [|[y l] s IH]; intros pos x H; cbn in H; [discriminate|]. unfold ch in H at 1.
      destruct (y =? N_of_ascii k) eqn:Ey.
      - apply N.eqb_eq in Ey as ->. exists l. now left.
      - destruct (IH _ _ H) as [l' Hl]. exists l'. now right.
    Qed.
    Lemma slice_in a b w y : src_slice P a b = Val w -> In y w -> In y (p_src P).
    Proof.
      intros H Hy. unfold src_slice, or_die in H. destruct (slice (p_src P) a b) as [w'|] eqn:Es; [|discriminate]. injection H as ->.
      apply slice_some in Es as (pre & post & Hs & _). rewrite Hs. apply in_or_app. right. apply in_or_app. now left.
    Qed.
    Lemma signs_percent n c s st x st' : exec n E P (MDiscard (Matches_ (re_percent E))) c s st = Ret (Ok x) st' -> In "%"%char (p_src P).
    Proof.
      destruct n as [|[|n]]; cbn [exec]; [discriminate|cbn; discriminate|]. unfold step at 1.
      destruct (step n E P (exec n E P) _ _ s _) as [[y|e] st1|p|] eqn:Em; try discriminate. intros _. revert Em. unfold step, Matches_. cbn [clone_with_name c_off].
      unfold matches_regexp. destruct (src_slice P _ _) as [w|p] eqn:Ew; [|discriminate].
      destruct (re_percent E w) as [[ms me]|] eqn:Ef; [|destruct (dbg _ _ _ _); discriminate].
      intros _. unfold re_percent, re_find in Ef. apply find_one in Ef as [l Hl].
      rewrite decode_ascii in Hl by (intros y' Hy; eapply Hascii, slice_in; eauto).
      unfold chars in Hl. apply in_map_iff in Hl as (z & Hz & Hin). injection Hz as Hz _.
      assert (z = "%"%char) as -> by (rewrite <- (ascii_N_embedding z), Hz; reflexivity). eapply slice_in; eauto.
    Qed.
    Lemma signs_slash n c s st x st' : exec n E P (EqualsN "RegexStart" "/") c s st = Ret (Ok x) st' -> In "/"%char (p_src P).
    Proof.
      destruct n as [|n]; cbn [exec]; [discriminate|]. unfold step, EqualsN. cbn [fetch_value clone_with_name c_off].
      unfold matches_str. change (slen (lit "/") =? 0) with false. cbn iota. destruct (src_slice P _ _) as [w|p] eqn:Ew; [|discriminate].
      destruct (starts_with (lit "/") w) eqn:Hw; [|destruct (dbg _ _ _ _); discriminate]. intros _.
      destruct w as [|y w]; [discriminate|]. change (starts_with (lit "/") (y :: w)) with (Ascii.eqb "/" y && true)%bool in Hw. apply andb_true_iff in Hw as [Hw _]. apply Ascii.eqb_eq in Hw as <-.
      eapply slice_in; [exact Ew|now left].
    Qed.

    (* ---------- matchers ---------- *)

    Lemma s_plain q md m n : Sem q md m (fun o => exists ks, o = OTok false (lit n) ks true) -> Sem q md m (tok_in [n]).
    Proof. intros H. eapply sem_to; [exact H|]. intros o (ks & ->). exists (lit n), ks, true. split; [now left|reflexivity]. Qed.
    Ltac done := apply ch_nil; intros ks Hk; exact Hk.

    Lemma s_custom q : Sem q Strong ScriptCustomMatcher (tok_in ["CustomMatcher"]).
    Proof. apply s_plain. prog Strong true; [|one_of Strong id_of; done]. pick. Qed.
    Lemma s_equalsm q : Sem q Strong ScriptEqualsMatcher (tok_in ["EqualsMatcher"]).
    Proof. apply s_plain. prog Strong true; [|skip; one_of Strong str_of; done]. pick. Qed.
    Lemma s_sequence q : Sem q Strong (ScriptSequenceMatcher E) (tok_in ["SequenceMatcher"]).
    Proof.
      apply s_plain. prog_by Strong true; [pick|].
      eapply first_sign with (lv := Strong) (T := fun o => o = OSkip) (Q := In "%"%char (p_src P)) (K1 := sofar true []); [exact Hn|lev|reflexivity|gone| | | | |].
      - intros k c s st x st' H. eapply signs_percent. exact H.
      - intros b p Ho. discriminate.
      - intros ks o Hk ->. cbn [adds]. now rewrite app_nil_r.
      - intros H. split; [intros _; exact H|discriminate].
      - one_of Strong str_of; skip; one_of Strong str_of; skip; one_of Strong str_of; done.
    Qed.
    Lemma s_range q : Sem q Strong (ScriptRepeatRange E) (tok_in ["RepeatRange"]).
    Proof.
      apply s_plain. prog Strong true.
      2:{ skip. skip. one_of Strong re_of. skip. opt_of Strong ltac:(apply s_opt; eq_of). skip. opt_of Strong ltac:(apply s_opt; re_of).
          skip. skip. done. }
      pick.
    Qed.
    Lemma s_specifier q : Sem q Strong (ScriptRepeatSpecifier E) (tok_in repeat_names).
    Proof.
      apply s_switch; [own|reflexivity|reflexivity|]. constructor; [|constructor; [|constructor; [|constructor]]].
      - eapply sem_to with (T := tok_in ["RepeatZeroOrMore"]); [eq_of|]. intros o. apply tok_in_more. cbn; tauto.
      - eapply sem_to with (T := tok_in ["RepeatOneOrMore"]); [eq_of|]. intros o. apply tok_in_more. cbn; tauto.
      - eapply sem_to; [apply s_range|]. intros o. apply tok_in_more. cbn; tauto.
    Qed.
    Lemma s_name q : Sem q Strong ScriptMatcherName (tok_in ["MatcherName"]).
    Proof. apply s_plain. prog Strong true; [|skip; one_of Strong str_of; done]. pick. Qed.

    Notation parts_of := ["Part"; "RegexEnd"; "Flags"].
    Lemma regex_kids n : In n (names ["RegexMatcher"]) -> Sh n [] -> False.
    Proof.
      intros [<-|[]] [H|(H & _ & _ & _)].
      - cbn in H. repeat destruct H as [H|H]; try discriminate. exact H.
      - destruct H as [(slots & Hin & H)|[H _]].
        + cbn in Hin. repeat destruct Hin as [Hin|Hin]; try discriminate; [|destruct Hin]. injection Hin as <-. destruct H as (n & k & _ & H & _). discriminate.
        + cbn in H. repeat destruct H as [H|H]; try discriminate. exact H.
    Qed.
    Lemma s_regex : Sem false Strong ScriptRegexMatcher (tok_in ["RegexMatcher"]).
    Proof.
      eapply sem_regex; try eassumption; [|intros n b (n' & l & b' & Hn & Ho) Hs; injection Ho as <- _; exact (regex_kids _ Hn Hs)|intros ks (n & l & b & _ & Ho); discriminate|intros o (n & l & b & _ & ->); discriminate].
      apply s_plain. prog_by Strong false.
      2:{ eapply first_sign with (lv := Strong) (T := tok_in ["RegexStart"]) (Q := In "/"%char (p_src P)) (K1 := sofar false [one ["RegexStart"]]);
            [exact Hn|lev|reflexivity|eq_of| | | | |].
          { intros k c s st x st' H. eapply signs_slash. exact H. }
          { intros b p (x & ks & b' & _ & Ho). discriminate. }
          { intros ks o Hk (x & l & b & Hx & ->). apply (sofar_app false []); [exact Hk| |intros _ [Hi|[]]; discriminate]. cbn. exists x, []. auto. }
          { intros H. split; [discriminate|intros _; exact H]. }
          eapply c_many with (lv := Strong) (ns := parts_of); [assumption|lev|reflexivity| |done].
          eapply sem_proxy with (T := fun o => (0 = 0 /\ o = OSkip) \/ exists ks, o = OTok false "RegexCaptureLoop" ks true /\ among false parts_of ks); try eassumption; [discriminate| |].
          2:{ intros o [[_ ->]|(ks & -> & Hk)]; (split; [discriminate|]); [now left|]. right. exists ks. auto. }
          eapply s_loop with (er := false) (ns := parts_of) (name := lit "RegexCaptureLoop"); try reflexivity; [discriminate|own| |].
          { intros ks _. left. pick. }
          clear n Hn. intros n Hn. eapply l_step; [apply (s_matches0 false "Part"); [own|right; split; [pick|found]|apply re_find_sane]|exact Hn|lev|reflexivity| | |].
          - intros b p [Ho|Ho]; discriminate.
          - intros o [->| ->] _; [constructor|]. constructor; [pick|constructor].
          - eapply l_step with (T := fun o => tok_in ["Part"] o \/ exists ks, o = OBrk "RegexCaptureLoop" (OPrx ks) /\ among false parts_of ks);
              [|exact Hn|lev|reflexivity| | |apply ch_nil; auto].
            + apply s_switch; [discriminate|reflexivity|reflexivity|]. constructor; [|constructor; [|constructor; [|constructor]]].
              * eapply sem_to with (T := tok_in ["Part"]); [re_of|auto].
              * eapply sem_proxy with (T := fun o => exists ks, o = OBrk "RegexCaptureLoop" (OTok false "Program" ks true) /\ among false parts_of ks); try eassumption; [discriminate| |].
                2:{ intros o (ks & -> & Hk). split; [discriminate|]. right. exists ks. auto. }
                eapply sem_program with (B := fun b ks => b = lit "RegexCaptureLoop" /\ among false parts_of ks) (K' := fun _ => False); auto; try discriminate.
                -- clear n Hn. intros n Hn. eapply c_step with (K1 := among false parts_of); [apply (s_equals false "RegexEnd"); [own|right; split; pick]|exact Hn|lev|now left|discriminate| |discriminate|].
                   { intros ks o -> -> _. split; [|exact Logic.I]. constructor; [pick|constructor]. }
                   eapply c_step with (K1 := among false parts_of); [apply (s_matches0 false "Flags"); [own|right; split; [pick|found]|apply re_find_sane]|exact Hn|lev|now left| | | |].
                   { intros b p [Ho|Ho]; discriminate. }
                   { intros ks o Hk Ho _. split; [|exact Logic.I]. apply among_app; [exact Hk|]. destruct Ho as [->| ->]; [constructor|]. constructor; [pick|constructor]. }
                   { intros ks b p _ [Ho|Ho]; discriminate. }
                   eapply c_step with (K1 := fun _ => False); [apply sem_break with (T := fun o => o = OBrk "RegexCaptureLoop" ONone); reflexivity|exact Hn|lev|now left|reflexivity| | |apply ch_nil; auto].
                   { intros ks o _ -> H. discriminate. }
                   { intros ks b p Hk H. injection H as -> ->. cbn [adds]. rewrite app_nil_r. auto. }
                -- intros ks [].
                -- intros b ks [-> Hk] _. split; [left; pick|]. exists ks. auto.
              * eapply sem_to with (T := tok_in ["Part"]); [|auto]. eapply sem_sequence; try eassumption; try reflexivity; [own|apply leaf_shape; right; pick| |].
                { intros r raw v text post Hat Hsc. eapply lexed_at; [exact Hat|]. apply lx_class. exact (scans_literal _ _ _ _ Hsc). }
                intros b. exists (lit "Part"), [], b. split; [now left|reflexivity].
            + intros b p [(x & l & b' & _ & Ho)|(ks & Ho & Hk)]; [discriminate|]. injection Ho as -> ->. auto.
            + intros o [(x & l & b' & Hx & ->)|(ks & -> & _)] Hb; [|discriminate]. constructor; [destruct Hx as [Hx|Hx]; [now left|destruct Hx]|constructor]. }
      pick.
    Qed.

    (* ---------- patterns ---------- *)

    Notation st_sw := (tok_in ["SwitchMatcher"]).
    Notation st_pr := (tok_in ["ProgramMatcher"]).
    Hypothesis IHs : forall n, (n < N0)%nat -> SemAt n false Strong (ScriptSwitchMatcher E) st_sw.
    Hypothesis IHp : forall n, (n < N0)%nat -> SemAt n false Strong (ScriptProgramMatcher E) st_pr.

    Lemma s_matcher : Sem false Strong (ScriptMatcher E) (tok_in matcher_names).
    Proof.
      apply s_switch; [own|reflexivity|reflexivity|].
      repeat match goal with |- Forall _ (_ :: _) => constructor | |- Forall _ [] => constructor end.
      - eapply sem_to; [apply s_regex|]. intros o. apply tok_in_more. cbn; tauto.
      - eapply sem_to; [apply s_equalsm|]. intros o. apply tok_in_more. cbn; tauto.
      - eapply sem_to; [apply s_sequence|]. intros o. apply tok_in_more. cbn; tauto.
      - eapply sem_to; [apply s_custom|]. intros o. apply tok_in_more. cbn; tauto.
      - eapply sem_to with (T := st_sw); [|intros o; apply tok_in_more; cbn; tauto].
        eapply sem_ref; [discriminate|reflexivity|exact IHs].
      - eapply sem_to with (T := st_pr); [|intros o; apply tok_in_more; cbn; tauto].
        eapply sem_ref; [discriminate|reflexivity|exact IHp].
    Qed.
    Lemma s_both : Sem false Strong (AssertIf (Matches_ re_both) msg_both) (fun o => o = OSkip \/ o = OTok true "Error" [] false).
    Proof.
      eapply sem_assert; try eassumption; [apply (s_matches0 false "Matches" re_both false); [discriminate|left; pick|apply re_find_sane]|].
      intros o [->| ->]; [now left|right; eauto].
    Qed.
    Lemma s_modifier a b va vb : known_leaf a (In (lit a, va) fixed) -> known_leaf b (In (lit b, vb) fixed) ->
      own (EqualsN (lit a) va) -> own (EqualsN (lit b) vb) ->
      Sem false Strong (MOptional (Switch_ [EqualsN (lit a) va; EqualsN (lit b) vb])) (fun o => o = OSkip \/ tok_in [a; b] o).
    Proof.
      intros Ha Hb Oa Ob. apply s_opt. apply s_switch; [discriminate|reflexivity|reflexivity|]. constructor; [|constructor; [|constructor]].
      - eapply sem_to with (T := tok_in [a]); [apply s_named, s_equals; auto|]. intros o. apply tok_in_more. cbn; tauto.
      - eapply sem_to with (T := tok_in [b]); [apply s_named, s_equals; auto|]. intros o. apply tok_in_more. cbn; tauto.
    Qed.
    Lemma s_definition : Sem false Strong (ScriptPatternDefinition E) (tok_in ["PatternDefinition"]).
    Proof.
      eapply sem_patterndef with (T := tok_in ["PatternDefinition"]); try eassumption; [apply HSa|apply HSb| | | |auto|].
      2:{ intros ks (n & l & b & _ & Ho). discriminate. }
      2:{ intros o (n & l & b & _ & ->). discriminate. }
      2:{ intros e n ks b b' (n' & l & b1 & Hn & Ho). injection Ho as -> -> -> ->. exists n', l, b'. auto. }
      apply s_plain. prog Strong true.
      2:{ eapply c_assert with (lv := Strong); [assumption|lev|reflexivity|reflexivity|apply s_both|].
          opt_of Strong ltac:(apply s_modifier; [right; split; pick|right; split; pick|own|own]). skip.
          eapply c_assert with (lv := Strong); [assumption|lev|reflexivity|reflexivity|apply s_both|].
          opt_of Strong ltac:(apply s_modifier; [right; split; pick|right; split; pick|own|own]). skip.
          one_of Strong ltac:(apply s_matcher). skip.
          opt_of Strict ltac:(apply s_attributes). skip.
          opt_of Strong ltac:(apply s_opt; apply s_specifier). done. }
      pick.
    Qed.
    Lemma s_pattern : Sem false Strong (ScriptPattern E) (tok_in pattern_names).
    Proof.
      apply s_switch; [own|reflexivity|reflexivity|]. constructor; [|constructor; [|constructor]].
      - eapply sem_to with (T := tok_in ["PatternDefinitionCaptured"]); [|intros o; apply tok_in_more; cbn; tauto].
        apply s_plain. prog Strong true.
        2:{ skip. skip. opt_of Strong ltac:(apply s_opt; apply s_name). skip. one_of Strong ltac:(apply s_definition). skip. skip. done. }
        pick.
      - eapply sem_to; [apply s_definition|]. intros o; apply tok_in_more; cbn; tauto.
    Qed.
    Lemma s_loop_skip n (name : str) ns er m pats : Sem false Strong m (fun o => o = OSkip) -> (n <= N0)%nat -> m_consuming m = true ->
      let B := fun (b : str) ks => (b = name \/ b = "") /\ among er ns ks in
      chain n false Strong (among er ns) B all_notes pats (among er ns) (among er ns) ->
      chain n false Strong (among er ns) B all_notes (m :: pats) (among er ns) (among er ns).
    Proof. intros H Hn Hc B Hch. eapply l_step; [exact H|exact Hn|lev|exact Hc|discriminate| |exact Hch]. intros o -> _. constructor. Qed.
    Lemma s_bracket name ns pats slots : own (ProgramN (lit name) [MDiscard (Equals_ slots); Proxy_ (Loop_ pats)]) ->
      In (lit name, [many ns]) script_tree -> lit name <> lit "Attributes" ->
      (forall n, (n <= N0)%nat -> chain n false Strong (among true ns) (fun (b : str) ks => (b = lit "Loop" \/ b = "") /\ among true ns ks) all_notes pats (among true ns) (among true ns)) ->
      Sem false Strong (ProgramN (lit name) [MDiscard (Equals_ slots); Proxy_ (Loop_ pats)]) (tok_in [name]).
    Proof.
      intros Ho Hin Hna Hch. apply s_plain.
      assert (Hsg : lit name <> lit "SequenceMatcher" /\ lit name <> lit "RegexMatcher").
      { split; intros Hs; rewrite Hs in Hin; cbn in Hin; repeat destruct Hin as [Hin|Hin]; try discriminate; destruct Hin. }
      eapply s_program with (md := Strong) (er := true); [discriminate|reflexivity|reflexivity|reflexivity|exact Ho|exact Hin|exact Hna|exact Hsg|intros n Hn].
      skip. eapply c_many with (lv := Strong) (ns := ns); [assumption|lev|reflexivity| |done].
      eapply sem_proxy with (T := fun o => (0 = 0 /\ o = OSkip) \/ exists ks, o = OTok false "Loop" ks true /\ among true ns ks); try eassumption; [discriminate| |].
      2:{ intros o [[_ ->]|(ks & -> & Hk)]; (split; [discriminate|]); [now left|]. right. exists ks. auto. }
      eapply s_loop with (er := true) (ns := ns) (name := lit "Loop"); try reflexivity; [discriminate|discriminate| |exact Hch].
      intros ks _. left. pick.
    Qed.
    Lemma s_switchm : Sem false Strong (ScriptSwitchMatcher E) st_sw.
    Proof.
      apply s_bracket with (ns := pattern_names); [own|pick|discriminate|]. intros n Hn.
      apply s_loop_skip; [apply s_wsn0|exact Hn|reflexivity|].
      eapply l_step with (T := fun o => tok_in pattern_names o \/ o = OBrk "" OSkip); [|exact Hn|lev|reflexivity| | |].
      - apply s_switch; [discriminate|reflexivity|reflexivity|]. constructor; [|constructor; [|constructor]].
        + eapply sem_to; [apply s_close_gone|]. intros o ->. now right.
        + eapply sem_to; [apply s_pattern|]. auto.
      - intros b p [(x & l & b' & _ & Ho)|Ho]; [discriminate|]. injection Ho as -> ->. split; [reflexivity|]. split; [now right|constructor].
      - intros o [(x & l & b' & Hx & ->)| ->] Hb; [|discriminate]. constructor; [exact Hx|constructor].
      - apply s_loop_skip; [apply s_wsn0|exact Hn|reflexivity|].
        eapply l_step with (T := fun o => o = OSkip \/ o = OBrk "" OSkip); [|exact Hn|lev|reflexivity| | |apply ch_nil; auto].
        + eapply sem_discard with (T := fun o => o = OTok false "Equals" [] true \/ o = OBrk "" (OTok false "Program" [Some (lit "Equals")] true)); try eassumption.
          * apply s_switch; [discriminate|reflexivity|reflexivity|]. constructor; [|constructor; [|constructor]].
            -- eapply sem_to; [apply (s_equals true "Equals"); [discriminate|left; pick]|]. auto.
            -- eapply sem_to; [apply s_close|]. auto.
          * intros o [->| ->]; (split; [discriminate|]); [now left|now right].
        + intros b p [Ho|Ho]; [discriminate|]. injection Ho as -> ->. split; [reflexivity|]. split; [now right|constructor].
        + intros o [->| ->] Hb; [constructor|discriminate].
    Qed.
    Lemma s_programm : Sem false Strong (ScriptProgramMatcher E) st_pr.
    Proof.
      apply s_bracket with (ns := pattern_names); [own|pick|discriminate|]. intros n Hn.
      apply s_loop_skip; [apply s_wsn0|exact Hn|reflexivity|].
      eapply l_step; [apply s_pattern|exact Hn|lev|reflexivity| | |].
      - intros b p (x & l & b' & _ & Ho). discriminate.
      - intros o (x & l & b' & Hx & ->) Hb. constructor; [exact Hx|constructor].
      - apply s_loop_skip; [apply s_wsn0|exact Hn|reflexivity|].
        eapply l_step with (T := fun o => o = OSkip \/ o = OBrk "" OSkip); [|exact Hn|lev|reflexivity| | |apply ch_nil; auto].
        + eapply sem_discard with (T := fun o => o = OSkip \/ o = OBrk "" (OTok false "Program" [Some (lit "Equals")] true)); try eassumption.
          * eapply sem_optional; try eassumption; [apply s_close|auto|auto].
          * intros o [->| ->]; (split; [discriminate|]); [now left|now right].
        + intros b p [Ho|Ho]; [discriminate|]. injection Ho as -> ->. split; [reflexivity|]. split; [now right|constructor].
        + intros o [->| ->] Hb; [constructor|discriminate].
    Qed.

    (* ---------- the head ---------- *)

    Lemma s_comment q : Sem q Strong ScriptComment (tok_in ["Comment"]).
    Proof. re_of. Qed.
    Lemma s_assignment : Sem false Strong (ScriptAssignmentExpression E) (tok_in ["AssignmentExpression"]).
    Proof.
      apply s_plain. prog Strong true.
      2:{ one_of Strong id_of. skip. skip. skip.
          eapply c_one with (lv := Strong) (ns := ["Identifier"; "PatternDefinition"]); [assumption|lev|reflexivity| |done].
          apply s_switch; [discriminate|reflexivity|reflexivity|]. constructor; [|constructor; [|constructor]].
          - eapply sem_to with (T := tok_in ["Identifier"]); [id_of|]. intros o. apply tok_in_more. cbn; tauto.
          - eapply sem_to; [apply s_definition|]. intros o. apply tok_in_more. cbn; tauto. }
      pick.
    Qed.
    Notation comma := (MDiscard (MOptional (Equals_ ","))).
    Lemma s_comma q : Sem q Strong comma (fun o => o = OSkip).
    Proof.
      apply s_gone with (n := lit "Equals"). eapply sem_optional with (T := fun o => o = OTok false "Equals" [] true); try eassumption; [|auto|auto].
      apply (s_equals true "Equals"); [discriminate|left; pick].
    Qed.
    Definition as_name : matcher := MOptional (Proxy_ (Program_ [MDiscard (Matches_ (re_as E)); ScriptIdentifierN "ImportAsName"])).
    Lemma s_as : Sem false Strong as_name (fun o => o = OSkip \/ o = OPrx [Some (lit "ImportAsName")]).
    Proof.
      eapply sem_optional with (T := fun o => o = OPrx [Some (lit "ImportAsName")]); try eassumption; [|auto|auto].
      eapply sem_proxy with (T := fun o => o = OTok false "Program" [Some (lit "ImportAsName")] true); try eassumption; [discriminate| |].
      2:{ intros o ->. split; [discriminate|reflexivity]. }
      eapply sem_program with (B := none) (K' := fun ks => ks = [Some (lit "ImportAsName")]); auto; try discriminate.
      - intros n Hn. eapply c_step with (K1 := fun ks => ks = []); [apply s_gone_re; apply re_find_sane|exact Hn|lev|now left|discriminate| |discriminate|].
        { intros ks o -> -> _. auto. }
        eapply c_step; [apply (s_identifier false "ImportAsName"); [own|pick|pick]|exact Hn|lev|now left| | | |apply ch_nil; intros ks Hk; exact Hk].
        + intros b p (x & l & b' & _ & Ho). discriminate.
        + intros ks o -> (x & l & b' & Hx & ->) _. split; [|exact Logic.I]. destruct Hx as [Hx|Hx]; [now rewrite <- Hx|destruct Hx].
        + intros ks b p _ (x & l & b' & _ & Ho). discriminate.
      - intros ks -> _. split; [left; pick|reflexivity].
      - intros b ks [].
    Qed.
    Lemma s_import_id : Sem false Strong (ProgramN "ImportIdentifier" [ScriptIdentifierN "ImportName"; as_name; comma]) (tok_in ["ImportIdentifier"]).
    Proof.
      apply s_plain. prog Strong true.
      2:{ one_of Strong id_of.
          eapply c_step with (K1 := sofar true ([one ["ImportName"]] ++ [opt ["ImportAsName"]])); [apply s_as|exact Hn|lev|now left| | | |].
          - intros b p [Ho|Ho]; discriminate.
          - intros ks o Hk Ho _. split; [|exact Logic.I]. apply sofar_app; [exact Hk| |discriminate]. destruct Ho as [->| ->]; [now left|].
            right. exists (lit "ImportAsName"), []. split; [now left|split; reflexivity].
          - intros ks b p _ [Ho|Ho]; discriminate.
          - eapply c_skip with (lv := Strong); [assumption|lev|reflexivity|apply s_comma|]. done. }
      pick.
    Qed.
    Lemma s_import : Sem false Strong (ScriptImportStatement E) (tok_in ["ImportStatement"]).
    Proof.
      apply s_plain. prog Strong true.
      2:{ skip. skip. eapply c_one with (lv := Strong) (ns := ["ImportIdentifiers"]); [assumption|lev|reflexivity| |].
          - clear n Hn. apply s_plain. prog Strong true.
            2:{ skip. eapply c_many with (lv := Strong) (ns := ["ImportIdentifier"]); [assumption|lev|reflexivity| |done].
                eapply sem_proxy with (T := fun o => (0 = 0 /\ o = OSkip) \/ exists ks, o = OTok false "IdentifiersLoop" ks true /\ among true ["ImportIdentifier"] ks); try eassumption; [discriminate| |].
                2:{ intros o [[_ ->]|(ks & -> & Hk)]; (split; [discriminate|]); [now left|]. right. exists ks. auto. }
                eapply s_loop with (er := true) (ns := ["ImportIdentifier"]) (name := lit "IdentifiersLoop"); try reflexivity; [discriminate|own| |].
                { intros ks _. left. pick. }
                clear n Hn. intros n Hn. apply s_loop_skip; [apply s_wsn0|exact Hn|reflexivity|].
                eapply l_step with (T := fun o => tok_in ["ImportIdentifier"] o \/ o = OBrk "IdentifiersLoop" OSkip); [|exact Hn|lev|reflexivity| | |apply ch_nil; auto].
                - apply s_switch; [discriminate|reflexivity|reflexivity|]. constructor; [|constructor; [|constructor]].
                  + eapply sem_to; [apply s_close_gone|]. intros o ->. now right.
                  + eapply sem_to; [apply s_import_id|]. auto.
                - intros b p [(x & l & b' & _ & Ho)|Ho]; [discriminate|]. injection Ho as -> ->. split; [reflexivity|]. split; [now left|constructor].
                - intros o [(x & l & b' & Hx & ->)| ->] Hb; [|discriminate]. constructor; [exact Hx|constructor]. }
            pick.
          - skip. skip. skip. one_of Strong str_of. done. }
      pick.
    Qed.
    Lemma s_scope_loop name ns pats : own (LoopN (lit name) pats) -> pi_name (mkPI (lit name) (Some (0, usize_max)) false true) = lit name ->
      In (lit name, [many ns]) script_tree -> lit name <> lit "Attributes" ->
      (forall n, (n <= N0)%nat -> chain n false Strong (among true ns) (fun (b : str) ks => (b = lit name \/ b = "") /\ among true ns ks) all_notes pats (among true ns) (among true ns)) ->
      Sem false Strong (MOptional (LoopN (lit name) pats)) (fun o => o = OSkip \/ tok_in [name] o).
    Proof.
      intros Ho _ Hin Hna Hch. eapply sem_optional with (T := fun o => o = OSkip \/ tok_in [name] o); try eassumption; [|auto|auto].
      eapply sem_to.
      - eapply s_loop with (er := true) (ns := ns) (name := lit name); try reflexivity; [discriminate|exact Ho| |exact Hch].
        intros ks Hk. eapply shape_many; [exact Hin| |exact Hk]. intros Hx. contradiction.
      - intros o [[_ ->]|(ks & -> & _)]; [now left|right]. exists (lit name), ks, true. split; [now left|reflexivity].
    Qed.
    Lemma s_adextopa : Sem false Errors (ScriptAdextopaScope E) (fun o => tok_in ["AdextopaScope"] o \/ o = OTok true "Error" [] false).
    Proof.
      eapply (sem_adextopa E P body Sh Lx Ft HE Hlen Hascii N0 HSa HSb) with (T := fun o => exists ks, o = OTok false "AdextopaScope" ks true).
      - prog Strong true.
        2:{ skip. skip. opt_of Strict ltac:(apply s_attributes). skip.
            eapply c_pin; [exact Hn|eapply sem_pin; try eassumption; [own|reflexivity]|].
            eapply c_opt with (lv := Strong) (ns := ["Scope"]); [assumption|lev|reflexivity| |].
            - eapply s_scope_loop with (ns := ["Comment"; "ImportStatement"; "AssignmentExpression"]); [own|reflexivity|pick|discriminate|].
              clear n Hn. intros n Hn. apply s_loop_skip; [apply s_wsn0|exact Hn|reflexivity|].
              eapply l_step with (T := tok_in ["Comment"; "ImportStatement"; "AssignmentExpression"]); [|exact Hn|lev|reflexivity| | |apply ch_nil; auto].
              + apply s_switch; [discriminate|reflexivity|reflexivity|]. constructor; [|constructor; [|constructor; [|constructor; [|constructor]]]].
                * eapply sem_to; [apply s_comment|]. intros o; apply tok_in_more; cbn; tauto.
                * eapply sem_to; [apply s_import|]. intros o; apply tok_in_more; cbn; tauto.
                * eapply sem_to; [apply s_assignment|]. intros o; apply tok_in_more; cbn; tauto.
                * eapply sem_discard with (T := fun _ => False); try eassumption; [|intros o []].
                  eapply sem_dead; try eassumption; [apply leaf_shape; left; pick|intros r post _; left; pick].
              + intros b p (x & l & b' & _ & Ho). discriminate.
              + intros o (x & l & b' & Hx & ->) _. constructor; [exact Hx|constructor].
            - skip. done. }
        pick.
      - intros o (ks & ->). eauto.
      - intros n ks b b' (ks' & Ho). injection Ho as -> -> ->. left. exists (lit "AdextopaScope"), ks', b'. split; [now left|reflexivity].
      - now right.
    Qed.
    Lemma s_patterns : Sem false Errors (ScriptPatternScope E) (fun o => tok_in ["PatternScope"] o \/ o = OTok true "Error" [] false).
    Proof.
      eapply (sem_patternscope E P body Sh Lx Ft HE Hlen Hascii N0) with (T := tok_in ["PatternScope"]).
      - eapply sem_to.
        + eapply s_loop with (er := true) (ns := "Comment" :: pattern_names) (name := lit "PatternScope"); try reflexivity; [discriminate|own| |].
          * intros ks Hk. eapply shape_many; [|discriminate|exact Hk]. pick.
          * intros n Hn. apply s_loop_skip; [apply s_wsn0|exact Hn|reflexivity|].
            eapply l_step with (T := tok_in ("Comment" :: pattern_names)); [|exact Hn|lev|reflexivity| | |apply ch_nil; auto].
            -- apply s_switch; [discriminate|reflexivity|reflexivity|]. constructor; [|constructor; [|constructor]].
               ++ eapply sem_to; [apply s_comment|]. intros o; apply tok_in_more; cbn; tauto.
               ++ eapply sem_to; [apply s_pattern|]. intros o; apply tok_in_more; cbn; tauto.
            -- intros b p (x & l & b' & _ & Ho). discriminate.
            -- intros o (x & l & b' & Hx & ->) _. constructor; [exact Hx|constructor].
        + intros o [[Hl _]|(ks & -> & _)]; [discriminate|]. exists (lit "PatternScope"), ks, true. split; [now left|reflexivity].
      - intros o Ho. split; [|now left]. destruct Ho as (n & l & b & _ & ->). discriminate.
      - intros ks (n & l & b & _ & Ho). discriminate.
      - now right.
    Qed.

    (* ---------- the whole script ---------- *)

    Lemma c_err n q md er m pats pre ns K' : (n <= N0)%nat -> ok_level md Errors -> m_consuming m = true -> er = true ->
      Sem q Errors m (fun o => tok_in ns o \/ o = OTok true "Error" [] false) ->
      chain n q md any none all_notes pats (sofar er (pre ++ [opt ns])) K' -> chain n q md any none all_notes (MOptional m :: pats) (sofar er pre) K'.
    Proof.
      intros Hn Hl Hc He H Hch.
      assert (H' : Sem q Errors (MOptional m) (fun o => o = OSkip \/ tok_in ns o \/ o = OTok true "Error" [] false)) by (eapply sem_optional; eauto).
      eapply c_step; [exact H'|exact Hn|exact Hl|now left| | | |exact Hch].
      - intros b p [Ho|[(x & l & b' & _ & Ho)|Ho]]; discriminate.
      - intros ks o Hk Ho _. split; [|exact Logic.I]. apply sofar_app; [exact Hk| |congruence].
        destruct Ho as [->|[(x & l & b & Hx & ->)| ->]]; [now left| |now left]. right. exists x, []. split; [exact Hx|split; reflexivity].
      - intros ks b p _ [Ho|[(x & l & b' & _ & Ho)|Ho]]; discriminate.
    Qed.
    Lemma s_script : Sem false Lax (Script_ E) (fun o => tok_in ["Script"] o \/ o = OTok true "Error" [] false).
    Proof.
      eapply (sem_script E P body Sh Lx Ft HE Hlen Hascii N0) with (T := tok_in ["Script"]).
      - apply s_plain. prog Lax true.
        2:{ eapply c_opt with (lv := Strong) (ns := ["PreHead"]); [assumption|lev|reflexivity| |].
            - eapply s_scope_loop with (ns := ["Comment"]); [own|reflexivity|pick|discriminate|].
              clear n Hn. intros n Hn. apply s_loop_skip; [apply s_wsn0|exact Hn|reflexivity|].
              eapply l_step; [apply s_comment|exact Hn|lev|reflexivity| | |apply ch_nil; auto].
              + intros b p (x & l & b' & _ & Ho). discriminate.
              + intros o (x & l & b' & Hx & ->) _. constructor; [exact Hx|constructor].
            - skip. eapply c_err; [exact Hn|lev|reflexivity|reflexivity|apply s_adextopa|].
              eapply c_err; [exact Hn|lev|reflexivity|reflexivity|apply s_patterns|]. done. }
        pick.
      - intros o Ho. split; [now left|]. destruct Ho as (n & l & b & _ & ->). right. eauto.
      - now right.
    Qed.
  End At.

  (* ---------- at any depth ---------- *)

  Lemma brackets N0 :
    (forall n, (n <= N0)%nat -> ShapeProofs.SemAt E P body Sh Lx Ft n false Strong (ScriptSwitchMatcher E) (tok_in ["SwitchMatcher"])) /\
    (forall n, (n <= N0)%nat -> ShapeProofs.SemAt E P body Sh Lx Ft n false Strong (ScriptProgramMatcher E) (tok_in ["ProgramMatcher"])).
  Proof.
    induction N0 as [|N0 [IH1 IH2]].
    - assert (Hz : forall (Q : nat -> Prop) n, (n < 0)%nat -> Q n) by (intros; lia).
      split; [apply s_switchm|apply s_programm]; intros n Hn; lia.
    - split; [apply s_switchm|apply s_programm]; intros n Hn; auto with arith.
  Qed.
  Lemma script_sem n : ShapeProofs.SemAt E P body Sh Lx Ft n false Lax (Script_ E) (fun o => tok_in ["Script"] o \/ o = OTok true "Error" [] false).
  Proof.
    apply (s_script n); [| |apply le_n]; intros k Hk; [apply (proj1 (brackets k))|apply (proj2 (brackets k))]; apply le_n.
  Qed.
End Script.
