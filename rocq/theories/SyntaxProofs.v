(* What the grammar of scripts does with written patterns. *)
From Verif Require Import TokenizeProofs.
From Verif Require Export LexProofs.
From Verif Require Import ScriptProofs.
Open Scope string_scope.
Open Scope list_scope.
Open Scope N_scope.

Section Syntax.
  Variables (E : env) (P : parser) (s : sid).
  Hypothesis HE : tame E.
  Hypothesis Hascii : ascii_only (p_src P).
  Hypothesis Hsmall : slen (p_src P) < isize_bound.
  Notation B := (script_known E).
  Notation sees := (sees E P s B).
  Notation walk := (walk E P s B).
  Notation laps := (laps E P s B).
  Notation picks := (picks E P s B).

  Lemma own_fresh n m : fresh n -> own_ok B true n m.
  Proof. intros [H1 H2] _ v [H|[H|[]]]; injection H; intros; congruence. Qed.
  Lemma sees_left m w r : (left_over P w -> sees m w r) -> sees m w r.
  Proof. intros H c st Hd Hc Hk Hl. now apply H. Qed.
  Lemma left_ascii w : left_over P w -> ascii_only w.
  Proof. intros [pre H] x Hx. apply Hascii. rewrite H. apply in_or_app. now right. Qed.

  (* a regular expression that takes [x] *)
  Lemma sees_regex r name custom x w : (left_over P (x ++ w) -> match_alts r (chars (x ++ w)) = Some (slen x)) -> x <> [] ->
    own_ok B custom name (MMatches (re_find r) name custom) ->
    sees (MMatches (re_find r) name custom) (x ++ w) (Some (FTree (Tr name (leaf x x (x ++ w)) [] w))).
  Proof.
    intros H Hx Ho. apply sees_left. intros Hl. apply sees_matches; auto. apply find_here; auto using left_ascii.
  Qed.
  Lemma sees_regex_not r name custom w : (left_over P w -> match_alts r (chars w) = None) ->
    own_ok B custom name (MMatches (re_find r) name custom) -> sees (MMatches (re_find r) name custom) w None.
  Proof.
    intros H Ho. apply sees_left. intros Hl. apply sees_matches_not; auto. apply find_not; auto using left_ascii.
  Qed.
  Lemma gone m w n i k r : sees m w (Some (FTree (Tr n i k r))) -> sees (MDiscard m) w (Some (FSkip r)).
  Proof.
    intros H. eapply sees_discard; try assumption; [|exact H]. left. exists (Tr n i k r). split; [now left|reflexivity].
  Qed.
  (* ... and is discarded *)
  Lemma sees_gone r name custom x w : (left_over P (x ++ w) -> match_alts r (chars (x ++ w)) = Some (slen x)) ->
    own_ok B custom name (MMatches (re_find r) name custom) ->
    sees (MDiscard (MMatches (re_find r) name custom)) (x ++ w) (Some (FSkip w)).
  Proof.
    intros H Ho. destruct x as [|a x].
    - eapply sees_discard with (p := FSkip w); try assumption; [right; eauto|]. apply sees_left. intros Hl.
      apply sees_matches_empty; auto. apply find_here; auto using left_ascii.
    - eapply gone.
      apply (sees_regex r name custom (a :: x) w); auto. discriminate.
  Qed.
  Lemma sees_wsn b r : blank b -> solid r -> sees (ScriptWSN0 E) (b ++ r) (Some (FSkip r)).
  Proof.
    intros Hb Hr. apply sees_gone; [|own]. intros _. apply alt_one. apply star_end; [now apply all_blank|now apply solid_space].
  Qed.
  Lemma sees_ws0 b r : blank_line b -> solid r -> sees (ScriptWS0 E) (b ++ r) (Some (FSkip r)).
  Proof.
    intros Hb Hr. apply sees_gone; [|own]. intros _. apply alt_one.
    apply (star_end (line_space E)); [now apply all_line|now apply solid_line].
  Qed.
  (* a literal that is discarded *)
  Lemma sees_lit v r : v <> [] -> sees (MDiscard (Equals_ v)) (v ++ r) (Some (FSkip r)).
  Proof.
    intros Hv. eapply gone.
    apply sees_equals; auto. own.
  Qed.
  Lemma sees_lit_not v w : ~ has_prefix v w -> sees (MDiscard (Equals_ v)) w None.
  Proof. intros H. apply sees_discard_fail; auto. apply sees_equals_not; auto. own. Qed.

  Lemma sees_identifier n id r : fresh n -> identifier id -> starts_not id_char r ->
    sees (ScriptIdentifierN n) (id ++ r) (Some (FTree (Tr n (leaf id id (id ++ r)) [] r))).
  Proof.
    intros Hn (x & t & -> & Hx & Ht) Hr. apply sees_regex; [|discriminate|now apply own_fresh].
    intros _. apply alt_one. rewrite slen_cons. cbn [app]. apply one_ok; [now apply id_first_in|].
    apply (star_end id_char); [|exact Hr]. eapply all_in_of; [|exact Ht]. apply id_char_in.
  Qed.
  Lemma sees_identifier_not n w : fresh n -> starts_not id_start w -> sees (ScriptIdentifierN n) w None.
  Proof.
    intros Hn Hw. apply sees_regex_not; [|now apply own_fresh]. intros _. apply alt_none. now apply one_not.
  Qed.
  Lemma sees_string n v raw r : fresh n -> literal_text "'" v raw ->
    sees (ScriptStringN n) (lit "'" ++ raw ++ lit "'" ++ r)
      (Some (FTree (Tr n (leaf v raw (lit "'" ++ raw ++ lit "'" ++ r)) [] r))).
  Proof.
    intros Hn Hv. apply sees_sequence; auto; try discriminate; [|now apply own_fresh].
    apply (literal_scans "'" v raw r); [discriminate|exact Hv].
  Qed.
  Lemma sees_string_not n w : fresh n -> ~ has_prefix (lit "'") w -> sees (ScriptStringN n) w None.
  Proof. intros Hn H. apply sees_sequence_not; auto; try discriminate. now apply own_fresh. Qed.

  (* ---------- programs and switches ---------- *)

  Lemma step_tree m ms ts w n i k r x : m_consuming m = true -> sees m w (Some (FTree (Tr n i k r))) -> slen r < slen w ->
    walk ms (ts ++ [Tr n i k r]) r x -> walk (m :: ms) ts w x.
  Proof. intros H1 H2 H3 H4. eapply wk_tree; eauto. Qed.
  Lemma step_skip m ms ts w r x : m_consuming m = true -> sees m w (Some (FSkip r)) -> walk ms ts r x -> walk (m :: ms) ts w x.
  Proof. intros. eapply wk_skip; eauto. Qed.
  Lemma sees_prog n pats w ts w' e : own_ok B true n (ProgramN n pats) -> walk pats [] w (WDone ts w' e) -> ts <> [] ->
    sees (ProgramN n pats) w (Some (FTree (Tr n no_attrs ts e))).
  Proof.
    intros Ho Hw Ht. unfold ProgramN, Program_. cbn [m_set_name pi_iter pi_stop].
    eapply sees_program; try assumption; try reflexivity; [exact Hw|]. constructor. destruct ts; [congruence|reflexivity].
  Qed.
  Lemma sees_prog_fail n pats w ts w' : own_ok B true n (ProgramN n pats) -> walk pats [] w (WFail ts w') ->
    sees (ProgramN n pats) w None.
  Proof.
    intros Ho Hw. unfold ProgramN, Program_. cbn [m_set_name pi_iter pi_stop].
    eapply sees_program; try assumption; try reflexivity; [exact Hw|]. constructor.
  Qed.
  Lemma sees_prog0_fail pats w ts w' : walk pats [] w (WFail ts w') -> sees (Program_ pats) w None.
  Proof.
    intros Hw. unfold Program_. eapply sees_program; try assumption; try reflexivity; [own|exact Hw|]. constructor.
  Qed.
  Lemma sees_prog0_break pats w n t ts w' : walk pats [] w (WBreak n FNone (t :: ts) w') ->
    sees (Program_ pats) w (Some (FBreak n (FTree (Tr "Program" no_attrs (t :: ts) w')))).
  Proof.
    intros Hw. unfold Program_. eapply sees_program; try assumption; try reflexivity; [own|exact Hw|]. constructor. reflexivity.
  Qed.
  Lemma sees_alts n alts w r : own_ok B true n (SwitchN n alts) -> picks alts w r -> sees (SwitchN n alts) w r.
  Proof. intros Ho Hp. unfold SwitchN, Switch_. cbn [m_set_name pi_iter pi_stop]. apply sees_switch; auto. Qed.
  Lemma sees_alts0 alts w r : picks alts w r -> sees (Switch_ alts) w r.
  Proof. intros Hp. unfold Switch_. apply sees_switch; auto. own. Qed.

  Lemma sees_rounds name pats lo custom w ts e : own_ok B custom name (MProgram pats (mkPI name (Some (lo, usize_max)) false custom)) ->
    lo < 1000 -> laps name pats [] w ts e -> ts <> [] ->
    sees (MProgram pats (mkPI name (Some (lo, usize_max)) false custom)) w (Some (FTree (Tr name no_attrs ts e))).
  Proof.
    intros Ho Hlo Hw Ht.
    pose proof (sees_loop E P s HE Hsmall B pats (mkPI name (Some (lo, usize_max)) false custom) lo w ts e eq_refl eq_refl Hlo Ho Hw) as L.
    destruct ts; [congruence|exact L].
  Qed.
  Lemma sees_no_rounds name pats lo custom w e : own_ok B custom name (MProgram pats (mkPI name (Some (lo, usize_max)) false custom)) ->
    lo < 1000 -> laps name pats [] w [] e ->
    sees (MProgram pats (mkPI name (Some (lo, usize_max)) false custom)) w None.
  Proof.
    intros Ho Hlo Hw.
    exact (sees_loop E P s HE Hsmall B pats (mkPI name (Some (lo, usize_max)) false custom) lo w [] e eq_refl eq_refl Hlo Ho Hw).
  Qed.
  Lemma opt m w p : sees m w (Some p) -> sees (MOptional m) w (Some p).
  Proof. intros H. apply sees_optional; auto. Qed.
  Lemma opt_not m w : sees m w None -> sees (MOptional m) w (Some (FSkip w)).
  Proof. intros H. apply sees_optional_not; auto. Qed.
  Lemma sees_word n v r : v <> [] -> fresh n -> sees (EqualsN n v) (v ++ r) (Some (FTree (Tr n (leaf v v (v ++ r)) [] r))).
  Proof. intros H1 H2. apply sees_equals; auto. now apply own_fresh. Qed.
  Lemma sees_word_not n v w : ~ has_prefix v w -> fresh n -> sees (EqualsN n v) w None.
  Proof. intros H1 H2. apply sees_equals_not; auto. now apply own_fresh. Qed.

  (* what shown trees mean *)
  Notation shows := (shows P).
  (* trees without a token that says something to the construction of scripts *)
  Definition loud : list String.string := ["Error"; "AdextopaScope"; "AssignmentExpression"; "ImportStatement"; "PatternScope"].
  Fixpoint quiet (t : tree) : bool :=
    let (n, _, k, _) := t in negb (existsb (fun x => str_eqb n (lit x)) loud) && forallb quiet k.
  (* either the matcher or what is wrong *)
  Definition core_fate (st : state) (a : addr) (k : core pat) : Prop :=
    match core_fault fault_of k with None => core_means E st a (core_matcher meaning [] k) | Some f => core_fails E st a f end.
  Definition core_as (t : tree) (k : core pat) : Prop := forall h st a, shows h st a t -> core_fate st a k.

  Lemma shown_name h st a t : shows h st a t -> tk_name (tok st a) = t_name t.
  Proof. destruct 1. cbn. assumption. Qed.
  Lemma shown_kids h st a t : shows h st a t -> shows_all P h st (tk_kids (tok st a)) (t_kids t).
  Proof. destruct 1. cbn. assumption. Qed.
  Lemma shown_text h st a t : shows h st a t -> text_is P (t_text t) (tok st a).
  Proof. destruct 1. cbn. assumption. Qed.
  Lemma shown_leaf h st a n v cv w k r : shows h st a (Tr n (leaf v cv w) k r) ->
    get_value (tok st a) = v /\ get_cvalue (tok st a) = cv /\ rs (tk_mr (tok st a)) = pos P w.
  Proof. intros H. apply shown_text in H as (H1 & H2 & H3 & _). cbn in *. auto. Qed.
  Lemma shown_cons h st l t ts : shows_all P h st l (t :: ts) ->
    exists a l', l = a :: l' /\ shows h st a t /\ shows_all P h st l' ts.
  Proof. inversion 1; subst; eauto. Qed.

  (* ---------- texts, names and sequences ---------- *)

  Ltac vis := split; [vm_compute; discriminate|reflexivity].
  Ltac shorter := rewrite ?slen_app, ?slen_cons; cbn [lit list_ascii_of_string]; rewrite ?slen_cons, ?slen_nil; try lia.

  Definition text_tree (v raw r : str) : tree :=
    Tr "EqualsMatcher" no_attrs [Tr "String" (leaf v raw (lit "'" ++ raw ++ lit "'" ++ r)) [] r] r.
  Lemma sees_text v raw r : literal_text "'" v raw ->
    sees ScriptEqualsMatcher (lit "=" ++ lit "'" ++ raw ++ lit "'" ++ r) (Some (FTree (text_tree v raw r))).
  Proof.
    intros Hv. eapply sees_prog; [own| |discriminate].
    eapply step_skip; [reflexivity|apply sees_lit; discriminate|].
    eapply step_tree; [reflexivity|apply sees_string; [split; discriminate|exact Hv]|shorter|]. apply wk_nil.
  Qed.
  Lemma text_means v raw r : core_as (text_tree v raw r) (KText v).
  Proof.
    intros h st a Ha. pose proof (shown_name _ _ _ _ Ha) as Hn. apply shown_kids in Ha.
    apply shown_cons in Ha as (k & l & Hk & H1 & _). apply shown_leaf in H1 as (H1 & _).
    unfold core_fate. destruct v; cbn; [eapply cf_equals; eauto|]. eapply cm_equals; eauto. discriminate.
  Qed.
  Lemma sees_text_not w : ~ has_prefix (lit "=") w -> sees ScriptEqualsMatcher w None.
  Proof. intros H. eapply sees_prog_fail; [own|]. apply wk_fail. now apply sees_lit_not. Qed.

  Definition name_tree (id r : str) : tree :=
    Tr "CustomMatcher" no_attrs [Tr "Identifier" (leaf id id (id ++ r)) [] r] r.
  Lemma sees_name id r : identifier id -> starts_not id_char r ->
    sees ScriptCustomMatcher (id ++ r) (Some (FTree (name_tree id r))).
  Proof.
    intros Hi Hr. eapply sees_prog; [own| |discriminate].
    pose proof (slen_pos _ (identifier_some _ Hi)).
    eapply step_tree; [reflexivity|apply sees_identifier; [split; discriminate|exact Hi|exact Hr]|shorter|]. apply wk_nil.
  Qed.
  Lemma name_means id r : identifier id -> core_as (name_tree id r) (KName id).
  Proof.
    intros Hi h st a Ha. pose proof (shown_name _ _ _ _ Ha) as Hn. apply shown_kids in Ha.
    apply shown_cons in Ha as (k & l & Hk & H1 & _). apply shown_leaf in H1 as (H1 & _).
    eapply cm_custom; eauto. now apply identifier_some.
  Qed.
  Lemma sees_name_not w : starts_not id_start w -> sees ScriptCustomMatcher w None.
  Proof.
    intros H. eapply sees_prog_fail; [own|]. apply wk_fail. apply sees_identifier_not; [split; discriminate|exact H].
  Qed.

  Lemma sees_percent b r : blank b -> solid r -> sees (MDiscard (Matches_ (re_percent E))) ((lit "%" ++ b) ++ r) (Some (FSkip r)).
  Proof.
    intros Hb Hr. apply sees_gone; [|own]. intros _. apply alt_one. rewrite slen_app. cbn [lit list_ascii_of_string app].
    change (slen ["%"%char]) with 1. apply one_ok; [reflexivity|]. apply star_end; [now apply all_blank|now apply solid_space].
  Qed.
  Lemma sees_comma b b' r : blank b -> blank b' -> solid r ->
    sees (MDiscard (Matches_ (re_comma E))) ((b ++ lit "," ++ b') ++ r) (Some (FSkip r)).
  Proof.
    intros Hb Hb' Hr. apply sees_gone; [|own]. intros _. apply alt_one. rewrite <- !app_assoc. rewrite !slen_app.
    apply star_then; [now apply all_blank| |].
    - cbn. reflexivity.
    - cbn [lit list_ascii_of_string app]. change (slen [","%char]) with 1. apply one_ok; [reflexivity|].
      apply star_end; [now apply all_blank|now apply solid_space].
  Qed.

  Definition seq_tree (a b x ra rb rx b2 b3 b4 b5 r : str) : tree :=
    let r2 := lit "'" ++ rx ++ lit "'" ++ r in
    let r1 := lit "'" ++ rb ++ lit "'" ++ b4 ++ lit "," ++ b5 ++ r2 in
    let r0 := lit "'" ++ ra ++ lit "'" ++ b2 ++ lit "," ++ b3 ++ r1 in
    Tr "SequenceMatcher" no_attrs
      [Tr "StartPattern" (leaf a ra r0) [] (b2 ++ lit "," ++ b3 ++ r1);
       Tr "EndPattern" (leaf b rb r1) [] (b4 ++ lit "," ++ b5 ++ r2);
       Tr "EscapePattern" (leaf x rx r2) [] r] r.
  Lemma sees_seq a b x ra rb rx b1 b2 b3 b4 b5 r :
    literal_text "'" a ra -> literal_text "'" b rb -> literal_text "'" x rx ->
    blank b1 -> blank b2 -> blank b3 -> blank b4 -> blank b5 ->
    sees (ScriptSequenceMatcher E)
      (lit "%" ++ b1 ++ lit "'" ++ ra ++ lit "'" ++ b2 ++ lit "," ++ b3 ++ lit "'" ++ rb ++ lit "'" ++
       b4 ++ lit "," ++ b5 ++ lit "'" ++ rx ++ lit "'" ++ r)
      (Some (FTree (seq_tree a b x ra rb rx b2 b3 b4 b5 r))).
  Proof.
    intros Ha Hb Hx H1 H2 H3 H4 H5. eapply sees_prog; [own| |discriminate].
    rewrite (app_assoc (lit "%") b1).
    eapply step_skip; [reflexivity|apply sees_percent; [exact H1|vis]|].
    eapply step_tree; [reflexivity|apply sees_string; [split; discriminate|exact Ha]|shorter|].
    eapply step_skip; [reflexivity| |].
    { rewrite (app_assoc (lit ",") b3), (app_assoc b2). apply sees_comma; [exact H2|exact H3|vis]. }
    eapply step_tree; [reflexivity|apply sees_string; [split; discriminate|exact Hb]|shorter|].
    eapply step_skip; [reflexivity| |].
    { rewrite (app_assoc (lit ",") b5), (app_assoc b4). apply sees_comma; [exact H4|exact H5|vis]. }
    eapply step_tree; [reflexivity|apply sees_string; [split; discriminate|exact Hx]|shorter|].
    apply wk_nil.
  Qed.
  Lemma seq_means a b x ra rb rx b2 b3 b4 b5 r :
    core_as (seq_tree a b x ra rb rx b2 b3 b4 b5 r) (KSequence a b x).
  Proof.
    intros h st ad Hs. pose proof (shown_name _ _ _ _ Hs) as Hn. apply shown_kids in Hs. unfold seq_tree in *. cbn [t_kids] in Hs.
    apply shown_cons in Hs as (k1 & l1 & Hk & H1 & Hs). apply shown_cons in Hs as (k2 & l2 & -> & H2 & Hs).
    apply shown_cons in Hs as (k3 & l3 & -> & H3 & _).
    apply shown_leaf in H1 as (H1 & _). apply shown_leaf in H2 as (H2 & _). apply shown_leaf in H3 as (H3 & _).
    unfold core_fate. destruct a; cbn; [eapply cf_start; eauto|]. destruct b; cbn.
    - eapply cf_end; eauto. discriminate.
    - eapply cm_sequence; eauto; discriminate.
  Qed.
  Lemma sees_seq_not w : starts_not (ch "%") w -> sees (ScriptSequenceMatcher E) w None.
  Proof.
    intros H. eapply sees_prog_fail; [own|]. apply wk_fail. apply sees_discard_fail; try assumption.
    apply sees_regex_not; [|own]. intros _. apply alt_none. now apply one_not.
  Qed.

  (* ---------- children by name ---------- *)

  Fixpoint pick (names : list String.string) (ts : list tree) : option tree :=
    match ts with
    | [] => None
    | t :: ts => if existsb (fun n => str_eqb (t_name t) (lit n)) names then Some t else pick names ts
    end.
  Lemma existsb_name names x : existsb (fun n => str_eqb x (lit n)) names = true <-> exists n, In n names /\ x = lit n.
  Proof.
    rewrite existsb_exists. split.
    - intros (n & H1 & H2). apply str_eqb_eq in H2. eauto.
    - intros (n & H1 & ->). exists n. split; [assumption|]. now apply str_eqb_eq.
  Qed.
  Lemma pick_some h st names l ts k : shows_all P h st l ts -> pick names ts = Some k ->
    exists before ad after, l = before ++ ad :: after /\ (exists n, In n names /\ tk_name (tok st ad) = lit n) /\
      (forall x n, In x before -> In n names -> tk_name (tok st x) <> lit n) /\ shows h st ad k.
  Proof.
    intros H. induction H as [|a l t ts Ha Hl IH]; [discriminate|]. cbn [pick].
    destruct (existsb _ names) eqn:Hx; intros Hp.
    - injection Hp as <-. exists [], a, l. split; [reflexivity|]. rewrite (shown_name _ _ _ _ Ha).
      split; [now apply existsb_name|]. split; [intros x n []|exact Ha].
    - destruct (IH Hp) as (before & ad & after & -> & H1 & H2 & H3). exists (a :: before), ad, after.
      split; [reflexivity|]. split; [exact H1|]. split; [|exact H3].
      intros x n [<-|Hi] Hn; [|now apply H2]. rewrite (shown_name _ _ _ _ Ha). intros He.
      enough (existsb (fun n => str_eqb (t_name t) (lit n)) names = true) by congruence. apply existsb_name. eauto.
  Qed.
  Lemma first_of h st a t names k : shows h st a t -> pick names (t_kids t) = Some k ->
    exists ad, first_kid st a names ad /\ shows h st ad k.
  Proof.
    intros H Hp. apply shown_kids in H. destruct (pick_some _ _ _ _ _ _ H Hp) as (before & ad & after & H1 & H2 & H3 & H4).
    exists ad. split; [|exact H4]. exists before, after. auto.
  Qed.
  Lemma none_of h st a t names : shows h st a t -> pick names (t_kids t) = None -> no_kid st a names.
  Proof.
    intros H Hp x n Hx Hn. apply shown_kids in H. induction H as [|b l t' ts Hb Hl IH]; [destruct Hx|]. cbn [pick] in Hp.
    destruct (existsb _ names) eqn:He; [discriminate|]. destruct Hx as [<-|Hx]; [|now apply IH].
    rewrite (shown_name _ _ _ _ Hb). intros Hq.
    enough (existsb (fun n => str_eqb (t_name t') (lit n)) names = true) by congruence. apply existsb_name. eauto.
  Qed.

  (* ---------- repetitions ---------- *)

  Definition repeat_fate (st : state) (a : addr) (q : repetition) : Prop :=
    match repetition_fault q with
    | None => exists lo hi, bounds q = Some (lo, hi) /\ repeat_means st a lo hi
    | Some f => repeat_fails st a f
    end.
  Definition repeat_as (t : tree) (q : repetition) : Prop := forall h st a, shows h st a t -> repeat_fate st a q.

  Lemma numeral_digits n d : number n d -> d <> [] /\ Forall digit_char d.
  Proof.
    intros (H1 & H2 & _). split; [exact H1|]. apply Forall_forall. intros x Hx. apply H2 in Hx. exact Hx.
  Qed.
  Lemma digits_solid n d r : number n d -> solid (d ++ r).
  Proof.
    intros H. apply numeral_digits in H as [H1 H2]. destruct H2 as [|x d Hx _]; [congruence|]. cbn.
    unfold digit_char, code in Hx. change (N_of_ascii "0") with 48 in Hx. change (N_of_ascii "9") with 57 in Hx. lia.
  Qed.
  Lemma digits_some n d : number n d -> 0 < slen d.
  Proof. intros H. apply numeral_digits in H as [H1 _]. now apply slen_pos. Qed.
  Lemma plus_end c x w : x <> [] -> all_in c x -> starts_not c w -> match_items (plus c) (chars (x ++ w)) = Some (slen x).
  Proof.
    intros H1 H2 H3. destruct H2 as [|y x Hy Hx]; [congruence|]. unfold plus. cbn [app]. rewrite slen_cons.
    apply one_ok; [exact Hy|]. now apply star_end.
  Qed.
  Lemma sees_number name n d r : fresh name -> number n d -> starts_not (cdigit E) r ->
    sees (MatchesN name (re_digits E)) (d ++ r) (Some (FTree (Tr name (leaf d d (d ++ r)) [] r))).
  Proof.
    intros Hn Hd Hr. apply numeral_digits in Hd as [H1 H2]. apply sees_regex; [|exact H1|now apply own_fresh].
    intros _. apply alt_one. apply plus_end; [exact H1| |exact Hr]. eapply all_in_of; [|exact H2]. intros. now apply digit_in.
  Qed.
  Lemma sees_number_not name w : fresh name -> starts_not (cdigit E) w -> sees (MatchesN name (re_digits E)) w None.
  Proof.
    intros Hn Hw. apply sees_regex_not; [|now apply own_fresh]. intros _. apply alt_none. now apply one_not.
  Qed.
  Lemma blank_not_digit b r : blank_line b -> starts_not (cdigit E) r -> starts_not (cdigit E) (b ++ r).
  Proof.
    intros [|x t (Hx & _) _] Hr; [exact Hr|]. cbn. unfold blank_char, code in Hx. unfold cdigit.
    destruct (N.ltb_spec (N_of_ascii x) 128); [|lia]. unfold rng. apply andb_false_iff. left. apply N.leb_gt.
    change (N_of_ascii "0") with 48. lia.
  Qed.

  Lemma number_fate n d : number n d -> match size_fault n with Some f => f = TooLarge /\ too_large d | None => usize_text n d end.
  Proof.
    intros H. unfold size_fault. destruct (N.ltb_spec usize_max n) as [Hn|Hn]; [split; [reflexivity|now exists n]|].
    left. destruct H as (H1 & H2 & H3). exact (conj H1 (conj H2 (conj H3 Hn))).
  Qed.
  Lemma sees_repeat q t r : repeat_text q t -> forall lo hi, bounds q = Some (lo, hi) ->
    exists x, sees (ScriptRepeatSpecifier E) (t ++ r) (Some (FTree x)) /\ t_rest x = r /\
      pick repeats [x] = Some x /\ (repeat_as x q /\ quiet x = true) /\ slen r < slen (t ++ r).
  Proof.
    intros Ht lo hi Hb.
    assert (Hrange : forall k, pick ["Minimum"] k <> None ->
      walk [MDiscard (Equals_ "{"); ScriptWS0 E; MatchesN "Minimum" (re_digits E); ScriptWS0 E; MOptional (EqualsN "Seperator" ",");
        ScriptWS0 E; MOptional (MatchesN "Maximum" (re_digits E)); ScriptWS0 E; MDiscard (Equals_ "}")] [] (t ++ r) (WDone k r r) ->
      ~ has_prefix (lit "*") (t ++ r) -> ~ has_prefix (lit "+") (t ++ r) ->
      sees (ScriptRepeatSpecifier E) (t ++ r) (Some (FTree (Tr "RepeatRange" no_attrs k r)))).
    { intros k Hk Hw Hs Hp. apply sees_alts; [own|].
      apply pk_fail; [apply sees_word_not; [exact Hs|split; discriminate]|].
      apply pk_fail; [apply sees_word_not; [exact Hp|split; discriminate]|].
      apply pk_tree. eapply sees_prog; [own|exact Hw|]. intros ->. now apply Hk. }
    destruct Ht as [| | |n d b1 b2 Hn H1 H2|n d b1 b2 b3 Hn H1 H2 H3|n d m d' b1 b2 b3 b4 Hn Hm H1 H2 H3 H4];
      cbn [bounds] in Hb; try discriminate; clear Hb.
    - exists (Tr "RepeatZeroOrMore" (leaf (lit "*") (lit "*") (lit "*" ++ r)) [] r).
      split; [apply sees_alts; [own|]; apply pk_tree; apply sees_word; [discriminate|split; discriminate]|].
      split; [reflexivity|]. split; [reflexivity|]. split; [split; [|reflexivity]|shorter]. intros h st a Ha. eexists _, _. split; [reflexivity|]. apply rm_star. exact (shown_name _ _ _ _ Ha).
    - exists (Tr "RepeatOneOrMore" (leaf (lit "+") (lit "+") (lit "+" ++ r)) [] r).
      split; [apply sees_alts; [own|]; apply pk_fail; [apply sees_word_not; [now apply no_prefix_char|split; discriminate]|];
              apply pk_tree; apply sees_word; [discriminate|split; discriminate]|].
      split; [reflexivity|]. split; [reflexivity|]. split; [split; [|reflexivity]|shorter]. intros h st a Ha. eexists _, _. split; [reflexivity|]. apply rm_plus. exact (shown_name _ _ _ _ Ha).
    - rewrite <- !app_assoc in *. eexists. split; [apply Hrange|].
      + shelve.
      + eapply step_skip; [reflexivity|apply sees_lit; discriminate|].
        eapply step_skip; [reflexivity|apply sees_ws0; [exact H1|eapply digits_solid; eauto]|].
        eapply step_tree; [reflexivity|eapply sees_number; [split; discriminate|exact Hn|apply blank_not_digit; [exact H2|reflexivity]]| |].
        { pose proof (digits_some _ _ Hn). shorter. }
        eapply step_skip; [reflexivity|apply sees_ws0; [exact H2|vis]|].
        eapply wk_stay; [apply opt_not, sees_word_not; [now apply no_prefix_char|split; discriminate]|].
        eapply step_skip; [reflexivity|apply (sees_ws0 []); [constructor|vis]|].
        eapply wk_stay; [apply opt_not, sees_number_not; [split; discriminate|reflexivity]|].
        eapply step_skip; [reflexivity|apply (sees_ws0 []); [constructor|vis]|].
        eapply step_skip; [reflexivity|apply (sees_lit (lit "}") r); discriminate|]. apply wk_nil.
      + now apply no_prefix_char.
      + now apply no_prefix_char.
      + split; [reflexivity|]. split; [reflexivity|]. split; [split; [|reflexivity]|shorter]. intros h st a Ha.
        destruct (first_of _ _ _ _ ["Minimum"] _ Ha eq_refl) as (k & Hk & Hs). apply shown_leaf in Hs as (_ & Hs & _).
        unfold repeat_fate. cbn [repetition_fault]. pose proof (number_fate n d Hn) as Hf. rewrite <- Hs in Hf. destruct (size_fault n).
        { destruct Hf as [-> Hf]. eapply rf_least; [exact (shown_name _ _ _ _ Ha)|exact Hk|exact Hf]. }
        eexists _, _. split; [reflexivity|].
        eapply rm_exact; [exact (shown_name _ _ _ _ Ha)|exact Hk|exact Hf|]. now apply (none_of _ _ _ _ _ Ha).
      Unshelve. discriminate.
    - rewrite <- !app_assoc in *. eexists. split; [apply Hrange|].
      + shelve.
      + eapply step_skip; [reflexivity|apply sees_lit; discriminate|].
        eapply step_skip; [reflexivity|apply sees_ws0; [exact H1|eapply digits_solid; eauto]|].
        eapply step_tree; [reflexivity|eapply sees_number; [split; discriminate|exact Hn|apply blank_not_digit; [exact H2|reflexivity]]| |].
        { pose proof (digits_some _ _ Hn). shorter. }
        eapply step_skip; [reflexivity|apply sees_ws0; [exact H2|vis]|].
        eapply step_tree; [reflexivity|apply opt, sees_word; [discriminate|split; discriminate]|shorter|].
        eapply step_skip; [reflexivity|apply sees_ws0; [exact H3|vis]|].
        eapply wk_stay; [apply opt_not, sees_number_not; [split; discriminate|reflexivity]|].
        eapply step_skip; [reflexivity|apply (sees_ws0 []); [constructor|vis]|].
        eapply step_skip; [reflexivity|apply (sees_lit (lit "}") r); discriminate|]. apply wk_nil.
      + now apply no_prefix_char.
      + now apply no_prefix_char.
      + split; [reflexivity|]. split; [reflexivity|]. split; [split; [|reflexivity]|shorter]. intros h st a Ha.
        destruct (first_of _ _ _ _ ["Minimum"] _ Ha eq_refl) as (k & Hk & Hs). apply shown_leaf in Hs as (_ & Hs & _).
        destruct (first_of _ _ _ _ ["Seperator"] _ Ha eq_refl) as (k' & Hk' & _).
        unfold repeat_fate. cbn [repetition_fault]. pose proof (number_fate n d Hn) as Hf. rewrite <- Hs in Hf. destruct (size_fault n).
        { destruct Hf as [-> Hf]. eapply rf_least; [exact (shown_name _ _ _ _ Ha)|exact Hk|exact Hf]. }
        eexists _, _. split; [reflexivity|].
        eapply rm_from; [exact (shown_name _ _ _ _ Ha)|exact Hk|exact Hf|exact Hk'|]. now apply (none_of _ _ _ _ _ Ha).
      Unshelve. discriminate.
    - rewrite <- !app_assoc in *. eexists. split; [apply Hrange|].
      + shelve.
      + eapply step_skip; [reflexivity|apply sees_lit; discriminate|].
        eapply step_skip; [reflexivity|apply sees_ws0; [exact H1|eapply digits_solid; eauto]|].
        eapply step_tree; [reflexivity|eapply sees_number; [split; discriminate|exact Hn|apply blank_not_digit; [exact H2|reflexivity]]| |].
        { pose proof (digits_some _ _ Hn). shorter. }
        eapply step_skip; [reflexivity|apply sees_ws0; [exact H2|vis]|].
        eapply step_tree; [reflexivity|apply opt, sees_word; [discriminate|split; discriminate]|shorter|].
        eapply step_skip; [reflexivity|apply sees_ws0; [exact H3|eapply digits_solid; eauto]|].
        eapply step_tree; [reflexivity|apply opt; eapply sees_number; [split; discriminate|exact Hm|apply blank_not_digit; [exact H4|reflexivity]]| |].
        { pose proof (digits_some _ _ Hm). shorter. }
        eapply step_skip; [reflexivity|apply sees_ws0; [exact H4|vis]|].
        eapply step_skip; [reflexivity|apply (sees_lit (lit "}") r); discriminate|]. apply wk_nil.
      + now apply no_prefix_char.
      + now apply no_prefix_char.
      + split; [reflexivity|]. split; [reflexivity|]. split; [split; [|reflexivity]|shorter]. intros h st a Ha.
        destruct (first_of _ _ _ _ ["Minimum"] _ Ha eq_refl) as (k & Hk & Hs). apply shown_leaf in Hs as (_ & Hs & _).
        destruct (first_of _ _ _ _ ["Seperator"] _ Ha eq_refl) as (k' & Hk' & _).
        destruct (first_of _ _ _ _ ["Maximum"] _ Ha eq_refl) as (k2 & Hk2 & Hs2). apply shown_leaf in Hs2 as (_ & Hs2 & _).
        unfold repeat_fate. cbn [repetition_fault first_fault]. pose proof (number_fate n d Hn) as Hf. rewrite <- Hs in Hf. destruct (size_fault n).
        { destruct Hf as [-> Hf]. eapply rf_least; [exact (shown_name _ _ _ _ Ha)|exact Hk|exact Hf]. }
        pose proof (number_fate m d' Hm) as Hg. rewrite <- Hs2 in Hg. destruct (size_fault m).
        { destruct Hg as [-> Hg]. eapply rf_most; [exact (shown_name _ _ _ _ Ha)|exact Hk|exact Hf|exact Hk'|exact Hk2|exact Hg]. }
        destruct (N.ltb_spec m n) as [Hlt|Hle].
        { eapply rf_order; [exact (shown_name _ _ _ _ Ha)|exact Hk|exact Hf|exact Hk'|exact Hk2|exact Hg|exact Hlt]. }
        eexists _, _. split; [reflexivity|].
        eapply rm_between; [exact (shown_name _ _ _ _ Ha)|exact Hk|exact Hf|exact Hk'|exact Hk2|exact Hg|exact Hle].
      Unshelve. discriminate.
  Qed.
  Lemma sees_repeat_not w : ~ has_prefix (lit "*") w -> ~ has_prefix (lit "+") w -> ~ has_prefix (lit "{") w ->
    sees (ScriptRepeatSpecifier E) w None.
  Proof.
    intros H1 H2 H3. apply sees_alts; [own|]. apply pk_fail; [apply sees_word_not; [exact H1|split; discriminate]|].
    apply pk_fail; [apply sees_word_not; [exact H2|split; discriminate]|].
    apply pk_fail; [|apply pk_none]. eapply sees_prog_fail; [own|]. apply wk_fail. now apply sees_lit_not.
  Qed.

  (* ---------- closures on results ---------- *)

  Lemma not_below h st a t all : shows h st a t -> preorder st (tk_kids (tok st a)) all -> ~ In a all.
  Proof.
    intros _ Hp Hin.
    assert (G : forall roots l, preorder st roots l -> In a l -> (List.length (a :: all) <= List.length l)%nat).
    { induction 1 as [|b roots m1 m2 Hb IHb Hr IHr]; intros Hi; [contradiction|].
      cbn [In List.length] in *. rewrite app_length. destruct Hi as [<-|Hi].
      - rewrite (preorder_det _ _ _ Hb _ Hp). lia.
      - apply in_app_or in Hi as [Hi|Hi]; [specialize (IHb Hi)|specialize (IHr Hi)]; lia. }
    specialize (G _ _ Hp Hin). cbn in G. lia.
  Qed.
  Lemma framed_elsewhere st st' t t' all : preorder st (tk_kids t) all -> (forall b, In b all -> tok st' b = tok st b) ->
    tk_kids t' = tk_kids t -> tk_cr t' = tk_cr t -> tk_mr t' = tk_mr t -> tk_cvalue t' = tk_cvalue t ->
    framed P st t -> framed P st' t'.
  Proof.
    intros Hp Hs K1 K2 K3 K4. assert (Hsp : span st' (tk_kids t) = span st (tk_kids t)).
    { unfold span. f_equal. apply map_ext_in. intros k Hk. rewrite Hs; [reflexivity|]. eapply roots_in; eauto. }
    unfold framed. rewrite K1, K2, K3, K4. destruct (tk_kids t); [auto|]. now rewrite Hsp.
  Qed.
  Lemma shows_elsewhere h st st' : heap_size st' = heap_size st ->
    (forall a t, shows h st a t -> forall all, preorder st [a] all -> (forall b, In b all -> tok st' b = tok st b) -> shows h st' a t) /\
    (forall l ts, shows_all P h st l ts -> forall all, preorder st l all -> (forall b, In b all -> tok st' b = tok st b) -> shows_all P h st' l ts).
  Proof.
    intros Hsz. apply shows_mind.
    - intros a name text kids rest Ha K Er Nm Tx Cr Mr St Lo Ks IH Fr Up all Hp Hs.
      inversion Hp as [|a0 roots l1 l2 Hk Hn]; subst. inversion Hn; subst. rewrite app_nil_r in *.
      assert (Ht : tok st' a = tok st a) by (apply Hs; now left).
      constructor; rewrite ?Ht; auto; [lia| |].
      + eapply IH; [exact Hk|]. intros b Hb. apply Hs. now right.
      + eapply framed_elsewhere; eauto. intros b Hb. apply Hs. now right.
    - constructor.
    - intros a l t ts Ha IHa Hl IHl all Hp Hs. inversion Hp as [|a0 roots l1 l2 Hk Hn]; subst.
      constructor.
      + apply (IHa (a :: l1)); [now apply preorder_one|]. intros b Hb. apply Hs. cbn in *. rewrite in_app_iff. tauto.
      + apply (IHl l2); [exact Hn|]. intros b Hb. apply Hs. cbn. rewrite in_app_iff. tauto.
  Qed.
  Definition keeps (g : token -> token) : Prop := forall t,
    tk_kind (g t) = tk_kind t /\ tk_name (g t) = tk_name t /\ tk_cr (g t) = tk_cr t /\ tk_mr (g t) = tk_mr t /\
    tk_kids (g t) = tk_kids t /\ tk_flags (g t) = tk_flags t /\ tk_cvalue (g t) = tk_cvalue t.
  Lemma shows_modified h st a n i k r g i' : shows h st a (Tr n i k r) -> keeps g -> text_is P i' (g (tok st a)) ->
    shows h (modify st a g) a (Tr n i' k r).
  Proof.
    intros Ha Hg Ht. pose proof Ha as Ha0. inversion Ha as [a0 name text kids rest A1 A2 A3 A4 A5 A6 A7 A8 A9 A10 A11]; subst.
    destruct (proj2 (shows_clean P h st) _ _ A10) as (all & Hall & _).
    pose proof (not_below _ _ _ _ _ Ha0 Hall) as Hnot.
    assert (Hsame : tok (modify st a g) a = g (tok st a)) by (apply tok_set_same; unfold heap_size in *; lia).
    destruct (Hg (tok st a)) as (G1 & G2 & G3 & G4 & G5 & G6 & G7).
    assert (Hother : forall b, In b all -> tok (modify st a g) b = tok st b).
    { intros b Hb. apply tok_set_other. intros ->. contradiction. }
    constructor; rewrite ?Hsame; try congruence.
    - unfold modify. rewrite heap_size_set. lia.
    - unfold is_error in *. now rewrite G6.
    - rewrite G5. apply (proj2 (shows_elsewhere h st (modify st a g) (heap_size_set _ _ _))) with (all := all); auto.
    - eapply framed_elsewhere; eauto.
  Qed.
  Lemma sees_map f m w t t' : sees m w (Some (FTree t)) -> t_rest t' = t_rest t ->
    (forall h st a c, shows h st a t -> exists st', map_ok E P f a c s st = Ret (Ok (SToken a)) st' /\
       st_scopes st' = st_scopes st /\ shows h st' a t') ->
    sees (MMap m f) w (Some (FTree t')).
  Proof.
    intros H Hr Hf c st Hd Hc Hk Hl. destruct (H (renamed c "Map") st Hd Hc Hk Hl) as (x & st1 & D & K & O).
    destruct x as [y|[|e]]; cbn in O; try contradiction. inversion O as [a t0 Ha Hfo| | | | |]; subst.
    destruct (Hf _ _ _ (renamed c "Map") Ha) as (st2 & M1 & M2 & M3).
    exists (Ok (SToken a)), st2. split; [eapply map_runs; [exact D|exact M1]|]. split; [now apply (known_scopes s B st1)|].
    cbn. constructor; [exact M3|]. now rewrite Hr.
  Qed.

  (* ---------- regular expressions ---------- *)

  (* trees called "Part" that cover the text from [w] to [e] *)
  Inductive chain (e : str) : str -> list tree -> Prop :=
  | ch_end : chain e e []
  | ch_part w i r l : i_from i = Some w -> follows w r -> chain e r l -> chain e w (Tr "Part" i [] r :: l).
  Definition hull1 (st : state) (r : range) (a : addr) : range :=
    if str_eqb (tk_name (tok st a)) "Part" then
      let m := tk_mr (tok st a) in
      mkR (if (rs r =? usize_max) || (rs m <? rs r) then rs m else rs r)
          (if (re r =? usize_max) || (re r <? re m) then re m else re r)
    else r.
  Lemma hull_more h st w0 e w ts l : chain e w ts -> shows_all P h st l ts -> left_over P w0 -> follows w0 w ->
    fold_left (hull1 st) l (mkR (pos P w0) (pos P w)) = mkR (pos P w0) (pos P e).
  Proof.
    intros Hc. revert l. induction Hc as [|w i r ts Hi Hf _ IH]; intros l Hs Hl Hw.
    - inversion Hs; subst. reflexivity.
    - apply shown_cons in Hs as (a & l' & -> & Ha & Hs). cbn [fold_left]. unfold hull1 at 2.
      rewrite (shown_name _ _ _ _ Ha). cbn [t_name]. change (str_eqb "Part" "Part") with true. cbv iota.
      pose proof (pos_lt P Hsmall w0) as L1. pose proof (pos_lt P Hsmall w) as L2.
      pose proof (pos_follows P Hsmall _ _ (left_follows P _ _ Hl Hw) Hf) as L3.
      pose proof (pos_follows P Hsmall _ _ Hl Hw) as L4.
      inversion Ha as [a0 name text kids rest A1 A2 A3 A4 A5 A6 A7 A8 A9 A10]; subst.
      destruct A5 as (_ & _ & A5 & _). rewrite Hi in A5. cbn [maybe] in A5. rewrite A5, A8. cbn [rs re].
      destruct (N.eqb_spec (pos P w0) usize_max); [lia|]. destruct (N.eqb_spec (pos P w) usize_max); [lia|].
      destruct (N.ltb_spec (pos P w) (pos P w0)); [lia|]. cbn [orb].
      destruct (N.ltb_spec (pos P w) (pos P r)).
      + apply IH; auto. eapply follows_trans; eauto.
      + replace (pos P w) with (pos P r) by lia. apply IH; auto. eapply follows_trans; eauto.
  Qed.
  Lemma hull_parts h st e w ts l : chain e w ts -> ts <> [] -> shows_all P h st l ts -> left_over P w ->
    fold_left (hull1 st) l (mkR usize_max usize_max) = mkR (pos P w) (pos P e).
  Proof.
    intros Hc Ht Hs Hl. destruct Hc as [|w i r ts Hi Hf Hc]; [congruence|].
    apply shown_cons in Hs as (a & l' & -> & Ha & Hs). cbn [fold_left]. unfold hull1 at 2.
    rewrite (shown_name _ _ _ _ Ha). cbn [t_name]. change (str_eqb "Part" "Part") with true. cbv iota. cbn [rs re].
    rewrite N.eqb_refl. cbn [orb].
    inversion Ha as [a0 name text kids rest A1 A2 A3 A4 A5 A6 A7 A8 A9 A10]; subst.
    destruct A5 as (_ & _ & A5 & _). rewrite Hi in A5. cbn [maybe] in A5. rewrite A5, A8. apply (hull_more h st w e r ts l'); auto.
  Qed.
  Lemma hull_none h st ts l r : shows_all P h st l ts -> Forall (fun t => t_name t <> lit "Part") ts ->
    fold_left (hull1 st) l r = r.
  Proof.
    intros Hs. induction Hs as [|a l t ts Ha Hs IH]; intros Hn; [reflexivity|]. inversion Hn; subst. cbn [fold_left].
    unfold hull1 at 2. rewrite (shown_name _ _ _ _ Ha). destruct (str_eqb (t_name t) "Part") eqn:Hx.
    - apply str_eqb_eq in Hx. contradiction.
    - now apply IH.
  Qed.
  Lemma shows_all_split h st ts ts' : forall l, shows_all P h st l (ts ++ ts') ->
    exists l1 l2, l = l1 ++ l2 /\ shows_all P h st l1 ts /\ shows_all P h st l2 ts'.
  Proof.
    induction ts as [|t ts IH]; intros l H.
    - exists [], l. split; [reflexivity|]. split; [constructor|exact H].
    - apply shown_cons in H as (a & l' & -> & Ha & H). destruct (IH _ H) as (l1 & l2 & -> & H1 & H2).
      exists (a :: l1), l2. split; [reflexivity|]. split; [now constructor|exact H2].
  Qed.

  Definition plain_char (x : N) : bool := negb (ch "/" x) && negb (ch "\" x) && negb (ch "[" x).
  Definition flag_char (x : N) : bool := ch "i" x || ch "m" x || ch "s" x || ch "U" x.
  Lemma all_flags f : regex_flags f -> all_in flag_char f.
  Proof.
    apply all_in_of. intros a [<-|[<-|[<-|[<-|[]]]]]; reflexivity.
  Qed.
  Definition end_kids (flags r : str) : list tree :=
    Tr "RegexEnd" (leaf (lit "/") (lit "/") (lit "/" ++ flags ++ r)) [] (flags ++ r) ::
    match flags with [] => [] | _ => [Tr "Flags" (leaf flags flags (flags ++ r)) [] r] end.
  Definition regex_pats : list matcher :=
    [MatchesN "Part" re_part;
     Switch_ [MatchesN "Part" re_escape;
              Proxy_ (Program_ [EqualsN "RegexEnd" "/"; MatchesN "Flags" re_flags; MBreak "RegexCaptureLoop"]);
              SequenceN "Part" "[" "]" "\"]].
  Lemma sees_end flags r : regex_flags flags -> starts_not flag_char r ->
    picks [MatchesN "Part" re_escape;
           Proxy_ (Program_ [EqualsN "RegexEnd" "/"; MatchesN "Flags" re_flags; MBreak "RegexCaptureLoop"]);
           SequenceN "Part" "[" "]" "\"] (lit "/" ++ flags ++ r)
      (Some (FBreak "RegexCaptureLoop" (FProxy (Tr "Program" no_attrs (end_kids flags r) r)))).
  Proof.
    intros Hf Hr. apply pk_fail.
    { apply sees_regex_not; [|own]. intros _. apply alt_none. now apply one_not. }
    apply pk_break. eapply sees_proxy; try assumption; [apply px_break; unfold end_kids; destruct flags; discriminate|].
    assert (Hm : match_alts [[Star flag_char]] (chars (flags ++ r)) = Some (slen flags)).
    { apply alt_one. apply star_end; [now apply all_flags|exact Hr]. }
    destruct flags as [|x flags].
    - apply sees_prog0_break. eapply step_tree; [reflexivity|apply sees_word; [discriminate|split; discriminate]|shorter|].
      eapply wk_stay; [|apply wk_break; now apply sees_break].
      apply sees_left. intros Hl. apply sees_matches_empty; auto; [|own]. apply find_here; [now apply left_ascii|exact Hm].
    - apply sees_prog0_break. eapply step_tree; [reflexivity|apply sees_word; [discriminate|split; discriminate]|shorter|].
      eapply step_tree; [reflexivity|apply (sees_regex _ "Flags" true (x :: flags) r); [intros _; exact Hm|discriminate|own]|shorter|].
      apply wk_break. now apply sees_break.
  Qed.
  Lemma chain_follows e w ts : chain e w ts -> follows w e.
  Proof. induction 1; [apply follows_refl|]. eapply follows_trans; eauto. Qed.
  (* a run of plain characters *)
  Lemma walk_run p w ms ts x : all_in plain_char p -> starts_not plain_char w ->
    (forall ts', ts' = [] \/ (p <> [] /\ ts' = [Tr "Part" (leaf p p (p ++ w)) [] w]) -> (p = [] -> ts' = []) -> (p <> [] -> ts' <> []) -> walk ms (ts ++ ts') w x) ->
    walk (MatchesN "Part" re_part :: ms) ts (p ++ w) x.
  Proof.
    intros Hp Hw Hx.
    assert (Hm : match_alts [[Star plain_char]] (chars (p ++ w)) = Some (slen p)) by (apply alt_one; now apply star_end).
    destruct p as [|y p].
    - eapply wk_stay; [|specialize (Hx []); rewrite app_nil_r in Hx; apply Hx; auto; congruence].
      apply sees_left. intros Hl. apply sees_matches_empty; auto; [|own]. apply find_here; [now apply left_ascii|exact Hm].
    - eapply step_tree; [reflexivity|apply (sees_regex _ "Part" true (y :: p) w); [intros _; exact Hm|discriminate|own]|shorter|].
      apply Hx; [right; split; [discriminate|reflexivity]|discriminate|discriminate].
  Qed.
  Lemma run_chain p w e ts' l : ts' = [] \/ (p <> [] /\ ts' = [Tr "Part" (leaf p p (p ++ w)) [] w]) -> (p = [] -> ts' = []) -> (p <> [] -> ts' <> []) ->
    chain e w l -> chain e (p ++ w) (ts' ++ l).
  Proof.
    intros H H1 H2 Hc. destruct p as [|x p].
    - rewrite H1 by reflexivity. exact Hc.
    - destruct H as [->|[_ ->]]; [now destruct H2|]. cbn [app]. apply ch_part; [reflexivity|now exists (x :: p)|exact Hc].
  Qed.
  Lemma regex_laps flags r body : regex_flags flags -> starts_not flag_char r -> regex_body body -> forall p ts, all_in plain_char p ->
    exists parts, laps "RegexCaptureLoop" regex_pats ts (p ++ body ++ lit "/" ++ flags ++ r) (ts ++ parts ++ end_kids flags r) r /\
      chain (lit "/" ++ flags ++ r) (p ++ body ++ lit "/" ++ flags ++ r) parts /\ (body = [] -> p = [] -> parts = []).
  Proof.
    intros Hf Hr Hb. set (e := lit "/" ++ flags ++ r).
    induction Hb as [|x t H1 H2 H3 _ IH|x t Hx _ IH|v raw t Hv _ IH]; intros p ts Hp.
    - set (ts' := match p with [] => [] | _ => [Tr "Part" (leaf p p (p ++ e)) [] e] end). exists ts'. split; [|split; [|now intros _ ->]].
      + eapply la_break with (n := lit "RegexCaptureLoop") (p := FProxy (Tr "Program" no_attrs (end_kids flags r) r)) (ts' := ts ++ ts') (w' := e); [|now right|].
        * apply walk_run; [exact Hp|reflexivity|]. intros l Hl1 Hl2 Hl3.
          assert (l = ts') as ->.
          { subst ts'. destruct p; [auto|]. destruct Hl1 as [->|[_ ->]]; [now destruct Hl3|reflexivity]. }
          apply wk_break. apply sees_alts0. now apply sees_end.
        * rewrite app_assoc. apply (pl_proxy (ts ++ ts') e (Tr "Program" no_attrs (end_kids flags r) r) r). cbn [t_rest t_kids].
          unfold end_kids. destruct flags as [|y flags].
          -- constructor; [apply follows_app|]. constructor.
          -- constructor; [apply follows_app|]. constructor; [apply follows_refl|constructor].
      + cbn [app]. fold e. subst ts'. destruct p as [|x p]; [apply ch_end|]. apply ch_part; [reflexivity|now exists (x :: p)|apply ch_end].
    - assert (Hp' : all_in plain_char (p ++ [x])).
      { apply Forall_app. split; [exact Hp|]. constructor; [|constructor]. unfold plain_char.
        now rewrite !ch_false by congruence. }
      destruct (IH (p ++ [x]) ts Hp') as (parts & I1 & I2 & _). exists parts.
      rewrite <- !app_assoc in I1, I2. split; [exact I1|split; [exact I2|discriminate]].
    - destruct (IH [] (ts ++ (match p with [] => [] | _ => [Tr "Part" (leaf p p (p ++ ["\"%char; x] ++ t ++ e)) [] (["\"%char; x] ++ t ++ e)] end) ++
         [Tr "Part" (leaf ["\"%char; x] ["\"%char; x] (["\"%char; x] ++ t ++ e)) [] (t ++ e)])) as (parts & I1 & I2 & _); [constructor|].
      set (ts' := match p with [] => [] | _ => [Tr "Part" (leaf p p (p ++ ["\"%char; x] ++ t ++ e)) [] (["\"%char; x] ++ t ++ e)] end) in *.
      set (tx := Tr "Part" (leaf ["\"%char; x] ["\"%char; x] (["\"%char; x] ++ t ++ e)) [] (t ++ e)) in *.
      change (("\"%char :: x :: t) ++ e) with (["\"%char; x] ++ t ++ e).
      exists (ts' ++ [tx] ++ parts). split; [|split; [|discriminate]].
      + rewrite <- !app_assoc in *. eapply la_next; [| |exact I1].
        * apply walk_run; [exact Hp|reflexivity|]. intros l Hl1 Hl2 Hl3.
          assert (l = ts') as ->.
          { subst ts'. destruct p; [auto|]. destruct Hl1 as [->|[_ ->]]; [now destruct Hl3|reflexivity]. }
          eapply (step_tree _ _ _ _ "Part" (leaf ["\"%char; x] ["\"%char; x] (["\"%char; x] ++ t ++ e)) [] (t ++ e)); [reflexivity| |shorter|].
          -- apply sees_alts0. apply pk_tree. apply (sees_regex _ "Part" true ["\"%char; x] (t ++ e)); [|discriminate|own].
             intros _. apply alt_one. apply (one_ok _ _ "\"%char ([x] ++ t ++ e) 1); [reflexivity|].
             apply (one_ok _ _ x (t ++ e) 0); [|reflexivity]. unfold code in Hx. destruct (N.eqb_spec (N_of_ascii x) 10); [congruence|reflexivity].
          -- rewrite <- app_assoc. apply wk_nil.
        * shorter.
      + assert (G : chain e (["\"%char; x] ++ t ++ e) (tx :: parts)) by (apply ch_part; [reflexivity|now exists ["\"%char; x]|exact I2]).
        subst ts'. destruct p as [|y p]; [exact G|]. apply ch_part; [reflexivity|now exists (y :: p)|exact G].
    - set (u := (lit "[" ++ raw ++ lit "]" ++ t) ++ e).
      destruct (IH [] (ts ++ (match p with [] => [] | _ => [Tr "Part" (leaf p p (p ++ u)) [] u] end) ++
         [Tr "Part" (leaf v raw u) [] (t ++ e)])) as (parts & I1 & I2 & _); [constructor|].
      set (ts' := match p with [] => [] | _ => [Tr "Part" (leaf p p (p ++ u)) [] u] end) in *.
      set (tx := Tr "Part" (leaf v raw u) [] (t ++ e)) in *.
      assert (Hu : u = lit "[" ++ raw ++ lit "]" ++ t ++ e) by (subst u; now rewrite <- !app_assoc).
      exists (ts' ++ [tx] ++ parts). split; [|split; [|discriminate]].
      + rewrite <- !(app_assoc ts), <- !(app_assoc ts') in *. eapply la_next; [| |exact I1].
        * apply walk_run; [exact Hp|rewrite Hu; reflexivity|]. intros l Hl1 Hl2 Hl3.
          assert (l = ts') as ->.
          { subst ts'. destruct p; [auto|]. destruct Hl1 as [->|[_ ->]]; [now destruct Hl3|reflexivity]. }
          eapply (step_tree _ _ _ _ "Part" (leaf v raw u) [] (t ++ e)); [reflexivity| |rewrite Hu; shorter|].
          -- apply sees_alts0. rewrite Hu. apply pk_fail; [apply sees_regex_not; [|own]; intros _; apply alt_none; now apply one_not|].
             apply pk_fail.
             { apply sees_proxy_fail; try assumption. eapply sees_prog0_fail. apply wk_fail. apply sees_word_not; [now apply no_prefix_char|split; discriminate]. }
             apply pk_tree. apply sees_sequence; auto; try discriminate; [|own].
             apply (literal_scans "]" v raw (t ++ e)); [discriminate|exact Hv].
          -- rewrite <- app_assoc. apply wk_nil.
        * fold u. rewrite Hu. shorter.
      + assert (G : chain e u (tx :: parts)).
        { apply ch_part; [reflexivity|exists (lit "[" ++ raw ++ lit "]"); rewrite Hu; now rewrite <- !app_assoc|exact I2]. }
        fold u. subst ts'. destruct p as [|y p]; [exact G|]. apply ch_part; [reflexivity|now exists (y :: p)|exact G].
  Qed.

  (* what is taken for the body *)
  Definition regex_text (body flags : str) : str := match body with [] => lit "//" ++ flags | _ => body end.
  Lemma leaf_range h st a name v cv w r : shows h st a (Tr name (leaf v cv w) [] r) -> w = cv ++ r -> left_over P w ->
    tk_cr (tok st a) = mkR (pos P w) (pos P r).
  Proof.
    intros Ha -> Hl. inversion Ha as [a0 nm text kids rest A1 A2 A3 A4 A5 A6 A7 A8 A9 A10 A11 A12]; subst.
    destruct A5 as (_ & A5 & A13 & _). cbn [leaf i_cvalue i_from maybe] in A5, A13.
    unfold framed in A11. inversion A10 as [Hk|]. rewrite <- Hk in A11. destruct A11 as (F1 & F2 & F3).
    unfold get_cvalue in A5. rewrite A2 in A5. rewrite A5 in F3. rewrite A13 in F1. rewrite A8 in F2.
    assert (pos P (cv ++ r) + slen cv = pos P r).
    { destruct Hl as [pre Hpre]. unfold pos. rewrite Hpre, !slen_app. lia. }
    destruct (tk_cr (tok st a)) as [x y]. cbn [rs re] in *. f_equal; lia.
  Qed.
  Definition with_value (v : str) : info := mkInfo (Some v) None None None.
  Lemma sees_re body flags r : regex_body body -> regex_flags flags -> starts_not flag_char r ->
    exists parts, sees ScriptRegexMatcher (lit "/" ++ body ++ lit "/" ++ flags ++ r)
      (Some (FTree (Tr "RegexMatcher" (with_value (regex_text body flags))
        (Tr "RegexStart" (leaf (lit "/") (lit "/") (lit "/" ++ body ++ lit "/" ++ flags ++ r)) [] (body ++ lit "/" ++ flags ++ r) ::
         parts ++ end_kids flags r) r))) /\ pick ["Flags"] parts = None /\ forallb quiet parts = true.
  Proof.
    intros Hbody Hf Hr. destruct (regex_laps flags r body Hf Hr Hbody [] []) as (parts & H1 & H2 & H3); [constructor|].
    cbn [app] in H1, H2. exists parts. split.
    - apply sees_left. intros Hleft. eapply sees_map with (t := Tr "RegexMatcher" no_attrs (Tr "RegexStart" (leaf (lit "/") (lit "/") (lit "/" ++ body ++ lit "/" ++ flags ++ r)) [] (body ++ lit "/" ++ flags ++ r) ::
         parts ++ end_kids flags r) r); [| |].
      + eapply sees_prog; [own| |discriminate].
        eapply step_tree; [reflexivity|apply sees_word; [discriminate|split; discriminate]|shorter|].
        cbn [app].
        apply (wk_proxy_last E P s B _ [_] _ (Tr "RegexCaptureLoop" no_attrs (parts ++ end_kids flags r) r) r); [reflexivity| |].
        * eapply sees_proxy; try assumption; [apply px_tree; cbn [t_kids]; intros E0; apply app_eq_nil in E0 as [_ E0]; unfold end_kids in E0; destruct flags; discriminate|].
          eapply sees_rounds; [own|lia|exact H1|]. destruct parts; discriminate.
        * cbn [t_rest t_kids].
          assert (Hend : forall w, spread r w (end_kids flags r) r).
          { intros w. unfold end_kids. destruct flags as [|y flags].
            - constructor; [apply follows_app|]. constructor.
            - constructor; [apply follows_app|]. constructor; [apply follows_refl|constructor]. }
          clear H1 H3. generalize r at 2. revert H2. generalize (body ++ lit "/" ++ flags ++ r). intros w H2.
          induction H2 as [|w i u l Hi Hfo Hc IH]; intros w0; [apply Hend|]. cbn [app].
          constructor; [|apply IH]. cbn [t_rest]. apply chain_follows in Hc. eapply follows_trans; [exact Hc|].
          exists (lit "/" ++ flags). now rewrite <- app_assoc.
      + reflexivity.
      + intros h st a c Ha. eexists. split; [reflexivity|]. split; [reflexivity|].
        eapply shows_modified; [exact Ha|intros t; now repeat split|].
        split; [|split; [exact Logic.I|split; exact Logic.I]]. cbn [with_value i_value maybe].
        destruct body as [|b0 body0] eqn:Hbd.
        { rewrite (H3 eq_refl eq_refl) in *. cbn [app] in *. pose proof (shown_kids _ _ _ _ Ha) as Hk. cbn [t_kids] in Hk.
          apply shown_cons in Hk as (a1 & l & Hl & Ha1 & Hk).
          assert (range_text P (part_hull st (tk_kids (tok st a))) = []) as ->.
          { unfold part_hull. rewrite Hl. fold (hull1 st). cbn [fold_left].
            unfold hull1 at 2. rewrite (shown_name _ _ _ _ Ha1). cbn [t_name]. change (str_eqb "RegexStart" "Part") with false. cbv iota.
            rewrite (hull_none h st (end_kids flags r)); [|exact Hk|destruct flags; repeat constructor; discriminate].
            unfold range_text. rewrite char_substring_ascii by assumption. cbn [rs re]. unfold sub. now rewrite N.sub_diag. }
          inversion Ha as [a0 nm text kids rest A1 A2 A3 A4 A5 A6 A7 A8 A9 A10 A11 A12]; subst.
          destruct A5 as (_ & _ & _ & A5). cbn [t_text no_attrs i_attrs maybe] in A5.
          unfold get_value, get_attr, set_value, get_cvalue. cbn [tk_attrs tk_kind tk_value tk_cvalue]. rewrite (proj1 A5), A2.
          unfold framed in A11. rewrite Hl in A11. destruct A11 as [F1 F2]. cbn. rewrite F2, F1.
          apply range_text_ascii; [exact Hascii|]. destruct Hleft as [pre Hpre]. cbn [app] in Hpre.
          assert (Hsp : span st (a1 :: l) = mkR (slen pre) (slen pre + slen (lit "//" ++ flags))).
          { assert (Hq : forall u v, lit "/" ++ lit "/" ++ flags ++ r = u ++ v -> left_over P v /\ pos P v = slen pre + slen u).
            { intros u v Huv. change ("/"%char :: "/"%char :: flags ++ r) with (lit "/" ++ lit "/" ++ flags ++ r) in Hpre. rewrite Huv in Hpre.
              split; [exists (pre ++ u); rewrite Hpre; apply app_assoc|]. unfold pos. rewrite Hpre, !slen_app. lia. }
            destruct (Hq [] _ eq_refl) as [L1 Q1]. destruct (Hq (lit "/") _ eq_refl) as [L2 Q2].
            destruct (Hq (lit "//") (flags ++ r) eq_refl) as [L3 Q3]. destruct (Hq (lit "//" ++ flags) r) as [L4 Q4]; [now rewrite <- app_assoc|].
            assert (Hmax : slen pre + slen (lit "//" ++ flags) < usize_max) by (rewrite <- Q4; now apply pos_lt).
            assert (Hmin : forall x, x < usize_max -> N.min x usize_max = x) by (intros; lia).
            unfold span, hull. cbn [map]. rewrite (leaf_range _ _ _ _ _ _ _ _ Ha1 eq_refl L1).
            unfold end_kids in Hk. apply shown_cons in Hk as (a2 & l2 & -> & Ha2 & Hk). cbn [map].
            rewrite (leaf_range _ _ _ _ _ _ _ _ Ha2 eq_refl L2).
            rewrite !slen_app in *. change (slen (lit "/")) with 1 in *. change (slen (lit "//")) with 2 in *. change (slen []) with 0 in *.
            destruct flags as [|f0 flags].
            - inversion Hk; subst. cbn [map]. change (slen []) with 0 in *. cbn [app] in Q3.
              f_equal; cbn [lowest highest fold_right rs re]; rewrite ?Q1, ?Q2, ?Q3, ?Q4; cbn [app]; rewrite ?Q4; lia.
            - apply shown_cons in Hk as (a3 & l3 & -> & Ha3 & Hk). inversion Hk; subst. cbn [map].
              rewrite (leaf_range _ _ _ _ _ _ _ _ Ha3 eq_refl L3).
              f_equal; cbn [lowest highest fold_right rs re]; rewrite ?Q1, ?Q2, ?Q3, ?Q4; lia. }
          rewrite Hsp. cbn [rs re]. exists pre, r. split; [exact Hpre|]. split; [reflexivity|]. now rewrite slen_app. }
        rewrite <- Hbd in *. assert (Hb : body <> []) by (rewrite Hbd; discriminate).
        assert (regex_text body flags = body) as -> by (rewrite Hbd; reflexivity). clear Hbd.
        assert (range_text P (part_hull st (tk_kids (tok st a))) = body) as ->.
        { pose proof (shown_kids _ _ _ _ Ha) as Hk. cbn [t_kids] in Hk.
          apply shown_cons in Hk as (a1 & l & Hl & Ha1 & Hk). apply shows_all_split in Hk as (l1 & l2 & -> & Hk1 & Hk2).
          assert (Hlo : left_over P (body ++ lit "/" ++ flags ++ r)) by (inversion Ha1; assumption).
          unfold part_hull. rewrite Hl. fold (hull1 st). cbn [fold_left]. rewrite fold_left_app.
          unfold hull1 at 3. rewrite (shown_name _ _ _ _ Ha1). cbn [t_name]. change (str_eqb "RegexStart" "Part") with false. cbv iota.
          rewrite (hull_parts h st _ _ parts l1 H2); auto.
          - rewrite (hull_none h st (end_kids flags r)); [|exact Hk2|destruct flags; repeat constructor; discriminate].
            apply range_text_ascii; [exact Hascii|]. cbn [rs re]. destruct Hlo as [pre Hpre].
            exists pre, (lit "/" ++ flags ++ r). split; [exact Hpre|]. unfold pos. rewrite Hpre, !slen_app. split; lia.
          - intros ->. inversion H2 as [He|]. apply (f_equal slen) in He. rewrite slen_app in He. pose proof (slen_pos _ Hb). lia. }
        apply shown_text in Ha as (_ & _ & _ & Ha & _). cbn [t_text no_attrs i_attrs maybe] in Ha.
        unfold get_value, get_attr, set_value. cbn [tk_attrs tk_kind tk_value]. rewrite Ha. cbn. destruct body; [congruence|reflexivity].
    - clear H1 H3. induction H2 as [|w i u l Hi Hfo Hc [IH1 IH2]]; [now split|]. split; [exact IH1|exact IH2].
  Qed.
  Lemma end_quiet flags r : forallb quiet (end_kids flags r) = true.
  Proof. destruct flags; reflexivity. Qed.
  Lemma re_means body flags k parts r : pick ["Flags"] parts = None ->
    core_as (Tr "RegexMatcher" (with_value (regex_text body flags)) (Tr "RegexStart" k [] (body ++ lit "/" ++ flags ++ r) :: parts ++ end_kids flags r) r)
      (KRegex body flags (e_regex E (regex_source body flags))).
  Proof.
    intros Hp h st a Ha.
    assert (Hb : regex_text body flags <> []) by (destruct body; discriminate).
    unfold core_fate. cbn [core_fault core_matcher].
    assert (Hsrc : regex_source body flags = match flags with [] => regex_text body flags | _ => lit "(?" ++ flags ++ lit ")" ++ regex_text body flags end) by reflexivity.
    rewrite Hsrc. clear Hsrc. set (v := regex_text body flags) in *. pose proof (shown_name _ _ _ _ Ha) as Hn.
    assert (Hv : text_of st a v) by (apply shown_text in Ha as (Ha & _); exact Ha).
    assert (Hpick : forall l, pick ["Flags"] (parts ++ l) = pick ["Flags"] l).
    { clear -Hp. intros l. induction parts as [|t ts IH]; [reflexivity|]. cbn [pick app] in *.
      destruct (existsb _ _); [discriminate|auto]. }
    destruct flags as [|x flags].
    - assert (Hno : no_kid st a ["Flags"]).
      { eapply none_of; [exact Ha|]. cbn [t_kids pick t_name existsb]. change (str_eqb _ _ || false) with false. cbv iota.
        rewrite Hpick. reflexivity. }
      destruct (e_regex E v) eqn:He; [eapply cm_regex|eapply cf_regex]; eauto.
    - destruct (first_of _ _ _ _ ["Flags"] (Tr "Flags" (leaf (x :: flags) (x :: flags) ((x :: flags) ++ r)) [] r) Ha) as (ad & H1 & H2).
      { cbn [t_kids pick t_name existsb]. change (str_eqb _ _ || false) with false. cbv iota. rewrite Hpick. reflexivity. }
      apply shown_leaf in H2 as (_ & H2 & _). rewrite <- H2.
      destruct (e_regex E _) eqn:He; [eapply cm_regex_flags|eapply cf_regex_flags]; eauto.
  Qed.
  Lemma sees_re_not w : ~ has_prefix (lit "/") w -> sees ScriptRegexMatcher w None.
  Proof.
    intros H. apply sees_map_fail; auto. eapply sees_prog_fail; [own|]. apply wk_fail.
    apply sees_word_not; [exact H|split; discriminate].
  Qed.

  (* ---------- attributes ---------- *)

  Lemma attr_blank b r : blank_line b -> starts_not (attr_char E) (b ++ lit "=" ++ r).
  Proof.
    intros [|x t (Hx & _) _]; [reflexivity|]. cbn. unfold blank_char, code in Hx. unfold attr_char, cword.
    destruct (N.ltb_spec (N_of_ascii x) 128); [|lia]. unfold rng, ch.
    change (N_of_ascii "a") with 97. change (N_of_ascii "A") with 65. change (N_of_ascii "0") with 48.
    change (N_of_ascii "_") with 95. change (N_of_ascii "+") with 43.
    repeat (apply orb_false_iff; split); try (apply N.eqb_neq; lia); apply andb_false_iff; left; apply N.leb_gt; lia.
  Qed.
  Lemma attr_name_in n : attr_name n -> n <> [] /\ all_in (attr_char E) n.
  Proof.
    intros (x & t & -> & _ & H). split; [discriminate|]. eapply all_in_of; [|exact H]. intros a Ha. now apply attr_char_in.
  Qed.
  Lemma attr_solid n r : attr_name n -> solid (n ++ r).
  Proof.
    intros (x & t & -> & _ & H). inversion H as [|y l Hy _]; subst. cbn. unfold letter, digit_char, code in Hy.
    change (N_of_ascii "a") with 97 in Hy. change (N_of_ascii "z") with 122 in Hy. change (N_of_ascii "A") with 65 in Hy.
    change (N_of_ascii "Z") with 90 in Hy. change (N_of_ascii "0") with 48 in Hy. change (N_of_ascii "9") with 57 in Hy.
    destruct Hy as [[Hy|Hy]|[Hy|[->| ->]]]; try lia; cbn; lia.
  Qed.

  Lemma sees_attr n v raw b1 b2 r : attr_name n -> blank_line b1 -> blank_line b2 -> literal_text "'" v raw ->
    let w2 := lit "'" ++ raw ++ lit "'" ++ r in
    let w1 := b1 ++ lit "=" ++ b2 ++ w2 in
    sees (ScriptAttribute E) (n ++ w1) (Some (FTree (Tr "Attribute" no_attrs
      [Tr "Name" (leaf n n (n ++ w1)) [] w1; Tr "Value" (leaf v raw w2) [] r] r))).
  Proof.
    intros Hn H1 H2 Hv w2 w1. destruct (attr_name_in n Hn) as [N1 N2].
    apply (sees_stored E P s HE Hsmall B "AttributeStartOffset" "Attribute"
      [MatchesN "Name" (re_attr_name E); ScriptWS0 E; MDiscard (Equals_ "="); ScriptWS0 E;
       FatalIf (Matches_ (re_unquoted E)) msg_malformed; ScriptStringN "Value"] "Pin"
      (AssertIf (Matches_ (re_underscore E)) "Attribute names can not start with an underscore")).
    - intros H. cbn in H. repeat destruct H as [H|H]; try discriminate. exact H.
    - discriminate.
    - intros v0 [H|[H|[]]]; discriminate.
    - intros v0 [H|[H|[]]]; discriminate.
    - discriminate.
    - own.
    - intros a.
      assert (Hfr : forall x m, fresh x -> x <> lit "AttributeStartOffset" ->
        own_ok ((lit "AttributeStartOffset", VToken a) :: B) true x m).
      { intros x m [F1 F2] F3 _ v0 [H|[H|[H|[]]]]; injection H; intros; congruence. }
      eapply wk_tree; [reflexivity|apply (raw_regex E P s Hascii Hsmall); [| |apply Hfr; [split; discriminate|discriminate]]| |].
      + apply alt_one. apply plus_end; [exact N1|exact N2|now apply attr_blank].
      + exact N1.
      + cbn [t_rest]. pose proof (slen_pos _ N1). shorter.
      + cbn [t_rest app]. unfold w1.
        eapply wk_skip; [reflexivity|apply (raw_gone E P s Hascii Hsmall); [|apply Hfr; [split; discriminate|discriminate]]|].
        { apply alt_one. apply (star_end (line_space E)); [now apply all_line|]. apply solid_line. vis. }
        eapply wk_skip; [reflexivity|apply (raw_lit E P s Hascii Hsmall); [discriminate|own]|].
        eapply wk_skip; [reflexivity|apply (raw_gone E P s Hascii Hsmall); [|apply Hfr; [split; discriminate|discriminate]]|].
        { apply alt_one. apply (star_end (line_space E)); [now apply all_line|]. apply solid_line. vis. }
        eapply wk_stay; [apply sees_unless; auto; apply (raw_regex_not E P s Hascii Hsmall); [|own]|].
        { apply alt_none. now apply one_not. }
        eapply wk_tree; [reflexivity|apply (raw_string E P s Hascii Hsmall); [apply Hfr; [split; discriminate|discriminate]|exact Hv]|cbn [t_rest]; unfold w2; shorter|].
        apply wk_nil.
    - apply sees_unless; auto. apply sees_regex_not; [|own]. intros _. apply alt_none. apply one_not.
      destruct Hn as (x & t & -> & Hx & _). cbn. apply ch_false. congruence.
  Qed.
  Lemma sees_pin w : sees (StoreM "AttributeStartOffset" Pin_) w (Some FLook).
  Proof.
    intros c st Hd Hc Hk Hl.
    set (stm := sc_set st s (lit "AttributeStartOffset") (VMatcher (StoreM "AttributeStartOffset" Pin_))).
    assert (Hd0 : pins (c_off c) [] (c_off c)).
    { destruct (c_off c) as [x y]. apply (pin_start (mkR x y) [] x). apply of_same. now left. }
    destruct (pin_alone E P (FStr []) "Pin" false (clone_with_name c (lit "AttributeStartOffset")) s stm [] (c_off c) (says_text _ _ _) Hd0) as (t & D1 & T).
    pose proof (store_token E P Pin_ _ c s st _ _ D1) as D2. cbn zeta in D2.
    eexists _, _. split; [exact D2|]. split.
    - assert (Hvs : valid_scope stm s) by (apply valid_set, Hk).
      split; [apply valid_set; exact Hvs|]. intros x v Hx.
      assert (lit "AttributeStartOffset" <> x) by (destruct Hx as [H|[H|[]]]; injection H as <- <-; discriminate).
      rewrite get_set_other by auto. change (sc_get stm s x = Some v). unfold stm. rewrite get_set_other by auto. now apply Hk.
    - cbn [outcome_is]. apply gv_look.
      + change (List.length (st_heap stm)) with (heap_size st).
        match goal with |- (_ <= _ < heap_size ?x)%nat => change (heap_size x) with (List.length (st_heap st ++ [t])) end.
        rewrite app_length. unfold heap_size. cbn. lia.
      + destruct T as (T & _). rewrite <- T. f_equal.
        match goal with |- tok ?x ?y = t => change (tok x y) with (nth (List.length (st_heap st)) (st_heap st ++ [t]) dead_token) end.
        rewrite app_nth2 by lia. now rewrite Nat.sub_diag.
  Qed.
  Lemma sees_attr_not w : starts_not (attr_char E) w -> sees (ScriptAttribute E) w None.
  Proof.
    intros Hw. eapply sees_prog_fail; [own|]. eapply wk_look; [apply sees_pin|]. apply wk_fail.
    apply sees_regex_not; [|own]. intros _. apply alt_none. now apply one_not.
  Qed.

  Definition attr_pats : list matcher := [ScriptAttribute E; ScriptWSN0 E].
  (* what follows attributes, and what follows an attribute *)
  Definition attrs_end (w : str) : Prop := has_prefix (lit "]") w \/ has_prefix (lit ">") w.
  Definition past_attr (w : str) : Prop := exists b u, w = b ++ u /\ blank b /\
    (attrs_end u \/ exists n v, attr_name n /\ u = n ++ v).
  (* one tree for each attribute *)
  Inductive attr_trees : list (str * str) -> list (str * str) -> list tree -> Prop :=
  | ats_nil : attr_trees [] [] []
  | ats_cons n v raw l l' ts w i r w1 rest : attr_trees l l' ts -> i_value i = Some v -> i_cvalue i = Some raw -> past_attr r ->
      attr_trees ((n, v) :: l) ((n, raw) :: l')
        (Tr "Attribute" no_attrs [Tr "Name" (leaf n n w) [] w1; Tr "Value" i [] rest] r :: ts).
  Lemma attrs_laps l l' t : attrs_text l l' t -> forall r ts, starts_not (attr_char E) r -> solid r -> attrs_end r ->
    exists ts', laps "Attributes" attr_pats ts (t ++ r) (ts ++ ts') r /\ attr_trees l l' ts'.
  Proof.
    induction 1 as [|n v raw b1 b2 b3 l l' t Hn H1 H2 H3 Hv Ht IH]; intros r ts Hr Hs Hcl.
    - exists []. rewrite app_nil_r. split; [|constructor]. apply la_fail. apply wk_fail. now apply sees_attr_not.
    - rewrite <- !app_assoc.
      pose proof (sees_attr n v raw b1 b2 (b3 ++ t ++ r) Hn H1 H2 Hv) as Ha. cbn zeta in Ha.
      match type of Ha with sees _ _ (Some (FTree ?x)) => set (tr := x) in * end.
      destruct (IH r (ts ++ [tr]) Hr Hs Hcl) as (ts' & I1 & I2).
      exists (tr :: ts'). split; [|constructor; auto; exists b3, (t ++ r); split; [reflexivity|]; split; [exact H3|]; destruct Ht;
        [now left|right; eexists _, _; rewrite <- app_assoc; eauto]].
      replace (ts ++ tr :: ts') with ((ts ++ [tr]) ++ ts') by now rewrite <- app_assoc.
      eapply la_next; [| |exact I1].
      + eapply step_tree; [reflexivity|exact Ha| |].
        { destruct (attr_name_in n Hn) as [N1 _]. pose proof (slen_pos _ N1). shorter. }
        eapply step_skip; [reflexivity|apply sees_wsn; [exact H3|]|apply wk_nil].
        destruct Ht; [exact Hs|]. rewrite <- app_assoc. now apply attr_solid.
      + destruct (attr_name_in n Hn) as [N1 _]. pose proof (slen_pos _ N1). shorter.
  Qed.
  Lemma sees_attrs l l' t r : attrs_text l l' t -> l <> [] -> starts_not (attr_char E) r -> solid r -> attrs_end r ->
    exists ts', sees (ScriptAttributes E) (t ++ r) (Some (FTree (Tr "Attributes" no_attrs ts' r))) /\ attr_trees l l' ts'.
  Proof.
    intros Ht Hl Hr Hs Hcl. destruct (attrs_laps l l' t Ht r [] Hr Hs Hcl) as (ts' & H1 & H2). exists ts'. split; [|exact H2].
    apply opt. apply (sees_rounds "Attributes" attr_pats 1 true); [own|lia|exact H1|]. destruct H2; [congruence|discriminate].
  Qed.
  Lemma sees_attrs_none r : starts_not (attr_char E) r -> sees (ScriptAttributes E) r (Some (FSkip r)).
  Proof.
    intros Hr. apply opt_not. apply (sees_no_rounds "Attributes" attr_pats 1 true r r); [own|lia|].
    apply la_fail. apply wk_fail. now apply sees_attr_not.
  Qed.
  Lemma attrs_mean h st l l' ts : attr_trees l l' ts -> forall ads acc, shows_all P h st ads ts ->
    attr_list st ads acc (fold_left (fun acc p => assoc_set (fst p) (snd p) acc) l' acc).
  Proof.
    induction 1 as [|n v raw l l' ts w i r w1 rest Hts IH Hi Hc Hpast]; intros ads acc Hs.
    - inversion Hs; subst. constructor.
    - apply shown_cons in Hs as (a & ads' & -> & Ha & Hs). apply shown_kids in Ha. cbn [t_kids] in Ha.
      apply shown_cons in Ha as (k & l1 & Hk & Hk1 & Ha). apply shown_cons in Ha as (k2 & l2 & -> & Hk2 & _).
      apply shown_leaf in Hk1 as (_ & Hk1 & _). apply shown_text in Hk2 as (_ & Hk2 & _). cbn [t_text] in Hk2. rewrite Hc in Hk2. cbn [maybe] in Hk2.
      eapply ap_next; [exact Hk|]. rewrite Hk1, Hk2. apply IH. exact Hs.
  Qed.

  (* ---------- definitions of patterns ---------- *)

  Lemma pick_app names a b : pick names (a ++ b) = match pick names a with Some t => Some t | None => pick names b end.
  Proof. induction a as [|t a IH]; [reflexivity|]. cbn [pick app]. destruct (existsb _ _); auto. Qed.

  Definition sign_kids (yes no : str) (o : sign) (w : str) : list tree :=
    match o with
    | Unsigned => []
    | Question => [Tr yes (leaf (lit "?") (lit "?") (lit "?" ++ w)) [] w]
    | Bang => [Tr no (leaf (lit "!") (lit "!") (lit "!" ++ w)) [] w]
    end.
  (* [w] does not start with a sign *)
  Definition unsigned (w : str) : Prop := starts_not (fun x => ch "?" x || ch "!" x) w.
  Lemma unsigned_not w : unsigned w -> ~ has_prefix (lit "?") w /\ ~ has_prefix (lit "!") w.
  Proof.
    destruct w as [|x w]; [intros _; split; apply no_prefix_nil|]. unfold unsigned. cbn. intros H.
    apply orb_false_iff in H as [H1 H2]. split; apply no_prefix_char; intros <-; discriminate.
  Qed.
  Lemma step_sign yes no o w ms ts x : fresh yes -> fresh no -> unsigned w ->
    walk ms (ts ++ sign_kids yes no o w) w x ->
    walk (MOptional (Switch_ [EqualsN yes "?"; EqualsN no "!"]) :: ms) ts (sign_text o ++ w) x.
  Proof.
    intros Hy Hn Hw Hx. destruct o; cbn [sign_text sign_kids] in *.
    - rewrite app_nil_r in Hx. destruct (unsigned_not w Hw) as [U1 U2]. cbn [app].
      eapply wk_stay; [|exact Hx]. apply opt_not. apply sees_alts0.
      apply pk_fail; [now apply sees_word_not|]. apply pk_fail; [now apply sees_word_not|]. apply pk_none.
    - eapply step_tree; [reflexivity|apply opt, sees_alts0, pk_tree; apply sees_word; [discriminate|exact Hy]|shorter|exact Hx].
    - eapply (step_tree _ _ _ _ no (leaf (lit "!") (lit "!") (lit "!" ++ w)) [] w); [reflexivity|apply opt, sees_alts0| shorter|exact Hx].
      apply pk_fail; [apply sees_word_not; [now apply no_prefix_char|exact Hy]|]. apply pk_tree. apply sees_word; [discriminate|exact Hn].
  Qed.
  Lemma step_both o w ms ts x msg : unsigned w -> walk ms ts (sign_text o ++ w) x ->
    walk (AssertIf (Matches_ re_both) msg :: ms) ts (sign_text o ++ w) x.
  Proof.
    intros Hw Hx. eapply wk_stay; [|exact Hx]. apply sees_unless; auto. apply sees_regex_not; [|own]. intros _.
    destruct o; cbn [sign_text app].
    - destruct w as [|y w]; [reflexivity|]. unfold unsigned in Hw. cbn in Hw. apply orb_false_iff in Hw as [H1 H2].
      cbn. unfold ch in *. now rewrite H1, H2.
    - destruct w as [|y w]; [reflexivity|]. unfold unsigned in Hw. cbn in Hw. apply orb_false_iff in Hw as [H1 H2].
      cbn. unfold ch in *. now rewrite H2.
    - destruct w as [|y w]; [reflexivity|]. unfold unsigned in Hw. cbn in Hw. apply orb_false_iff in Hw as [H1 H2].
      cbn. unfold ch in *. now rewrite H1.
  Qed.
  Lemma sign_means h st a t yes no o w m : shows h st a t -> lit yes <> lit no ->
    pick [yes] (t_kids t) = pick [yes] (sign_kids (lit yes) (lit no) o w) -> pick [no] (t_kids t) = pick [no] (sign_kids (lit yes) (lit no) o w) ->
    with_sign st a yes no m (signed o m).
  Proof.
    intros Ha Hne Hy Hn. assert (R : forall x : str, str_eqb x x = true) by (intros x; now apply str_eqb_eq).
    assert (N1 : str_eqb (lit yes) (lit no) = false) by (now apply str_eqb_neq).
    assert (N2 : str_eqb (lit no) (lit yes) = false) by (apply str_eqb_neq; congruence).
    destruct o; cbn [sign_kids pick t_name existsb signed] in *; rewrite ?R, ?N1, ?N2 in Hy; rewrite ?R, ?N1, ?N2 in Hn; cbn [orb] in Hy, Hn.
    - apply ws_none; eapply none_of; eauto.
    - destruct (first_of _ _ _ _ _ _ Ha Hy) as (k & Hk & _). eapply ws_opt; eauto.
    - destruct (first_of _ _ _ _ _ _ Ha Hn) as (k & Hk & _). eapply ws_not; eauto. eapply none_of; eauto.
  Qed.

  Lemma named_core name k : core_fault fault_of k = None -> name <> [] -> with_name name (core_matcher meaning [] k) (core_matcher meaning name k).
  Proof.
    intros Hk Hn. right. split; [exact Hn|]. destruct name as [|x name]; [congruence|]. destruct k as [| | |? ? []| |]; try reflexivity; try discriminate.
  Qed.

  (* what may follow a name or a regular expression *)
  Definition core_ends (k : core pat) (r : str) : Prop :=
    match k with KName _ => starts_not id_char r | KRegex _ _ _ => starts_not flag_char r | _ => True end.
  Definition core_start (t : str) : Prop := exists x u, t = x :: u /\ 33 <= N_of_ascii x < 128 /\ x <> "?"%char /\ x <> "!"%char.
  Definition reads_core (k : core pat) (t : str) : Prop :=
    core_start t /\ forall r, core_ends k r ->
    exists x, sees (ScriptMatcher E) (t ++ r) (Some (FTree x)) /\ t_rest x = r /\ In (t_name x) (map lit cores) /\
      core_as x k /\ quiet x = true.
  Definition def_fate (st : state) (a : addr) (name : str) (o i : sign) (k : core pat) (l : list (str * str)) (q : repetition) : Prop :=
    match definition_fault k q with None => def_means E st a name (defined name o i k l q) | Some f => def_fails E st a f end.
  (* what may follow a definition *)
  Definition def_ends (r : str) : Prop := ~ has_prefix (lit "*") r /\ ~ has_prefix (lit "+") r /\ ~ has_prefix (lit "{") r.
  Definition reads_def (o i : sign) (k : core pat) (l : list (str * str)) (q : repetition) (t : str) : Prop :=
    (exists u, t = sign_text o ++ lit "<" ++ u) /\ forall r, def_ends r ->
    exists x, sees (ScriptPatternDefinition E) (t ++ r) (Some (FTree x)) /\ t_rest x = r /\ t_name x = lit "PatternDefinition" /\
      (forall h st a name, shows h st a x -> def_fate st a name o i k l q) /\ quiet x = true.

  Lemma lit_inj a b : lit a = lit b -> a = b.
  Proof.
    unfold lit. intros H. rewrite <- (String.string_of_list_ascii_of_string a), H. apply String.string_of_list_ascii_of_string.
  Qed.
  Lemma core_solid t r : core_start t -> solid (t ++ r).
  Proof. intros (x & u & -> & H & _). cbn. exact H. Qed.
  Lemma core_unsigned b t r : blank b -> core_start t -> unsigned (b ++ t ++ r).
  Proof.
    intros Hb (x & u & -> & _ & H1 & H2). destruct Hb as [|y b Hy _].
    - cbn. apply orb_false_iff. split; apply ch_false; auto.
    - cbn. unfold ch. unfold blank_char, code in Hy. apply orb_false_iff. split; apply N.eqb_neq; intros H; cbn in H; lia.
  Qed.
  Lemma names_apart base names t : In (t_name t) (map lit base) -> forallb (fun n => negb (existsb (String.eqb n) base)) names = true ->
    pick names [t] = None.
  Proof.
    intros Hin Hd. cbn [pick]. destruct (existsb _ names) eqn:He; [|reflexivity]. exfalso.
    apply existsb_exists in He as (n & Hn & He). apply str_eqb_eq in He. rewrite He in Hin.
    rewrite forallb_forall in Hd. specialize (Hd n Hn). apply negb_true_iff in Hd.
    apply in_map_iff in Hin as (n' & Hl & Hin). apply lit_inj in Hl. subst n'.
    enough (existsb (String.eqb n) base = true) by congruence. apply existsb_exists. exists n. split; [exact Hin|apply String.eqb_refl].
  Qed.
  Lemma named_in names t : In (t_name t) (map lit names) -> pick names [t] = Some t.
  Proof.
    intros H. cbn [pick]. apply in_map_iff in H as (n & H & Hin).
    assert (He : existsb (fun n => str_eqb (t_name t) (lit n)) names = true).
    { apply existsb_exists. exists n. split; [exact Hin|]. rewrite <- H. now apply str_eqb_eq. }
    now rewrite He.
  Qed.
  Lemma in_named names t : pick names [t] = Some t -> In (t_name t) (map lit names).
  Proof.
    cbn [pick]. destruct (existsb _ names) eqn:He; [|discriminate]. intros _.
    apply existsb_exists in He as (n & Hn & He). apply str_eqb_eq in He. rewrite He. now apply in_map.
  Qed.

  Definition attr_kids (l' l : list (str * str)) (ak : list tree) : Prop :=
    (l = [] /\ ak = []) \/ exists ts rest, l <> [] /\ ak = [Tr "Attributes" no_attrs ts rest] /\ attr_trees l' l ts.
  Lemma step_attrs l' l tl rest : attrs_text l' l tl -> starts_not (attr_char E) rest -> solid rest -> attrs_end rest ->
    exists ak, attr_kids l' l ak /\
      forall ms ts x, walk ms (ts ++ ak) rest x -> walk (ScriptAttributes E :: ms) ts (tl ++ rest) x.
  Proof.
    intros Ht Hr Hs Hcl. destruct l' as [|p l'].
    - inversion Ht; subst. exists []. split; [now left|]. intros ms ts x Hw. rewrite app_nil_r in Hw. cbn [app].
      eapply wk_stay; [|exact Hw]. now apply sees_attrs_none.
    - destruct (sees_attrs _ _ _ rest Ht ltac:(discriminate) Hr Hs Hcl) as (ts' & H1 & H2). eexists. split.
      + right. eexists ts', rest. split; [|split; [reflexivity|exact H2]]. inversion Ht; subst. discriminate.
      + intros ms ts x Hw. eapply step_tree; [reflexivity|exact H1| |exact Hw].
        inversion Ht as [|n v raw b1 b2 b3 l0 l0' t0 Hn]; subst. destruct (attr_name_in n Hn) as [N1 _]. pose proof (slen_pos _ N1). shorter.
  Qed.
  Lemma attr_kids_pick l' l ak names : attr_kids l' l ak -> existsb (String.eqb "Attributes") names = false -> pick names ak = None.
  Proof.
    intros [[_ ->]|(ts & rest & _ & -> & _)] H; [reflexivity|]. apply (names_apart ["Attributes"]%string); [now left|].
    apply forallb_forall. intros n Hn. apply negb_true_iff. cbn. rewrite orb_false_r. apply String.eqb_neq. intros ->.
    enough (existsb (String.eqb "Attributes") names = true) by congruence. apply existsb_exists. exists "Attributes"%string. auto.
  Qed.
  Lemma latest_set (l acc : list (str * str)) : fold_left (fun acc p => assoc_set (fst p) (snd p) acc) l acc =
    fold_left (fun acc p => p :: filter (fun q => negb (str_eqb (fst p) (fst q))) acc) l acc.
  Proof. revert acc. induction l as [|[n v] l IH]; intros acc; [reflexivity|]. apply IH. Qed.
  Lemma attrs_given h st a t l' l ak m : shows h st a t -> pick ["Attributes"] (t_kids t) = pick ["Attributes"] ak -> attr_kids l' l ak ->
    with_attrs st a m (attributed l m).
  Proof.
    intros Ha Hp [[-> ->]|(ts & rest & Hl & -> & Ht)].
    - cbn. apply wa_none. eapply none_of; eauto.
    - destruct (first_of _ _ _ _ _ _ Ha Hp) as (k & Hk & Hs). apply shown_kids in Hs. cbn [t_kids] in Hs.
      replace (attributed l m) with (MMap m (MapAttrs (latest l))) by (destruct l; [congruence|reflexivity]).
      eapply wa_some; [exact Hk| |].
      + destruct Ht; [congruence|]. apply shown_cons in Hs as (k1 & l1 & -> & _). discriminate.
      + unfold latest. rewrite <- latest_set. exact (attrs_mean _ _ _ _ _ Ht _ [] Hs).
  Qed.

  Definition repeat_kids (q : repetition) (rk : list tree) : Prop :=
    (bounds q = None /\ rk = []) \/
    exists x lo hi, bounds q = Some (lo, hi) /\ rk = [x] /\ In (t_name x) (map lit repeats) /\ (repeat_as x q /\ quiet x = true).
  Lemma step_repeat q t r : repeat_text q t -> def_ends r ->
    exists rk, repeat_kids q rk /\
      forall ms ts x, walk ms (ts ++ rk) r x -> walk (MOptional (ScriptRepeatSpecifier E) :: ms) ts (t ++ r) x.
  Proof.
    intros Ht (R1 & R2 & R3). destruct (bounds q) as [[lo hi]|] eqn:Hb.
    - destruct (sees_repeat q t r Ht lo hi Hb) as ([n i k r'] & H1 & H2 & H3 & H4 & H5). cbn [t_rest] in H2. subst r'.
      exists [Tr n i k r]. split; [right; exists (Tr n i k r), lo, hi; split; [exact Hb|split; [reflexivity|split; [now apply in_named|exact H4]]]|].
      intros ms ts x Hw. eapply step_tree; [reflexivity|apply opt; exact H1|exact H5|exact Hw].
    - exists []. split; [now left|]. assert (t = []) by (destruct Ht; try discriminate; reflexivity). subst t.
      intros ms ts x Hw. rewrite app_nil_r in Hw. cbn [app]. eapply wk_stay; [|exact Hw]. apply opt_not. now apply sees_repeat_not.
  Qed.
  Lemma repeat_kids_pick q rk names : repeat_kids q rk -> forallb (fun n => negb (existsb (String.eqb n) repeats)) names = true -> pick names rk = None.
  Proof.
    intros [[_ ->]|(x & lo & hi & _ & -> & H & _)] Hn; [reflexivity|]. now apply (names_apart repeats).
  Qed.
  Lemma repeat_given h st a t q rk : shows h st a t -> pick repeats (t_kids t) = pick repeats rk -> repeat_kids q rk ->
    match repetition_fault q with
    | None => forall m, with_repeat st a m (repeated q m)
    | Some f => exists k, first_kid st a repeats k /\ repeat_fails st k f
    end.
  Proof.
    intros Ha Hp [[Hb ->]|(x & lo & hi & Hb & -> & Hn & Hx & _)].
    - destruct q; try discriminate. intros m. apply wr_none. eapply none_of; eauto.
    - rewrite named_in in Hp by exact Hn. destruct (first_of _ _ _ _ _ _ Ha Hp) as (k & Hk & Hs).
      pose proof (Hx _ _ _ Hs) as Hf. unfold repeat_fate in Hf. destruct (repetition_fault q); [eauto|].
      intros m. destruct Hf as (lo' & hi' & Hb' & Hf). unfold repeated. rewrite Hb'. eapply wr_some; [exact Hk|exact Hf].
  Qed.

  Lemma repeat_quiet q rk : repeat_kids q rk -> forallb quiet rk = true.
  Proof. intros [[_ ->]|(x & lo & hi & _ & -> & _ & _ & H)]; [reflexivity|]. cbn. now rewrite H. Qed.
  Lemma attr_quiet l' l ak : attr_kids l' l ak -> forallb quiet ak = true.
  Proof.
    intros [[_ ->]|(ts & rest & _ & -> & H)]; [reflexivity|]. cbn. rewrite andb_true_r. clear -H. induction H; [reflexivity|]. cbn. exact IHattr_trees.
  Qed.

  Lemma keeps_attrs l : keeps (set_attrs l).
  Proof.
    unfold set_attrs. intros t. revert t. induction l as [|p l IH]; intros t; [repeat split|]. cbn [fold_left].
    destruct (IH (set_attr (snd (fst p)) (snd p) t)) as (H1 & H2 & H3 & H4 & H5 & H6 & H7). repeat split; assumption.
  Qed.
  Lemma shown_pairs h st l l' ts : attr_trees l l' ts -> forall ads, shows_all P h st ads ts -> exists ps, attr_pairs st ads = Val ps.
  Proof.
    induction 1 as [|n v raw l l' ts w i r w1 rest Hts IH Hi Hc Hpast]; intros ads Hs.
    - inversion Hs; subst. now exists [].
    - apply shown_cons in Hs as (a & ads' & -> & Ha & Hs). apply shown_kids in Ha. cbn [t_kids] in Ha.
      apply shown_cons in Ha as (k & l1 & Hk & Hk1 & Ha). apply shown_cons in Ha as (k2 & l2 & -> & Hk2 & _).
      destruct (IH _ Hs) as (ps & Hps). cbn [attr_pairs]. rewrite Hk, Hps. cbn. eauto.
  Qed.
  Lemma shown_attributes h st a t l' l ak : shows h st a t -> pick ["Attributes"] (t_kids t) = pick ["Attributes"] ak ->
    attr_kids l' l ak -> exists ps, attributes_of st a = Val ps.
  Proof.
    intros Ha Hp Hk. unfold attributes_of. destruct Hk as [[-> ->]|(ts & rest & Hl & -> & Ht)].
    - rewrite (proj2 (child_none st a "Attributes")); [now exists []|].
      eapply none_of; eauto.
    - destruct (first_of _ _ _ _ _ _ Ha Hp) as (k & Hk & Hs). rewrite (proj2 (child_some st a "Attributes" k) Hk).
      apply shown_kids in Hs. now apply (shown_pairs h st l' l ts Ht).
  Qed.

  Lemma def_read o i k l l' q b1 tk b2 tl tr : blank b1 -> reads_core k tk -> blank b2 -> attrs_text l' l tl ->
    separated k l b2 -> repeat_text q tr ->
    reads_def o i k l q (sign_text o ++ lit "<" ++ sign_text i ++ b1 ++ tk ++ b2 ++ tl ++ lit ">" ++ tr).
  Proof.
    intros Hb1 [Hst Hk] Hb2 Hl Hsep Hq. split; [eauto|]. intros r Hr. rewrite <- !app_assoc.
    set (w6 := lit ">" ++ tr ++ r).
    destruct (step_repeat q tr r Hq Hr) as (rk & Hrk & Srk).
    destruct (step_attrs l' l tl w6 Hl ltac:(reflexivity) ltac:(vis) ltac:(right; eexists; reflexivity)) as (ak & Hak & Sak).
    destruct (Hk (b2 ++ tl ++ w6)) as ([cn ci ck cr] & C1 & C2 & C3 & C4 & C5).
    { assert (Hend : forall p : N -> bool, (forall x, blank_char x -> p (N_of_ascii x) = false) -> p 62 = false ->
        (l <> [] -> b2 <> []) -> starts_not p (b2 ++ tl ++ w6)).
      { intros p H1 H2 H3. destruct Hb2 as [|x b Hx _].
        - assert (l = []) by (destruct l; [reflexivity|exfalso; apply H3; [discriminate|reflexivity]]). subst l.
          inversion Hl; subst. exact H2.
        - cbn. now apply H1. }
      destruct k; cbn; auto; apply Hend; try reflexivity; try (destruct l; [congruence|intros _; exact Hsep]).
      - intros x Hx. unfold blank_char, code in Hx. apply not_true_is_false. unfold id_char, id_start, rng, ch.
        rewrite !orb_true_iff, !andb_true_iff, !N.leb_le, !N.eqb_eq. cbn. lia.
      - intros x Hx. unfold blank_char, code in Hx. apply not_true_is_false. unfold flag_char, rng, ch.
        rewrite !orb_true_iff, !N.eqb_eq. cbn. lia. }
    cbn [t_rest] in C2. subst cr.
    set (ok := sign_kids "OuterOptionalModifier" "OuterNotModifier" o (lit "<" ++ sign_text i ++ b1 ++ tk ++ b2 ++ tl ++ w6)).
    set (ik := sign_kids "InnerOptionalModifier" "InnerNotModifier" i (b1 ++ tk ++ b2 ++ tl ++ w6)).
    set (ct := Tr cn ci ck (b2 ++ tl ++ w6)) in *.
    set (kids := (((ok ++ ik) ++ [ct]) ++ ak) ++ rk).
    assert (Hraw : sees (ProgramN "PatternDefinition" [
          AssertIf (Matches_ re_both) msg_both;
          MOptional (Switch_ [EqualsN "OuterOptionalModifier" "?"; EqualsN "OuterNotModifier" "!"]);
          MDiscard (Equals_ "<");
          AssertIf (Matches_ re_both) msg_both;
          MOptional (Switch_ [EqualsN "InnerOptionalModifier" "?"; EqualsN "InnerNotModifier" "!"]);
          ScriptWSN0 E;
          ScriptMatcher E;
          ScriptWSN0 E;
          ScriptAttributes E;
          MDiscard (Equals_ ">");
          MOptional (ScriptRepeatSpecifier E)]) (sign_text o ++ lit "<" ++ sign_text i ++ b1 ++ tk ++ b2 ++ tl ++ w6)
      (Some (FTree (Tr "PatternDefinition" no_attrs kids r)))).
    { apply (sees_prog _ _ _ kids r r); [own| |].
      2: { unfold kids. intros H. apply app_eq_nil in H as [H _]. apply app_eq_nil in H as [H _].
           apply app_eq_nil in H as [_ H]. discriminate. }
      apply step_both; [reflexivity|]. apply step_sign; [split; discriminate|split; discriminate|reflexivity|].
      eapply step_skip; [reflexivity|apply sees_lit; discriminate|].
      assert (Hu : unsigned (b1 ++ tk ++ b2 ++ tl ++ w6)) by now apply core_unsigned.
      apply step_both; [exact Hu|]. apply step_sign; [split; discriminate|split; discriminate|exact Hu|].
      eapply step_skip; [reflexivity|apply sees_wsn; [exact Hb1|now apply core_solid]|].
      eapply step_tree; [reflexivity|exact C1| |].
      { destruct Hst as (x & u & -> & _). shorter. }
      eapply step_skip; [reflexivity|apply sees_wsn; [exact Hb2|]|].
      { destruct Hl as [|n v raw c1 c2 c3 l0 l0' t0 Hn]; [vis|]. rewrite <- app_assoc. now apply attr_solid. }
      apply Sak. eapply step_skip; [reflexivity|apply sees_lit; discriminate|].
      apply Srk. apply wk_nil. }
    assert (Hat : pick ["Attributes"] kids = pick ["Attributes"] ak).
    { unfold kids. rewrite !pick_app. rewrite (names_apart cores _ ct C3) by reflexivity.
      rewrite (repeat_kids_pick q rk) by (auto; reflexivity). destruct o, i; cbn; destruct (pick _ ak); reflexivity. }
    exists (Tr "PatternDefinition" no_info kids r). split; [|split; [reflexivity|split; [reflexivity|split]]].
    - eapply sees_map; [exact Hraw|reflexivity|]. intros h st a c Ha.
      destruct (shown_attributes _ _ _ _ _ _ _ Ha Hat Hak) as (ps & Hps). eexists. cbn [map_ok]. rewrite Hps. split; [reflexivity|].
      split; [reflexivity|]. eapply shows_modified; [exact Ha|apply keeps_attrs|]. repeat split.
    - intros h st a name Ha.
      assert (Hck : pick cores kids = Some ct).
      { unfold kids. rewrite !pick_app. rewrite (named_in cores ct C3). destruct o, i; reflexivity. }
      destruct (first_of _ _ _ _ _ _ Ha Hck) as (ka & Hka & Hks).
      assert (Hrest : forall n, forallb (fun n => negb (existsb (String.eqb n) cores)) [n] = true ->
        existsb (String.eqb "Attributes") [n] = false -> forallb (fun n => negb (existsb (String.eqb n) repeats)) [n] = true ->
        pick [n] kids = pick [n] (ok ++ ik)).
      { intros n N1 N2 N3. unfold kids. rewrite (pick_app _ _ rk), (pick_app _ _ ak), (pick_app _ _ [ct]).
        rewrite (names_apart cores _ ct C3 N1), (attr_kids_pick l' l ak _ Hak N2), (repeat_kids_pick q rk _ Hrk N3).
        destruct (pick [n] (ok ++ ik)); reflexivity. }
      assert (Hpk : forall n, forallb (fun n => negb (existsb (String.eqb n) cores)) [n] = true ->
        existsb (String.eqb "Attributes") [n] = false -> forallb (fun n => negb (existsb (String.eqb n) repeats)) [n] = true ->
        pick [n] ok = None -> pick [n] kids = pick [n] ik).
      { intros n N1 N2 N3 N4. now rewrite (Hrest n N1 N2 N3), pick_app, N4. }
      assert (Hpo : forall n, forallb (fun n => negb (existsb (String.eqb n) cores)) [n] = true ->
        existsb (String.eqb "Attributes") [n] = false -> forallb (fun n => negb (existsb (String.eqb n) repeats)) [n] = true ->
        pick [n] ik = None -> pick [n] kids = pick [n] ok).
      { intros n N1 N2 N3 N4. rewrite (Hrest n N1 N2 N3), pick_app, N4. now destruct (pick [n] ok). }
      assert (Hrp : pick repeats (t_kids (Tr "PatternDefinition" no_info kids r)) = pick repeats rk).
      { cbn [t_kids]. unfold kids. rewrite !pick_app.
        rewrite (names_apart cores _ ct C3) by reflexivity. rewrite (attr_kids_pick l' l ak) by (auto; reflexivity).
        destruct o, i; reflexivity. }
      pose proof (repeat_given _ _ _ _ _ _ Ha Hrp Hrk) as Hrf. pose proof (C4 _ _ _ Hks) as Hcf. unfold core_fate in Hcf.
      unfold def_fate, definition_fault. cbn [first_fault].
      destruct (core_fault fault_of k) eqn:Hkf; [eapply df_core; [exact (shown_name _ _ _ _ Ha)|exact Hka|exact Hcf]|].
      destruct (repetition_fault q).
      { destruct Hrf as (rq & R1 & R2). eapply df_repeat; [exact (shown_name _ _ _ _ Ha)|exact Hka|exact Hcf| |exact R1|exact R2].
        eapply attrs_given; [exact Ha|exact Hat|exact Hak]. }
      eapply dm_layers; [exact (shown_name _ _ _ _ Ha)|exact Hka|exact Hcf| | | | |].
      + instantiate (1 := core_matcher meaning name k). destruct name; [now left|]. now apply named_core.
      + eapply attrs_given; [exact Ha|exact Hat|exact Hak].
      + apply (sign_means _ _ _ _ _ _ i (b1 ++ tk ++ b2 ++ tl ++ w6) _ Ha); [discriminate|apply Hpk; try reflexivity; now destruct o|apply Hpk; try reflexivity; now destruct o].
      + apply Hrf.
      + apply (sign_means _ _ _ _ _ _ o (lit "<" ++ sign_text i ++ b1 ++ tk ++ b2 ++ tl ++ w6) _ Ha); [discriminate|apply Hpo; try reflexivity; now destruct i|apply Hpo; try reflexivity; now destruct i].
    - change (forallb quiet kids = true). unfold kids. rewrite !forallb_app, (repeat_quiet _ _ Hrk), (attr_quiet _ _ _ Hak).
      cbn [forallb]. rewrite C5. destruct o, i; reflexivity.
  Qed.

  (* ---------- patterns ---------- *)

  Definition pat_start (t : str) : Prop := exists x u, t = x :: u /\ In x (lit "(?!<").
  Definition pattern_fate (st : state) (a : addr) (p : pat) : Prop :=
    match fault_of p with None => pattern_means E st a (meaning p) | Some f => pattern_fails E st a f end.
  Definition means (x : tree) (p : pat) : Prop := forall h st a, shows h st a x -> pattern_fate st a p.
  Definition pattern_names : list String.string := ["PatternDefinitionCaptured"; "PatternDefinition"].
  Definition reads (p : pat) (t : str) : Prop :=
    pat_start t /\ forall r, def_ends r ->
    exists x, sees (ScriptPattern E) (t ++ r) (Some (FTree x)) /\ t_rest x = r /\ In (t_name x) (map lit pattern_names) /\
      means x p /\ quiet x = true.

  Lemma pat_solid t r : pat_start t -> solid (t ++ r).
  Proof.
    intros (x & u & -> & H). cbn in H. repeat destruct H as [H|H]; try contradiction; subst x; vis.
  Qed.
  Lemma def_start o u : exists x v, sign_text o ++ lit "<" ++ u = x :: v /\ In x (lit "?!<").
  Proof. destruct o; cbn; do 2 eexists; (split; [reflexivity|]); cbn; auto. Qed.
  Lemma blank_ends b r : blank b -> def_ends r -> def_ends (b ++ r).
  Proof.
    intros Hb Hr. destruct Hb as [|x b Hx _]; [exact Hr|]. unfold blank_char, code in Hx.
    repeat split; apply no_prefix_char; intros <-; cbn in Hx; lia.
  Qed.
  Lemma char_ends x r : x <> "*"%char -> x <> "+"%char -> x <> "{"%char -> def_ends (x :: r).
  Proof. intros. repeat split; apply no_prefix_char; congruence. Qed.

  Lemma fault_def c o i k l q : fault_of (Pat c o i k l q) = definition_fault k q.
  Proof. reflexivity. Qed.
  Lemma plain_read o i k l q t : reads_def o i k l q t -> reads (Pat Plain o i k l q) t.
  Proof.
    intros [(u & Hu) H]. split.
    - destruct (def_start o u) as (x & v & Hx & Hin). exists x, v. split; [congruence|]. cbn in *. tauto.
    - intros r Hr. destruct (H r Hr) as (x & X1 & X2 & X3 & X4 & X5). exists x. split; [|split; [exact X2|split; [|split; [|exact X5]]]].
      + apply sees_alts; [own|]. apply pk_fail; [|now apply pk_tree].
        eapply sees_prog_fail; [own|]. apply wk_fail. apply sees_lit_not. subst t. rewrite <- !app_assoc.
        destruct o; cbn [sign_text app]; now apply no_prefix_char.
      + rewrite X3. cbn. auto.
      + intros h st a Ha. pose proof (X4 _ _ _ [] Ha) as Hf. unfold def_fate in Hf. unfold pattern_fate. rewrite fault_def.
        destruct (definition_fault k q); [apply pf_plain|apply pm_plain]; auto; rewrite (shown_name _ _ _ _ Ha); exact X3.
  Qed.

  Lemma tree_step m ms ts w x e : m_consuming m = true -> sees m w (Some (FTree x)) -> slen (t_rest x) < slen w ->
    walk ms (ts ++ [x]) (t_rest x) e -> walk (m :: ms) ts w e.
  Proof. intros. eapply wk_tree; eauto. Qed.
  Lemma sign_len o u : 0 < slen (sign_text o ++ lit "<" ++ u).
  Proof. destruct o; shorter. Qed.

  Lemma captured_read o i k l q t b1 b2 : reads_def o i k l q t -> blank b1 -> blank b2 ->
    reads (Pat Captured o i k l q) (lit "(" ++ b1 ++ t ++ b2 ++ lit ")").
  Proof.
    intros [(u & Hu) H] Hb1 Hb2. split; [do 2 eexists; split; [reflexivity|]; cbn; auto|].
    intros r Hr. rewrite <- !app_assoc. destruct (def_start o u) as (y & v & Hy & Hin).
    assert (Hts : pat_start t) by (exists y, v; split; [congruence|]; cbn in *; tauto).
    destruct (H (b2 ++ lit ")" ++ r)) as (x & X1 & X2 & X3 & X4 & X5).
    { apply blank_ends; [exact Hb2|]. now apply char_ends. }
    exists (Tr "PatternDefinitionCaptured" no_attrs [x] r). split; [|split; [reflexivity|split; [cbn; auto|split; [|cbn; now rewrite X5]]]].
    - apply sees_alts; [own|]. apply pk_tree. apply (sees_prog _ _ _ [x] r r); [own| |discriminate].
      eapply step_skip; [reflexivity|apply sees_lit; discriminate|].
      eapply step_skip; [reflexivity|apply sees_wsn; [exact Hb1|now apply pat_solid]|].
      eapply wk_stay.
      { apply opt_not. subst t. rewrite <- !app_assoc. destruct o; cbn [sign_text app]; (eapply sees_prog_fail; [own|]).
        - apply wk_fail. now apply sees_lit_not, no_prefix_char.
        - eapply step_skip; [reflexivity|apply (sees_lit (lit "?")); discriminate|].
          apply wk_fail. apply sees_string_not; [split; discriminate|now apply no_prefix_char].
        - apply wk_fail. now apply sees_lit_not, no_prefix_char. }
      eapply step_skip; [reflexivity|apply (sees_wsn []); [constructor|now apply pat_solid]|].
      eapply tree_step; [reflexivity|exact X1| |].
      { rewrite X2. rewrite (slen_app t). pose proof (sign_len o u). rewrite <- Hu in *. lia. }
      rewrite X2. eapply step_skip; [reflexivity|apply sees_wsn; [exact Hb2|vis]|].
      eapply step_skip; [reflexivity|apply sees_lit; discriminate|]. apply wk_nil.
    - intros h st a Ha. pose proof (shown_kids _ _ _ _ Ha) as Hk. cbn [t_kids] in Hk.
      apply shown_cons in Hk as (d & l0 & Hkids & Hd & _).
      assert (Hno : no_kid st a ["MatcherName"]) by (eapply none_of; [exact Ha|]; cbn [t_kids pick]; now rewrite X3).
      pose proof (X4 _ _ _ [] Hd) as Hf. unfold def_fate in Hf. unfold pattern_fate. rewrite fault_def.
      destruct (definition_fault k q); [eapply pf_captured|eapply pm_captured]; eauto; exact (shown_name _ _ _ _ Ha).
  Qed.
  Lemma named_read n tn o i k l q t b1 b2 b3 : reads_def o i k l q t -> string_text n tn -> blank b1 -> blank b2 -> blank b3 ->
    reads (Pat (CapturedAs n) o i k l q) (lit "(" ++ b1 ++ lit "?" ++ tn ++ b2 ++ t ++ b3 ++ lit ")").
  Proof.
    intros [(u & Hu) H] (raw & Hraw & ->) Hb1 Hb2 Hb3. split; [do 2 eexists; split; [reflexivity|]; cbn; auto|].
    intros r Hr. rewrite <- !app_assoc. destruct (def_start o u) as (y & v & Hy & Hin).
    assert (Hts : pat_start t) by (exists y, v; split; [congruence|]; cbn in *; tauto).
    destruct (H (b3 ++ lit ")" ++ r)) as (x & X1 & X2 & X3 & X4 & X5).
    { apply blank_ends; [exact Hb3|]. now apply char_ends. }
    set (w1 := t ++ b3 ++ lit ")" ++ r) in *.
    set (nm := Tr "MatcherName" no_attrs [Tr "Name" (leaf n raw (lit "'" ++ raw ++ lit "'" ++ b2 ++ w1)) [] (b2 ++ w1)] (b2 ++ w1)).
    exists (Tr "PatternDefinitionCaptured" no_attrs [nm; x] r). split; [|split; [reflexivity|split; [cbn; auto|split; [|cbn; now rewrite X5]]]].
    - apply sees_alts; [own|]. apply pk_tree. apply (sees_prog _ _ _ [nm; x] r r); [own| |discriminate].
      eapply step_skip; [reflexivity|apply sees_lit; discriminate|].
      eapply step_skip; [reflexivity|apply sees_wsn; [exact Hb1|vis]|].
      eapply (tree_step _ _ _ _ nm); [reflexivity| | |].
      { apply opt. apply (sees_prog _ _ _ _ (b2 ++ w1) (b2 ++ w1)); [own| |discriminate].
        eapply step_skip; [reflexivity|apply sees_lit; discriminate|].
        eapply step_tree; [reflexivity|apply sees_string; [split; discriminate|exact Hraw]|shorter|apply wk_nil]. }
      { cbn [t_rest nm]. shorter. }
      cbn [t_rest nm].
      eapply step_skip; [reflexivity|apply sees_wsn; [exact Hb2|now apply pat_solid]|].
      eapply tree_step; [reflexivity|exact X1| |].
      { rewrite X2. unfold w1. rewrite (slen_app t). pose proof (sign_len o u). rewrite <- Hu in *. lia. }
      rewrite X2. eapply step_skip; [reflexivity|apply sees_wsn; [exact Hb3|vis]|].
      eapply step_skip; [reflexivity|apply sees_lit; discriminate|]. apply wk_nil.
    - intros h st a Ha. pose proof (shown_kids _ _ _ _ Ha) as Hk. cbn [t_kids] in Hk.
      apply shown_cons in Hk as (d & l0 & Hkids & Hd & Hk). apply shown_cons in Hk as (d2 & l2 & -> & Hd2 & _).
      assert (Hpm : pick ["MatcherName"] (t_kids (Tr "PatternDefinitionCaptured" no_attrs [nm; x] r)) = Some nm) by reflexivity.
      destruct (first_of _ _ _ _ _ _ Ha Hpm) as (nt & Hnt & Hsn).
      pose proof (shown_kids _ _ _ _ Hsn) as Hnk. cbn [t_kids nm] in Hnk.
      apply shown_cons in Hnk as (nk & l3 & Hnk & Hnn & _).
      pose proof (X4 _ _ _ (lit "Name") Hd2) as Hf. unfold def_fate in Hf. unfold pattern_fate. rewrite fault_def.
      destruct (definition_fault k q).
      + eapply pf_named; [exact (shown_name _ _ _ _ Ha)|exact Hnt|exact Hnk|exact Hkids|exact Hf].
      + eapply pm_named; [exact (shown_name _ _ _ _ Ha)|exact Hnt|exact Hnk|exact Hkids|].
        rewrite (shown_name _ _ _ _ Hnn). exact Hf.
  Qed.

  (* ---------- alternatives and sequences of patterns ---------- *)

  Definition kids_mean (ts : list tree) (ps : list pat) (r : str) : Prop :=
    Forall2 (fun x p => means x p) ts ps /\ Forall (fun x => follows (t_rest x) r) ts /\ forallb quiet ts = true.
  Lemma kids_spread ts ps r : kids_mean ts ps r -> forall w, exists w', spread r w ts w'.
  Proof.
    intros (_ & H & _). induction H as [|x ts Hx _ IH]; intros w; [exists w; constructor|].
    destruct (IH (t_rest x)) as (w' & Hw). exists w'. now constructor.
  Qed.
  Lemma kids_patterns h st ts ps r : kids_mean ts ps r -> forall l, shows_all P h st l ts ->
    match first_fault (map fault_of ps) with None => patterns_mean E st l (map meaning ps) | Some f => patterns_fail E st l f end.
  Proof.
    intros (H & _). induction H as [|x p ts ps Hx _ IH]; intros l Hl.
    - inversion Hl; subst. constructor.
    - apply shown_cons in Hl as (a & l' & -> & Ha & Hl). cbn [map first_fault]. pose proof (Hx _ _ _ Ha) as Hf. unfold pattern_fate in Hf.
      destruct (fault_of p); [now apply pl_here|]. specialize (IH _ Hl). destruct (first_fault _); [eapply pl_later; eauto|now constructor].
  Qed.
  Lemma kids_one x p w r : means x p /\ quiet x = true -> t_rest x = w -> follows w r -> kids_mean [x] [p] r.
  Proof. intros [H1 H] <- H2. split; [now repeat constructor|]. split; [now repeat constructor|]. cbn. now rewrite H. Qed.
  Lemma kids_more x p w ts ps r : means x p /\ quiet x = true -> t_rest x = w -> follows w r -> kids_mean ts ps r ->
    kids_mean (x :: ts) (p :: ps) r.
  Proof. intros [H1 H] <- H2 (H3 & H4 & H5). split; [now constructor|]. split; [now constructor|]. cbn. now rewrite H. Qed.
  Lemma follows_end a b : follows (a ++ b) b.
  Proof. apply follows_app. Qed.

  Definition closing (x : String.string) : matcher := Program_ [Equals_ x; MBreak ""].
  Lemma closes_here (x : String.string) r : lit x <> [] -> exists t, t_rest t = r /\ sees (closing x) (lit x ++ r) (Some (FBreak "" (FTree t))).
  Proof.
    intros Hx. eexists. split; [|apply sees_prog0_break].
    2: { eapply step_tree; [reflexivity|apply sees_equals; auto; own| |].
         - pose proof (slen_pos _ Hx). shorter.
         - apply wk_break. apply sees_break. }
    reflexivity.
  Qed.
  Lemma closes_gone (x : String.string) r : lit x <> [] -> sees (MDiscard (closing x)) (lit x ++ r) (Some (FBreak "" (FSkip r))).
  Proof.
    intros Hx. destruct (closes_here x r Hx) as (t & Ht & H). eapply sees_discard_break; try assumption; [|exact H].
    left. left. exists t. split; [now left|now rewrite Ht].
  Qed.
  Lemma closes_not (x : String.string) w : ~ has_prefix (lit x) w -> sees (closing x) w None.
  Proof.
    intros H. eapply sees_prog0_fail. apply wk_fail. apply sees_equals_not; auto. own.
  Qed.
  Lemma tree_moves t r x : pat_start t -> t_rest x = r -> slen (t_rest x) < slen (t ++ r).
  Proof. intros (y & u & -> & _) ->. shorter. Qed.
  Lemma start_not t r y : pat_start t -> ~ In y (lit "(?!<") -> ~ has_prefix [y] (t ++ r).
  Proof. intros (x & u & -> & H) Hy. apply no_prefix_char. intros ->. contradiction. Qed.

  Definition switch_pats : list matcher :=
    [ScriptWSN0 E; Switch_ [MDiscard (closing "]"); ScriptPattern E]; ScriptWSN0 E;
     MDiscard (Switch_ [Equals_ "|"; closing "]"])].
  Definition reads_alts (ps : list pat) (t : str) : Prop := forall r ts,
    exists ts', laps "Loop" switch_pats ts (t ++ lit "]" ++ r) (ts ++ ts') r /\ kids_mean ts' ps r /\ ts' <> [].

  Lemma alt_walk p t b1 b2 w ts : reads p t -> blank b1 -> blank b2 -> solid w -> def_ends w ->
    exists k, (means k p /\ quiet k = true) /\ t_rest k = b2 ++ w /\
      forall x, walk [MDiscard (Switch_ [Equals_ "|"; closing "]"])] (ts ++ [k]) w x -> walk switch_pats ts (b1 ++ t ++ b2 ++ w) x.
  Proof.
    intros [Hst Hp] Hb1 Hb2 Hw Hd. destruct (Hp (b2 ++ w)) as (k & K1 & K2 & _ & K4).
    { now apply blank_ends. }
    exists k. split; [exact K4|]. split; [exact K2|]. intros x Hx.
    eapply step_skip; [reflexivity|apply sees_wsn; [exact Hb1|now apply pat_solid]|].
    eapply (tree_step _ _ _ _ k); [reflexivity| |now apply tree_moves|].
    - apply sees_alts0. apply pk_fail; [|apply pk_tree; exact K1]. apply sees_discard_fail; try assumption.
      apply closes_not. apply start_not; [exact Hst|]. cbn. intros H. repeat destruct H as [H|H]; try discriminate; contradiction.
    - rewrite K2. eapply step_skip; [reflexivity|apply sees_wsn; [exact Hb2|exact Hw]|]. exact Hx.
  Qed.
  Lemma bar_gone r : sees (MDiscard (Switch_ [Equals_ "|"; closing "]"])) (lit "|" ++ r) (Some (FSkip r)).
  Proof.
    eapply gone. apply sees_alts0. apply pk_tree. apply sees_equals; auto; [discriminate|own].
  Qed.
  Lemma bracket_gone r : sees (MDiscard (Switch_ [Equals_ "|"; closing "]"])) (lit "]" ++ r) (Some (FBreak "" (FSkip r))).
  Proof.
    destruct (closes_here "]" r ltac:(discriminate)) as (t & Ht & H).
    eapply sees_discard_break; try assumption; [left; left; exists t; split; [now left|now rewrite Ht]|].
    apply sees_alts0. apply pk_fail; [apply sees_equals_not; auto; [now apply no_prefix_char|own]|]. now apply pk_break.
  Qed.

  Lemma alts_last p t b1 b2 : reads p t -> blank b1 -> blank b2 -> reads_alts [p] (b1 ++ t ++ b2).
  Proof.
    intros Hp H1 H2 r ts. rewrite <- !app_assoc.
    destruct (alt_walk p t b1 b2 (lit "]" ++ r) ts Hp H1 H2 ltac:(vis) ltac:(now apply char_ends)) as (k & K1 & K2 & K3).
    exists [k]. split; [|split; [|discriminate]].
    - eapply la_break; [apply K3; apply wk_break; apply bracket_gone|now left|]. constructor.
    - eapply kids_one; [exact K1|exact K2|]. rewrite app_assoc. apply follows_end.
  Qed.
  Lemma alts_bar p t b1 b2 b3 : reads p t -> blank b1 -> blank b2 -> blank b3 -> reads_alts [p] (b1 ++ t ++ b2 ++ lit "|" ++ b3).
  Proof.
    intros Hp H1 H2 H3 r ts. rewrite <- !app_assoc.
    destruct (alt_walk p t b1 b2 (lit "|" ++ b3 ++ lit "]" ++ r) ts Hp H1 H2 ltac:(vis) ltac:(now apply char_ends)) as (k & K1 & K2 & K3).
    exists [k]. split; [|split; [|discriminate]].
    - eapply la_next; [apply K3; eapply step_skip; [reflexivity|apply bar_gone|apply wk_nil]| |].
      + shorter.
      + eapply la_break; [|now left|apply pl_skip].
        eapply step_skip; [reflexivity|apply sees_wsn; [exact H3|vis]|]. apply wk_break. apply sees_alts0. apply pk_break.
        apply closes_gone. discriminate.
    - eapply kids_one; [exact K1|exact K2|]. exists (b2 ++ lit "|" ++ b3 ++ lit "]"). now rewrite <- !app_assoc.
  Qed.
  Lemma alts_more p t ps u b1 b2 : reads p t -> blank b1 -> blank b2 -> reads_alts ps u ->
    reads_alts (p :: ps) (b1 ++ t ++ b2 ++ lit "|" ++ u).
  Proof.
    intros Hp H1 H2 Hu r ts. rewrite <- !app_assoc.
    destruct (alt_walk p t b1 b2 (lit "|" ++ u ++ lit "]" ++ r) ts Hp H1 H2 ltac:(vis) ltac:(now apply char_ends)) as (k & K1 & K2 & K3).
    destruct (Hu r (ts ++ [k])) as (ts' & U1 & U2 & _).
    exists (k :: ts'). split; [|split; [|discriminate]].
    - replace (ts ++ k :: ts') with ((ts ++ [k]) ++ ts') by now rewrite <- app_assoc.
      eapply la_next; [apply K3; eapply step_skip; [reflexivity|apply bar_gone|apply wk_nil]| |exact U1]. shorter.
    - eapply kids_more; [exact K1|exact K2| |exact U2]. exists (b2 ++ lit "|" ++ u ++ lit "]"). now rewrite <- !app_assoc.
  Qed.

  Definition program_pats : list matcher :=
    [ScriptWSN0 E; ScriptPattern E; ScriptWSN0 E; MDiscard (MOptional (closing "}"))].
  Definition reads_seq (ps : list pat) (t : str) : Prop :=
    exists b t0, t = b ++ t0 /\ blank b /\ pat_start t0 /\ forall b' r ts, blank b' ->
      exists ts', laps "Loop" program_pats ts (b' ++ t0 ++ lit "}" ++ r) (ts ++ ts') r /\ kids_mean ts' ps r /\ ts' <> [].
  Lemma brace_gone r : sees (MDiscard (MOptional (closing "}"))) (lit "}" ++ r) (Some (FBreak "" (FSkip r))).
  Proof.
    destruct (closes_here "}" r ltac:(discriminate)) as (t & Ht & H).
    eapply sees_discard_break; try assumption; [left; left; exists t; split; [now left|now rewrite Ht]|]. now apply opt.
  Qed.
  Lemma no_brace w : ~ has_prefix (lit "}") w -> sees (MDiscard (MOptional (closing "}"))) w (Some (FSkip w)).
  Proof.
    intros H. eapply sees_discard with (p := FSkip w); try assumption; [right; eauto|]. apply opt_not. now apply closes_not.
  Qed.
  Lemma seq_last p t b1 b2 : reads p t -> blank b1 -> blank b2 -> reads_seq [p] (b1 ++ t ++ b2).
  Proof.
    intros [Hst Hp] H1 H2. exists b1, (t ++ b2). split; [reflexivity|]. split; [exact H1|].
    split; [destruct Hst as (x & u & -> & Hx); exists x, (u ++ b2); auto|]. intros b' r ts Hb'. rewrite <- !app_assoc.
    destruct (Hp (b2 ++ lit "}" ++ r)) as (k & K1 & K2 & _ & K4).
    { apply blank_ends; [exact H2|]. now apply char_ends. }
    exists [k]. split; [|split; [|discriminate]].
    - eapply la_break; [|now left|apply pl_skip].
      eapply step_skip; [reflexivity|apply sees_wsn; [exact Hb'|now apply pat_solid]|].
      eapply (tree_step _ _ _ _ k); [reflexivity|exact K1|now apply tree_moves|]. rewrite K2.
      eapply step_skip; [reflexivity|apply sees_wsn; [exact H2|vis]|]. apply wk_break. apply brace_gone.
    - eapply kids_one; [exact K4|exact K2|]. exists (b2 ++ lit "}"). now rewrite <- !app_assoc.
  Qed.
  Lemma seq_more p t ps u b1 : reads p t -> blank b1 -> reads_seq ps u -> reads_seq (p :: ps) (b1 ++ t ++ u).
  Proof.
    intros [Hst Hp] H1 (b & t0 & -> & Hb & Ht0 & Hu). exists b1, (t ++ b ++ t0). split; [reflexivity|]. split; [exact H1|].
    split; [destruct Hst as (x & v & -> & Hx); exists x, (v ++ b ++ t0); auto|]. intros b' r ts Hb'. rewrite <- !app_assoc.
    destruct (Hp (b ++ t0 ++ lit "}" ++ r)) as (k & K1 & K2 & _ & K4).
    { apply blank_ends; [exact Hb|]. destruct Ht0 as (x & v & -> & Hx). cbn [app]. cbn in Hx.
      apply char_ends; intros ->; repeat destruct Hx as [Hx|Hx]; try discriminate; contradiction. }
    destruct (Hu [] r (ts ++ [k])) as (ts' & U1 & U2 & _); [constructor|].
    exists (k :: ts'). split; [|split; [|discriminate]].
    - replace (ts ++ k :: ts') with ((ts ++ [k]) ++ ts') by now rewrite <- app_assoc.
      eapply la_next; [| |exact U1].
      + eapply step_skip; [reflexivity|apply sees_wsn; [exact Hb'|now apply pat_solid]|].
        eapply (tree_step _ _ _ _ k); [reflexivity|exact K1|now apply tree_moves|]. rewrite K2.
        eapply step_skip; [reflexivity|apply sees_wsn; [exact Hb|now apply pat_solid]|].
        eapply wk_stay; [apply no_brace|apply wk_nil]. apply start_not; [exact Ht0|].
        cbn. intros H. repeat destruct H as [H|H]; try discriminate; contradiction.
      + destruct Hst as (x & v & -> & _). shorter.
    - eapply kids_more; [exact K4|exact K2| |exact U2]. exists (b ++ t0 ++ lit "}"). now rewrite <- !app_assoc.
  Qed.

  (* ---------- what is between the brackets ---------- *)

  Lemma loop_kids name (start : String.string) pats t close ts r :
    lit start <> [] -> laps "Loop" pats [] (t ++ close ++ r) ts r -> ts <> [] -> (forall w, exists w', spread r w ts w') ->
    own_ok B true name (ProgramN name [MDiscard (Equals_ start); Proxy_ (Loop_ pats)]) ->
    sees (ProgramN name [MDiscard (Equals_ start); Proxy_ (Loop_ pats)]) (lit start ++ t ++ close ++ r)
      (Some (FTree (Tr name no_attrs ts r))).
  Proof.
    intros Hs Hl Ht Hsp Ho. destruct (Hsp r) as (w' & Hw').
    apply (sees_prog _ _ _ ts w' r); [exact Ho| |exact Ht].
    eapply step_skip; [reflexivity|apply sees_lit; exact Hs|].
    change (WDone ts w' r) with (WDone ([] ++ t_kids (Tr "Loop" no_attrs ts r)) w' (t_rest (Tr "Loop" no_attrs ts r))).
    apply wk_proxy_last; [reflexivity| |exact Hw'].
    eapply sees_proxy; try assumption; [constructor; exact Ht|].
    apply (sees_rounds "Loop" pats 0 false); [own|lia|exact Hl|exact Ht].
  Qed.

  Lemma text_core v t : string_text v t -> reads_core (KText v) (lit "=" ++ t).
  Proof.
    intros (raw & Hraw & ->). split; [do 2 eexists; split; [reflexivity|]; repeat split; discriminate|]. intros r _.
    rewrite <- !app_assoc. exists (text_tree v raw r). split; [|split; [reflexivity|split; [cbn; auto|split; [now apply text_means|reflexivity]]]].
    apply sees_alts; [own|]. apply pk_fail; [now apply sees_re_not, no_prefix_char|]. apply pk_tree. now apply sees_text.
  Qed.
  Lemma name_core id : identifier id -> reads_core (KName id) id.
  Proof.
    intros Hi. pose proof Hi as (x & u & Hu & Hx & _).
    assert (Hx' : 33 <= N_of_ascii x < 128 /\ forall y, In y (lit "/=%?!") -> x <> y).
    { unfold id_first, letter, code in Hx. split; [destruct Hx as [[Hx|Hx]|[->| ->]]; cbn in *; lia|].
      intros y Hy ->. cbn in Hy. repeat destruct Hy as [Hy|Hy]; try contradiction; subst y; cbn in Hx; intuition (try discriminate; lia). }
    destruct Hx' as [X1 X2]. split.
    - exists x, u. split; [exact Hu|]. split; [exact X1|]. split; apply X2; cbn; auto 10.
    - intros r Hr. exists (name_tree id r). split; [|split; [reflexivity|split; [cbn; auto|split; [now apply name_means|reflexivity]]]].
      apply sees_alts; [own|].
      apply pk_fail; [apply sees_re_not; subst id; apply no_prefix_char; apply not_eq_sym, X2; cbn; auto 10|].
      apply pk_fail; [apply sees_text_not; subst id; apply no_prefix_char; apply not_eq_sym, X2; cbn; auto 10|].
      apply pk_fail; [apply sees_seq_not; subst id; cbn; apply ch_false; apply not_eq_sym, X2; cbn; auto 10|].
      apply pk_tree. now apply sees_name.
  Qed.
  Lemma sequence_core a b x ta tb tx b1 b2 b3 b4 b5 :
      string_text a ta -> string_text b tb -> string_text x tx ->
      blank b1 -> blank b2 -> blank b3 -> blank b4 -> blank b5 ->
      reads_core (KSequence a b x) (lit "%" ++ b1 ++ ta ++ b2 ++ lit "," ++ b3 ++ tb ++ b4 ++ lit "," ++ b5 ++ tx).
  Proof.
    intros (ra & Hra & ->) (rb & Hrb & ->) (rx & Hrx & ->) H1 H2 H3 H4 H5.
    split; [do 2 eexists; split; [reflexivity|]; repeat split; discriminate|]. intros r _.
    rewrite <- !app_assoc. exists (seq_tree a b x ra rb rx b2 b3 b4 b5 r). split; [|split; [reflexivity|split; [cbn; auto|split; [now apply seq_means|reflexivity]]]].
    apply sees_alts; [own|]. apply pk_fail; [now apply sees_re_not, no_prefix_char|].
    apply pk_fail; [now apply sees_text_not, no_prefix_char|]. apply pk_tree. now apply sees_seq.
  Qed.
  Lemma regex_core body flags : regex_body body -> regex_flags flags ->
      reads_core (KRegex body flags (e_regex E (regex_source body flags))) (lit "/" ++ body ++ lit "/" ++ flags).
  Proof.
    intros Hbody Hf. split; [do 2 eexists; split; [reflexivity|]; repeat split; discriminate|]. intros r Hr.
    rewrite <- !app_assoc. destruct (sees_re body flags r Hbody Hf Hr) as (parts & H1 & H2 & H3).
    eexists. split; [|split; [|split; [|split; [eapply re_means; exact H2|]]]].
    - apply sees_alts; [own|]. apply pk_tree. exact H1.
    - reflexivity.
    - cbn. auto.
    - cbn [quiet forallb]. rewrite forallb_app, H3, end_quiet. reflexivity.
  Qed.
  Lemma ref_pick (name : String.string) m x w t : In (lit name, VMatcher m) B -> sees m (x :: w) (Some (FTree t)) ->
    In x (lit "[{") ->
    (name = "SwitchMatcher"%string \/ name = "ProgramMatcher"%string /\ sees (Ref_ "SwitchMatcher") (x :: w) None) ->
    sees (ScriptMatcher E) (x :: w) (Some (FTree t)).
  Proof.
    intros Hin Hm Hw Hn.
    assert (Hx : (x <> "/" /\ x <> "=" /\ x <> "%")%char /\ id_start (N_of_ascii x) = false).
    { destruct Hw as [<-|[<-|[]]]; repeat split; discriminate. }
    destruct Hx as [(X1 & X2 & X3) X4].
    apply sees_alts; [own|]. apply pk_fail; [apply sees_re_not; apply no_prefix_char; congruence|].
    apply pk_fail; [apply sees_text_not; apply no_prefix_char; congruence|].
    apply pk_fail; [apply sees_seq_not; cbn; apply ch_false; congruence|].
    apply pk_fail; [apply sees_name_not; exact X4|].
    destruct Hn as [->|[-> Hs]].
    - apply pk_tree. eapply sees_ref; try eassumption.
    - apply pk_fail; [exact Hs|]. apply pk_tree. eapply sees_ref; try eassumption.
  Qed.
  Lemma switch_core ps t : reads_alts ps t -> reads_core (KSwitch ps) (lit "[" ++ t ++ lit "]").
  Proof.
    intros Ht. split; [do 2 eexists; split; [reflexivity|]; repeat split; discriminate|]. intros r _. rewrite <- !app_assoc.
    destruct (Ht r []) as (ts & H1 & H2 & H3). exists (Tr "SwitchMatcher" no_attrs ts r).
    split; [|split; [reflexivity|split; [cbn; auto 10|split; [|exact (proj2 (proj2 H2))]]]].
    - apply (ref_pick "SwitchMatcher" (ScriptSwitchMatcher E)); [now left| |cbn; auto|now left].
      apply (loop_kids _ "[" switch_pats t (lit "]")); [discriminate|exact H1|exact H3|exact (kids_spread _ _ _ H2)|own].
    - intros h st a Ha. pose proof (shown_name _ _ _ _ Ha) as Hn. apply shown_kids in Ha. cbn [t_kids t_name] in *.
      pose proof (kids_patterns _ _ _ _ _ H2 _ Ha) as Hf. unfold core_fate. cbn [core_fault].
      destruct (first_fault _); [apply cf_patterns; auto|].
      apply cm_switch; [exact Hn| |exact Hf].
      destruct ts; [congruence|]. apply shown_cons in Ha as (k & l & -> & _). discriminate.
  Qed.
  Lemma program_core ps t : reads_seq ps t -> reads_core (KProgram ps) (lit "{" ++ t ++ lit "}").
  Proof.
    intros (b & t0 & -> & Hb & _ & Ht). split; [do 2 eexists; split; [reflexivity|]; repeat split; discriminate|]. intros r _. rewrite <- !app_assoc.
    destruct (Ht b r [] Hb) as (ts & H1 & H2 & H3). exists (Tr "ProgramMatcher" no_attrs ts r).
    split; [|split; [reflexivity|split; [cbn; auto 10|split; [|exact (proj2 (proj2 H2))]]]].
    - apply (ref_pick "ProgramMatcher" (ScriptProgramMatcher E)); [right; now left| |cbn; auto|right; split; [reflexivity|]].
      + rewrite (app_assoc b). rewrite (app_assoc b) in H1.
        apply (loop_kids _ "{" program_pats (b ++ t0) (lit "}")); [discriminate|exact H1|exact H3|exact (kids_spread _ _ _ H2)|own].
      + eapply sees_ref; try eassumption; [now left|]. eapply sees_prog_fail; [own|]. apply wk_fail.
        now apply sees_lit_not, no_prefix_char.
    - intros h st a Ha. pose proof (shown_name _ _ _ _ Ha) as Hn. apply shown_kids in Ha. cbn [t_kids t_name] in *.
      pose proof (kids_patterns _ _ _ _ _ H2 _ Ha) as Hf. unfold core_fate. cbn [core_fault].
      destruct (first_fault _); [apply cf_patterns; auto|].
      apply cm_program; [exact Hn| |exact Hf].
      destruct ts; [congruence|]. apply shown_cons in Ha as (k & l & -> & _). discriminate.
  Qed.

  Theorem written_patterns :
    (forall p t, writes E p t -> reads p t) /\
    (forall o i k l r t, writes_bare E o i k l r t -> reads_def o i k l r t) /\
    (forall k t, writes_core E k t -> reads_core k t) /\
    (forall ps t, writes_alternatives E ps t -> reads_alts ps t) /\
    (forall ps t, writes_sequence E ps t -> reads_seq ps t).
  Proof.
    apply (writes_mutind E reads reads_def reads_core reads_alts reads_seq); intros.
    - now apply plain_read.
    - now apply captured_read.
    - now apply named_read.
    - eapply def_read; eassumption.
    - now apply text_core.
    - now apply name_core.
    - now apply sequence_core.
    - now apply regex_core.
    - now apply switch_core.
    - now apply program_core.
    - now apply alts_last.
    - now apply alts_bar.
    - now apply alts_more.
    - now apply seq_last.
    - now apply seq_more.
  Qed.
End Syntax.
