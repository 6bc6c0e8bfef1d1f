(* What the grammar of scripts does with written scripts, and what is compiled
   from them. *)
From Verif Require Import TokenizeProofs.
From Verif Require Export SyntaxProofs.
From Verif Require Import ScriptProofs FaultProofs.
Open Scope string_scope.
Open Scope list_scope.
Open Scope N_scope.

Section ScriptText.
  Variables (E : env) (P : parser) (s : sid).
  Hypothesis HE : tame E.
  Hypothesis Hascii : ascii_only (p_src P).
  Hypothesis Hsmall : slen (p_src P) < isize_bound.
  Notation B := (script_known E).
  Notation sees := (sees E P s B).
  Notation walk := (walk E P s B).
  Notation laps := (laps E P s B).
  Notation picks := (picks E P s B).
  Notation shows := (shows P).
  Local Notation own_fresh := (SyntaxProofs.own_fresh E) (only parsing).
  Local Notation sees_regex := (SyntaxProofs.sees_regex E P s Hascii Hsmall) (only parsing).
  Local Notation sees_regex_not := (SyntaxProofs.sees_regex_not E P s Hascii Hsmall) (only parsing).
  Local Notation gone := (SyntaxProofs.gone E P s Hsmall) (only parsing).
  Local Notation sees_gone := (SyntaxProofs.sees_gone E P s Hascii Hsmall) (only parsing).
  Local Notation sees_wsn := (SyntaxProofs.sees_wsn E P s Hascii Hsmall) (only parsing).
  Local Notation sees_lit := (SyntaxProofs.sees_lit E P s Hascii Hsmall) (only parsing).
  Local Notation sees_lit_not := (SyntaxProofs.sees_lit_not E P s Hascii Hsmall) (only parsing).
  Local Notation sees_identifier := (SyntaxProofs.sees_identifier E P s Hascii Hsmall) (only parsing).
  Local Notation sees_identifier_not := (SyntaxProofs.sees_identifier_not E P s Hascii Hsmall) (only parsing).
  Local Notation sees_string := (SyntaxProofs.sees_string E P s Hascii Hsmall) (only parsing).
  Local Notation step_tree := (SyntaxProofs.step_tree E P s) (only parsing).
  Local Notation step_skip := (SyntaxProofs.step_skip E P s) (only parsing).
  Local Notation sees_prog := (SyntaxProofs.sees_prog E P s HE Hsmall) (only parsing).
  Local Notation sees_prog_fail := (SyntaxProofs.sees_prog_fail E P s HE Hsmall) (only parsing).
  Local Notation sees_prog0_fail := (SyntaxProofs.sees_prog0_fail E P s HE Hsmall) (only parsing).
  Local Notation sees_prog0_break := (SyntaxProofs.sees_prog0_break E P s HE Hsmall) (only parsing).
  Local Notation sees_alts := (SyntaxProofs.sees_alts E P s HE Hsmall) (only parsing).
  Local Notation sees_alts0 := (SyntaxProofs.sees_alts0 E P s HE Hsmall) (only parsing).
  Local Notation sees_rounds := (SyntaxProofs.sees_rounds E P s HE Hsmall) (only parsing).
  Local Notation sees_no_rounds := (SyntaxProofs.sees_no_rounds E P s HE Hsmall) (only parsing).
  Local Notation opt := (SyntaxProofs.opt E P s) (only parsing).
  Local Notation opt_not := (SyntaxProofs.opt_not E P s Hsmall) (only parsing).
  Local Notation shown_name := (SyntaxProofs.shown_name P) (only parsing).
  Local Notation shown_kids := (SyntaxProofs.shown_kids P) (only parsing).
  Local Notation shown_text := (SyntaxProofs.shown_text P) (only parsing).
  Local Notation shown_leaf := (SyntaxProofs.shown_leaf P) (only parsing).
  Local Notation shown_cons := (SyntaxProofs.shown_cons P) (only parsing).
  Local Notation first_of := (SyntaxProofs.first_of P) (only parsing).
  Local Notation none_of := (SyntaxProofs.none_of P) (only parsing).
  Local Notation shows_modified := (SyntaxProofs.shows_modified P Hsmall) (only parsing).
  Local Notation sees_map := (SyntaxProofs.sees_map E P s) (only parsing).
  Local Notation shows_all_split := (SyntaxProofs.shows_all_split P) (only parsing).
  Local Notation attr_solid := (SyntaxProofs.attr_solid P Hsmall) (only parsing).
  Local Notation step_sign := (SyntaxProofs.step_sign E P s HE Hascii Hsmall) (only parsing).
  Local Notation step_both := (SyntaxProofs.step_both E P s Hascii Hsmall) (only parsing).
  Local Notation step_attrs := (SyntaxProofs.step_attrs E P s HE Hascii Hsmall) (only parsing).
  Local Notation means := (SyntaxProofs.means E P) (only parsing).
  Local Notation blank_ends := (SyntaxProofs.blank_ends P Hsmall) (only parsing).
  Local Notation tree_step := (SyntaxProofs.tree_step E P s) (only parsing).
  Local Notation tree_moves := (SyntaxProofs.tree_moves P Hsmall) (only parsing).
  Local Notation written_patterns := (SyntaxProofs.written_patterns E P s HE Hascii Hsmall) (only parsing).

  Ltac vis := split; [vm_compute; discriminate|reflexivity].
  Ltac shorter := rewrite ?slen_app, ?slen_cons; cbn [lit list_ascii_of_string]; rewrite ?slen_cons, ?slen_nil; try lia.

  (* ---------- pins ---------- *)

  Lemma sees_mark n w : fresh n -> sees (PinN n) w (Some FLook).
  Proof.
    intros Hn c st Hd Hc Hk Hl.
    assert (Hd0 : pins (c_off c) [] (c_off c)).
    { destruct (c_off c) as [x y]. apply (pin_start (mkR x y) [] x). apply of_same. now left. }
    destruct (pin_alone E P (FStr []) n true c s st [] (c_off c) (says_text _ _ _) Hd0) as (t & D1 & T).
    eexists _, _. split; [exact D1|]. split.
    - apply known_after; [exact Hk|]. now apply own_fresh.
    - cbn [outcome_is]. apply gv_look.
      + unfold heap_size. cbn. rewrite app_length. cbn. lia.
      + destruct T as (T & _). rewrite <- T. f_equal. unfold tok. cbn. rewrite app_nth2 by lia. now rewrite Nat.sub_diag.
  Qed.
  Lemma sees_pinned m w r : sees m w r -> sees (PinM m) w r.
  Proof.
    intros H c st Hd Hc Hk Hl.
    assert (Hd0 : pins (c_off c) [] (c_off c)).
    { destruct (c_off c) as [x y]. apply (pin_start (mkR x y) [] x). apply of_same. now left. }
    pose proof (pin_runs_inside E P m (FStr []) "Pin" false c s st [] (c_off c) (says_text _ _ _) Hd0) as Hs. cbn zeta in Hs.
    set (st0 := mkSt (st_heap st) _) in Hs.
    assert (K0 : known s B st0) by (eapply known_scopes; [|exact Hk]; reflexivity).
    destruct (H (mkCtx (c_debug c) (c_scope c) (c_stack c) (c_off c) "Pin") st0 Hd Hc K0 Hl) as (x & st' & D & K & O).
    exists x, st'. split; [|auto]. now apply (Hs (Done x st')).
  Qed.
  (* a program whose only child was looked at ahead does not match *)
  Lemma sees_ahead_break m w n : (exists t, sees m w (Some (FTree t))) \/ sees m w None ->
    sees (Program_ [PinM m; MBreak n]) w None.
  Proof.
    intros [[t Ht]|Hf].
    2: { eapply sees_prog0_fail. apply wk_fail. now apply sees_pinned. }
    intros c st Hd Hc Hk Hl. apply sees_pinned in Ht.
    set (pats := [PinM m; MBreak n]). set (i := mkPI "Program" None false false).
    set (pt := List.length (st_heap st)). set (st0 := program_start P pats i s st).
    assert (Hrs : rs (c_off c) = pos P w) by now rewrite Hc.
    assert (K0 : known s B st0) by (apply known_start; [exact Hk|own]).
    destruct (Ht (pattern_ctx c "Program" pt (pos P w)) st0 Hd) as (x & st1 & D & K & O); auto.
    { cbn. now rewrite Hc. }
    destruct x as [x|[|]]; cbn in O; try contradiction. inversion O as [a t0 Ha Hf| | | | |]; subst t0 x.
    set (t1 := adopted P pt (lowest (all_mr [])) (tok st1 a)). set (st2 := set_tok st1 a t1).
    exists (Err FFail), st2. split; [|split; [|exact Logic.I]].
    - assert (G : Does E P (MProgram pats i) c s st (Done (Err FFail) st2)); [|exact G].
      eapply (program_does E P c i s st pats Hd eq_refl eq_refl (Signal (SBreak n SNone) ([] ++ [token_piece a false t1]) (pos P w) st2)).
      + rewrite Hrs. eapply ps_next; [exact D| |].
        * apply (ct_token E P pt (rs (c_off c)) false true [] (pos P w) st1 a t1); [now inversion Ha|discriminate|reflexivity].
        * eapply ps_signal; [|exact Logic.I]. apply break_signals.
      + eapply lt_break_fail; [now apply tp_other|]. apply cl_fail. intros (_ & H & _). now apply H.
    - eapply known_scopes; [|exact K]. reflexivity.
  Qed.
  Lemma prefix_or_not v : forall w, has_prefix v w \/ ~ has_prefix v w.
  Proof.
    induction v as [|x v IH]; intros w; [left; now exists w|]. destruct w as [|y w]; [right; intros [t Ht]; discriminate|].
    destruct (Ascii.ascii_dec x y) as [<-|Hne]; [|right; intros [t Ht]; cbn in Ht; congruence].
    destruct (IH w) as [[t ->]|Hn]; [left; now exists t|]. right. intros [t Ht]. apply Hn. exists t. cbn in Ht. congruence.
  Qed.
  Lemma never_breaks w : sees (MDiscard (Program_ [PinM (Equals_ "-->"); MBreak ""])) w None.
  Proof.
    apply sees_discard_fail; try assumption. apply sees_ahead_break.
    destruct (prefix_or_not (lit "-->") w) as [[r ->]|H].
    - left. eexists. apply sees_equals; auto; [discriminate|own].
    - right. apply sees_equals_not; auto. own.
  Qed.

  (* ---------- comments ---------- *)

  Definition in_line (x : N) : bool := negb (x =? 10) && negb (x =? 13).
  Lemma comment_in c : Forall (fun x => ~ line_end x) c -> all_in in_line c.
  Proof.
    apply all_in_of. intros a H. unfold line_end, code in H. unfold in_line.
    destruct (N.eqb_spec (N_of_ascii a) 10); [tauto|]. destruct (N.eqb_spec (N_of_ascii a) 13); [tauto|]. reflexivity.
  Qed.
  Lemma line_stops u : starts_line u -> starts_not in_line u.
  Proof.
    destruct u as [|x u]; [contradiction|]. cbn. unfold line_end, code, in_line. intros [->| ->]; reflexivity.
  Qed.
  Lemma sees_comment t u : comment_text t -> starts_not in_line u ->
    sees ScriptComment (t ++ u) (Some (FTree (Tr "Comment" (leaf t t (t ++ u)) [] u))).
  Proof.
    intros (c & -> & Hc) Hu. apply sees_regex; [|discriminate|apply own_fresh; split; discriminate].
    intros _. apply alt_one. cbn [lit list_ascii_of_string app]. rewrite slen_cons. apply one_ok; [reflexivity|].
    apply (star_end in_line); [now apply comment_in|exact Hu].
  Qed.
  Lemma sees_comment_not w : ~ has_prefix (lit "#") w -> sees ScriptComment w None.
  Proof.
    intros H. apply sees_regex_not; [|apply own_fresh; split; discriminate]. intros _. apply alt_none. apply one_not.
    destruct w as [|x w]; [exact Logic.I|]. cbn. apply ch_false. intros <-. apply H. now exists w.
  Qed.
  Lemma comment_solid t u : comment_text t -> solid (t ++ u).
  Proof. intros (c & -> & _). vis. Qed.
  Lemma comment_len t u : comment_text t -> slen u < slen (t ++ u).
  Proof. intros (c & -> & _). shorter. Qed.

  (* ---------- patterns of a script ---------- *)

  Lemma no_definition w : starts_not (fun x => ch "?" x || ch "!" x || ch "<" x) w -> sees (ScriptPatternDefinition E) w None.
  Proof.
    intros H. assert (Hu : unsigned w /\ ~ has_prefix (lit "<") w).
    { destruct w as [|x w]; cbn in H |- *; [split; [exact Logic.I|intros [v Hv]; discriminate]|].
      apply orb_false_iff in H as [H1 H2]. split; [exact H1|]. intros [v Hv]. injection Hv as -> _. discriminate. }
    destruct Hu as [Hu Hn]. apply sees_map_fail; auto. eapply sees_prog_fail; [own|].
    apply (step_both Unsigned); [exact Hu|]. apply (step_sign _ _ Unsigned); [split; discriminate|split; discriminate|exact Hu|].
    apply wk_fail. now apply sees_lit_not.
  Qed.
  Lemma no_pattern w : starts_not (fun x => ch "(" x || (ch "?" x || ch "!" x || ch "<" x)) w -> sees (ScriptPattern E) w None.
  Proof.
    intros H. assert (Hn : ~ has_prefix (lit "(") w /\ starts_not (fun x => ch "?" x || ch "!" x || ch "<" x) w).
    { destruct w as [|x w]; cbn in H |- *; [split; [intros [v Hv]; discriminate|exact Logic.I]|].
      apply orb_false_iff in H as [H1 H2]. split; [|exact H2]. intros [v Hv]. injection Hv as -> _. discriminate. }
    apply sees_alts; [own|]. apply pk_fail; [|apply pk_fail; [now apply no_definition|apply pk_none]].
    eapply sees_prog_fail; [own|]. apply wk_fail. now apply sees_lit_not.
  Qed.

  Definition body_pats : list matcher := [ScriptWSN0 E; Switch_ [ScriptComment; ScriptPattern E]].
  Definition is_comment (t : tree) : Prop := t_name t = lit "Comment" /\ t_kids t = [].
  Inductive body_trees : list pat -> list tree -> Prop :=
  | by_nil : body_trees [] []
  | by_comment t ps ts : is_comment t -> body_trees ps ts -> body_trees ps (t :: ts)
  | by_pattern t p ps ts : In (t_name t) (map lit pattern_names) -> means t p -> quiet t = true -> body_trees ps ts ->
      body_trees (p :: ps) (t :: ts).

  Lemma body_ends ps u : body_text E ps u -> def_ends u.
  Proof.
    intros H. assert (G : exists b v, u = b ++ v /\ blank b /\ def_ends v).
    { destruct H as [b Hb|b c ps u Hb (c' & -> & _) _ _|b p t ps u Hb Ht _].
      - exists b, []. rewrite app_nil_r. split; [reflexivity|]. split; [exact Hb|]. repeat split; intros [v Hv]; discriminate.
      - eexists b, _. split; [reflexivity|]. split; [exact Hb|]. now apply char_ends.
      - eexists b, _. split; [reflexivity|]. split; [exact Hb|].
        destruct (proj1 written_patterns _ _ Ht) as [(x & v & -> & Hx) _]. cbn [app]. cbn in Hx.
        apply char_ends; intros ->; repeat destruct Hx as [Hx|Hx]; try discriminate; contradiction. }
    destruct G as (b & v & -> & Hb & Hv). now apply blank_ends.
  Qed.
  Lemma body_laps ps u : body_text E ps u -> forall ts, exists ts',
    laps "PatternScope" body_pats ts u (ts ++ ts') [] /\ body_trees ps ts' /\ (ts' <> [] -> 0 < slen u).
  Proof.
    induction 1 as [b Hb|b c ps u Hb Hc Hu Hbody IH|b p t ps u Hb Ht Hbody IH]; intros ts.
    - exists []. rewrite app_nil_r. split; [|split; [constructor|congruence]]. apply la_fail.
      eapply step_skip; [reflexivity| |].
      + rewrite <- (app_nil_r b). apply sees_wsn; [exact Hb|exact Logic.I].
      + apply wk_fail. apply sees_alts0. apply pk_fail; [apply sees_comment_not; intros [v Hv]; discriminate|].
        apply pk_fail; [|apply pk_none]. now apply no_pattern.
    - set (k := Tr "Comment" (leaf c c (c ++ u)) [] u).
      destruct (IH (ts ++ [k])) as (ts' & L & T & _). exists (k :: ts'). split; [|split; [now constructor|intros _]].
      2: { pose proof (comment_len c [] Hc) as Hlen. rewrite !slen_app, slen_nil in *. lia. }
      replace (ts ++ k :: ts') with ((ts ++ [k]) ++ ts') by now rewrite <- app_assoc.
      eapply la_next; [| |exact L].
      + eapply step_skip; [reflexivity|apply sees_wsn; [exact Hb|now apply comment_solid]|].
        eapply (tree_step _ _ _ _ k); [reflexivity| |now apply comment_len|apply wk_nil].
        apply sees_alts0. apply pk_tree. apply sees_comment; [exact Hc|]. destruct Hu as [->|Hu]; [exact Logic.I|now apply line_stops].
      + pose proof (comment_len c u Hc) as Hlen. rewrite slen_app in Hlen. shorter.
    - destruct (proj1 written_patterns _ _ Ht) as [Hst Hp]. destruct (Hp u (body_ends _ _ Hbody)) as (k & K1 & K2 & K3 & K4 & K5).
      destruct (IH (ts ++ [k])) as (ts' & L & T & _). exists (k :: ts'). split; [|split; [now constructor|intros _]].
      2: { destruct Hst as (x & v & -> & _). shorter. }
      replace (ts ++ k :: ts') with ((ts ++ [k]) ++ ts') by now rewrite <- app_assoc.
      eapply la_next; [| |exact L].
      + eapply step_skip; [reflexivity|apply sees_wsn; [exact Hb|now apply pat_solid]|].
        eapply (tree_step _ _ _ _ k); [reflexivity| |now apply tree_moves|rewrite K2; apply wk_nil].
        apply sees_alts0. apply pk_fail; [|now apply pk_tree].
        apply sees_comment_not. apply start_not; [exact Hst|]. cbn. intros H. repeat destruct H as [H|H]; try discriminate; contradiction.
      + destruct Hst as (x & v & -> & _). shorter.
  Qed.

  Lemma sees_patterns ps u : body_text E ps u ->
    (exists ts, ts <> [] /\ body_trees ps ts /\ 0 < slen u /\
       sees (ScriptPatternScope E) u (Some (FTree (Tr "PatternScope" no_attrs ts [])))) \/
    (ps = [] /\ sees (ScriptPatternScope E) u None).
  Proof.
    intros H. destruct (body_laps ps u H []) as (ts & L & T & Ts). cbn [app] in L. destruct ts as [|t ts].
    - right. split; [now inversion T|]. apply sees_map_fail; auto.
      apply (sees_no_rounds "PatternScope" body_pats 1 true _ []); [own|reflexivity|exact L].
    - left. exists (t :: ts). split; [discriminate|]. split; [exact T|]. split; [now apply Ts|].
      eapply sees_map; [apply (sees_rounds "PatternScope" body_pats 1 true u (t :: ts) []); [own|reflexivity|exact L|discriminate]|reflexivity|].
      intros h st a c Ha. exists st. split; [|auto]. cbn [map_ok].
      inversion Ha; subst. match goal with H : re (tk_mr (tok st a)) = _ |- _ => rewrite H end.
      unfold pos. rewrite slen_nil, N.sub_0_r. now rewrite N.ltb_irrefl.
  Qed.

  (* ---------- assignments ---------- *)

  Lemma blank_starts (c : N -> bool) b r : (forall x, blank_char x -> c (N_of_ascii x) = false) -> blank b -> starts_not c r ->
    starts_not c (b ++ r).
  Proof. intros Hc [|x b' Hx _] Hr; [exact Hr|]. cbn. now apply Hc. Qed.
  Lemma blank_no_id x : blank_char x -> id_char (N_of_ascii x) = false.
  Proof.
    intros Hx. unfold blank_char, code in Hx. apply not_true_is_false. unfold id_char, id_start, rng, ch.
    rewrite !orb_true_iff, !andb_true_iff, !N.leb_le, !N.eqb_eq. cbn. lia.
  Qed.
  Lemma line_split b : blank b -> exists b1 b2, b = b1 ++ b2 /\ blank_line b1 /\ (b2 = [] \/ starts_line b2).
  Proof.
    induction 1 as [|x b Hx _ IH]; [exists [], []; split; [reflexivity|]; split; [constructor|now left]|].
    destruct (N.eq_dec (code x) 10) as [E1|N1]; [exists [], (x :: b); split; [reflexivity|]; split; [constructor|right; now left]|].
    destruct (N.eq_dec (code x) 13) as [E2|N2]; [exists [], (x :: b); split; [reflexivity|]; split; [constructor|right; now right]|].
    destruct IH as (b1 & b2 & -> & H1 & H2). exists (x :: b1), b2. split; [reflexivity|]. split; [constructor; auto|exact H2].
  Qed.
  Lemma sees_ws b r : blank_line b -> starts_not (line_space E) r -> sees (ScriptWS0 E) (b ++ r) (Some (FSkip r)).
  Proof.
    intros Hb Hr. apply sees_gone; [|own]. intros _. apply alt_one. apply (star_end (line_space E)); [now apply all_line|exact Hr].
  Qed.
  Lemma line_no_space u : starts_line u -> starts_not (line_space E) u.
  Proof.
    destruct u as [|x u]; [contradiction|]. cbn. unfold line_end, code, line_space. intros [->| ->]; apply andb_false_iff; [left|right]; [|reflexivity].
    now rewrite andb_false_r.
  Qed.
  Definition word_char (x : ascii) : Prop := id_first x \/ digit_char x.
  Lemma word_prefix v : forall x u r, Forall word_char v -> Forall word_char x -> starts_not id_char u ->
    x ++ u = v ++ r -> exists x', x = v ++ x' /\ r = x' ++ u.
  Proof.
    induction v as [|y v IH]; intros x u r Hv Hx Hu Heq; [exists x; auto|]. inversion Hv as [|y0 v0 Hy Hv']; subst.
    destruct x as [|z x].
    - cbn in Heq. subst u. cbn in Hu. rewrite (id_char_in y Hy) in Hu. discriminate.
    - cbn in Heq. injection Heq as -> Heq. inversion Hx; subst. destruct (IH x u r) as (x' & -> & ->); auto. exists x'. auto.
  Qed.
  Lemma identifier_word x : identifier x -> Forall word_char x.
  Proof. intros (y & t & -> & Hy & Ht). constructor; [now left|exact Ht]. Qed.
  Lemma word_no_brace x : word_char x -> x <> "{"%char.
  Proof.
    intros H ->. apply id_char_in in H. discriminate.
  Qed.
  Lemma word_no_space x w : word_char x -> starts_not (line_space E) (x :: w).
  Proof.
    intros H. apply solid_line. cbn. destruct H as [H|H]; [exact (id_first_solid x [] H)|].
    unfold digit_char, code in H. change (N_of_ascii "0") with 48 in H. change (N_of_ascii "9") with 57 in H. lia.
  Qed.

  Lemma no_import x b v : identifier x -> blank b -> sees (ScriptImportStatement E) (x ++ b ++ lit "=" ++ v) None.
  Proof.
    intros Hx Hb. destruct (prefix_or_not (lit "import") (x ++ b ++ lit "=" ++ v)) as [[r Hr]|Hn].
    2: { eapply sees_prog_fail; [own|]. apply wk_fail. now apply sees_lit_not. }
    rewrite Hr. destruct (word_prefix (lit "import") x (b ++ lit "=" ++ v) r) as (x' & -> & ->); auto.
    - repeat (apply Forall_cons; [left; left; left; cbn; lia|]). constructor.
    - now apply identifier_word.
    - apply blank_starts; [exact blank_no_id|exact Hb|reflexivity].
    - assert (G : exists b1 r, x' ++ b ++ lit "=" ++ v = b1 ++ r /\ blank_line b1 /\ starts_not (line_space E) r /\ ~ has_prefix (lit "{") r).
      { destruct x' as [|y x'].
        - destruct (line_split b Hb) as (b1 & b2 & -> & H1 & H2). exists b1, (b2 ++ lit "=" ++ v). cbn [app]. rewrite <- app_assoc.
          split; [reflexivity|]. split; [exact H1|]. destruct H2 as [->|H2].
          + split; [reflexivity|]. now apply no_prefix_char.
          + destruct b2 as [|z b2]; [contradiction|]. split; [now apply (line_no_space (z :: b2 ++ lit "=" ++ v))|].
            apply no_prefix_char. intros <-. destruct H2; discriminate.
        - apply identifier_word in Hx. apply Forall_app in Hx as [_ Hx]. inversion Hx; subst.
          exists [], ((y :: x') ++ b ++ lit "=" ++ v). split; [reflexivity|]. split; [constructor|].
          split; [now apply word_no_space|]. apply no_prefix_char. intros Hq. eapply word_no_brace; eauto. }
      destruct G as (b1 & r & -> & H1 & H2 & H3). eapply sees_prog_fail; [own|].
      eapply step_skip; [reflexivity|apply sees_lit; discriminate|].
      eapply step_skip; [reflexivity|apply sees_ws; [exact H1|exact H2]|].
      apply wk_fail. eapply sees_prog_fail; [own|]. apply wk_fail. now apply sees_lit_not.
  Qed.

  Definition assign_tree (x b1 b2 : str) (t : tree) (v r : str) : tree :=
    let u := b1 ++ lit "=" ++ b2 ++ v in
    Tr "AssignmentExpression" no_attrs [Tr "Identifier" (leaf x x (x ++ u)) [] u; t] r.
  Lemma sees_assign x b1 b2 v t r : identifier x -> blank b1 -> blank b2 -> solid v ->
    sees (Switch_ [ScriptIdentifier; ScriptPatternDefinition E]) v (Some (FTree t)) -> t_rest t = r -> slen r < slen v ->
    sees (ScriptAssignmentExpression E) (x ++ b1 ++ lit "=" ++ b2 ++ v) (Some (FTree (assign_tree x b1 b2 t v r))).
  Proof.
    intros Hx H1 H2 Hv Ht Hr Hlen. eapply sees_prog; [own| |discriminate].
    pose proof (slen_pos _ (identifier_some _ Hx)).
    eapply step_tree; [reflexivity|apply sees_identifier; [split; discriminate|exact Hx|]|shorter|].
    { apply blank_starts; [exact blank_no_id|exact H1|reflexivity]. }
    eapply step_skip; [reflexivity|apply sees_wsn; [exact H1|vis]|].
    eapply step_skip; [reflexivity|apply sees_lit; discriminate|].
    eapply step_skip; [reflexivity|apply sees_wsn; [exact H2|exact Hv]|].
    eapply (tree_step _ _ _ _ t); [reflexivity|exact Ht|now rewrite Hr|]. rewrite Hr. apply wk_nil.
  Qed.

  (* ---------- what the tokens of a script say ---------- *)

  Variables (F : fs) (compile : str -> state -> res script_res) (sc : sid) (from_file : option str).
  Definition tells (st : state) (l : list addr) (w w' : script_state) : Prop :=
    exists all, preorder st l all /\ script_says E F compile st sc from_file all w w'.
  Lemma says_app st l1 l2 w w1 w2 : script_says E F compile st sc from_file l1 w w1 ->
    script_says E F compile st sc from_file l2 w1 w2 -> script_says E F compile st sc from_file (l1 ++ l2) w w2.
  Proof. induction 1; intros H2; [exact H2|]. cbn [app]. eapply ss_cons; eauto. Qed.
  Lemma tells_nil st w : tells st [] w w.
  Proof. exists []. split; constructor. Qed.
  Lemma tells_app st l1 l2 w w1 w2 : tells st l1 w w1 -> tells st l2 w1 w2 -> tells st (l1 ++ l2) w w2.
  Proof.
    intros (a1 & P1 & S1) (a2 & P2 & S2). exists (a1 ++ a2). split; [now apply preorder_app|]. eapply says_app; eauto.
  Qed.
  Lemma tells_cons st a l w w1 w2 : tells st [a] w w1 -> tells st l w1 w2 -> tells st (a :: l) w w2.
  Proof. intros H1 H2. exact (tells_app st [a] l w w1 w2 H1 H2). Qed.
  Lemma tells_node st a w w1 w2 : token_says E F compile st sc from_file a w w1 -> tells st (tk_kids (tok st a)) w1 w2 ->
    tells st [a] w w2.
  Proof. intros H (l & P1 & S1). exists (a :: l). split; [now apply preorder_one|]. eapply ss_cons; eauto. Qed.
  Lemma quiet_split n i k r : quiet (Tr n i k r) = true -> ~ In n (map lit loud) /\ forallb quiet k = true.
  Proof.
    cbn [quiet]. intros H. apply andb_true_iff in H as [H1 H2]. split; [|exact H2]. intros Hin.
    apply negb_true_iff in H1. apply in_map_iff in Hin as (x & <- & Hx).
    enough (existsb (fun y => str_eqb (lit x) (lit y)) loud = true) by congruence.
    apply existsb_exists. exists x. split; [exact Hx|]. now apply str_eqb_eq.
  Qed.
  Lemma tells_quiet h st :
    (forall a t, shows h st a t -> quiet t = true -> forall w, tells st [a] w w) /\
    (forall l ts, shows_all P h st l ts -> forallb quiet ts = true -> forall w, tells st l w w).
  Proof.
    apply shows_mind.
    - intros a name text kids rest Ha K Er Nm Tx Cr Mr St Lo Ks IH Fr Up Hq w. apply quiet_split in Hq as [Q1 Q2].
      eapply tells_node; [|now apply IH]. apply sy_other. rewrite Nm. exact Q1.
    - intros _ w. apply tells_nil.
    - intros a l t ts Ha IHa Hl IHl Hq w. cbn [forallb] in Hq. apply andb_true_iff in Hq as [Q1 Q2].
      eapply tells_cons; [now apply IHa|now apply IHl].
  Qed.

  (* what is wrong with them *)
  Definition breaks (st : state) (l : list addr) (w : script_state) (b : blame) : Prop :=
    exists t, blames P b t /\ forall all, preorder st l all -> script_fails E F compile st sc from_file all w t.
  Definition sound (st : state) (l : list addr) : Prop :=
    forall all, preorder st l all -> Forall (fun a => tk_name (tok st a) <> lit "Error") all.
  Lemma preorder_split st : forall l1 l2 all, preorder st (l1 ++ l2) all ->
    exists a1 a2, all = a1 ++ a2 /\ preorder st l1 a1 /\ preorder st l2 a2.
  Proof.
    induction l1 as [|a l1 IH]; intros l2 all H; [exists [], all; split; [reflexivity|]; split; [constructor|exact H]|].
    inversion H as [|a0 r x y Hx Hy]; subst. destruct (IH _ _ Hy) as (a1 & a2 & -> & H1 & H2).
    exists (a :: x ++ a1), a2. split; [cbn; now rewrite <- app_assoc|]. split; [now constructor|exact H2].
  Qed.
  Lemma preorder_node st a all : preorder st [a] all -> exists l, all = a :: l /\ preorder st (tk_kids (tok st a)) l.
  Proof. intros H. inversion H as [|a0 r x y Hx Hy]; subst. inversion Hy; subst. rewrite app_nil_r. eauto. Qed.
  Lemma sound_app st l1 l2 : sound st l1 -> sound st l2 -> sound st (l1 ++ l2).
  Proof. intros H1 H2 all H. apply preorder_split in H as (a1 & a2 & -> & P1 & P2). apply Forall_app. auto. Qed.
  Lemma sound_node st a : tk_name (tok st a) <> lit "Error" -> sound st (tk_kids (tok st a)) -> sound st [a].
  Proof. intros Hn H all Ha. apply preorder_node in Ha as (l & -> & Hl). constructor; auto. Qed.
  Lemma sound_nil st : sound st [].
  Proof. intros all H. inversion H. constructor. Qed.
  Lemma sound_quiet h st :
    (forall a t, shows h st a t -> quiet t = true -> sound st [a]) /\
    (forall l ts, shows_all P h st l ts -> forallb quiet ts = true -> sound st l).
  Proof.
    apply shows_mind.
    - intros a name text kids rest Ha K Er Nm Tx Cr Mr St Lo Ks IH Fr Up Hq. apply quiet_split in Hq as [Q1 Q2].
      apply sound_node; [|now apply IH]. rewrite Nm. intros ->. apply Q1. now left.
    - intros _. apply sound_nil.
    - intros a l t ts Ha IHa Hl IHl Hq. cbn [forallb] in Hq. apply andb_true_iff in Hq as [Q1 Q2].
      apply (sound_app st [a] l); auto.
  Qed.
  Lemma breaks_left st l1 l2 w b : breaks st l1 w b -> breaks st (l1 ++ l2) w b.
  Proof.
    intros (t & Hb & H). exists t. split; [exact Hb|]. intros all Ha. apply preorder_split in Ha as (a1 & a2 & -> & P1 & P2). specialize (H _ P1). clear -H.
    induction H; cbn [app]; [now apply sf_here|eapply sf_later; eauto].
  Qed.
  Lemma breaks_right st l1 l2 w w1 b : sound st l1 -> tells st l1 w w1 -> breaks st l2 w1 b -> breaks st (l1 ++ l2) w b.
  Proof.
    intros Hs (a1' & P1' & S1) (t & Hb & H). exists t. split; [exact Hb|]. intros all Ha. apply preorder_split in Ha as (a1 & a2 & -> & P1 & P2). specialize (H _ P2).
    rewrite (preorder_det _ _ _ P1 _ P1') in *. specialize (Hs _ P1'). clear -S1 Hs H.
    induction S1; [exact H|]. inversion Hs; subst. cbn [app]. eapply sf_later; eauto.
  Qed.
  Lemma breaks_below st a w w1 b : tk_name (tok st a) <> lit "Error" -> token_says E F compile st sc from_file a w w1 ->
    breaks st (tk_kids (tok st a)) w1 b -> breaks st [a] w b.
  Proof. intros Hn Hs (t & Hb & H). exists t. split; [exact Hb|]. intros all Ha. apply preorder_node in Ha as (l & -> & Hl). eapply sf_later; eauto. Qed.
  Lemma breaks_here st a name pats s0 b t : blames P b t -> token_fails E F compile st sc from_file a s0 t -> breaks st [a] (name, pats, s0) b.
  Proof. intros Hb H. exists t. split; [exact Hb|]. intros all Ha. apply preorder_node in Ha as (l & -> & Hl). now apply sf_here. Qed.

  (* the tree of a statement *)
  Definition tells_statement (d : statement) (t : tree) : Prop :=
    forall h st a, shows h st a t -> sound st [a] /\ forall name pats s0,
      (forall s1, stated F compile sc from_file d s0 s1 -> tells st [a] (name, pats, s0) (name, pats, s1)) /\
      (forall b, statement_wrong F compile sc from_file d s0 b -> breaks st [a] (name, pats, s0) b).
  Lemma fault_trouble f : exists t, trouble_of f t.
  Proof. destruct (faults_fare f) as [[[m H] _]|[[p H] _]]; eexists; constructor; exact H. Qed.
  Lemma tells_simply d t (n : String.string) : t_name t = lit n -> n <> "Error"%string -> forallb quiet (t_kids t) = true ->
    (forall h st a, shows h st a t -> forall name pats s0 b, statement_wrong F compile sc from_file d s0 b ->
      breaks st [a] (name, pats, s0) b) ->
    (forall h st a, shows h st a t -> forall name pats s0 s1, stated F compile sc from_file d s0 s1 ->
      tells st [a] (name, pats, s0) (name, pats, s1)) -> tells_statement d t.
  Proof.
    intros Hn Hne Hq Hf H h st a Ha. split.
    - apply sound_node.
      + rewrite (shown_name _ _ _ _ Ha), Hn. intros He. apply Hne. now apply lit_inj.
      + eapply (proj2 (sound_quiet h st)); [exact (shown_kids _ _ _ _ Ha)|exact Hq].
    - intros name pats s0. split; eauto.
  Qed.

  (* the captured range of a leaf that is all text *)
  Lemma shown_frame h st a t : shows h st a t -> tk_kind (tok st a) = KStandard /\ framed P st (tok st a) /\
    re (tk_mr (tok st a)) = pos P (t_rest t) /\ left_over P (t_rest t).
  Proof. destruct 1. cbn [t_rest]. auto. Qed.
  Lemma leaf_range h st a n x r : shows h st a (Tr n (leaf x x (x ++ r)) [] r) -> left_over P (x ++ r) ->
    tk_cr (tok st a) = mkR (pos P (x ++ r)) (pos P r).
  Proof.
    intros Ha Hl. pose proof (shown_leaf _ _ _ _ _ _ _ _ _ Ha) as (_ & H2 & H3).
    pose proof (shown_kids _ _ _ _ Ha) as Hk. cbn [t_kids] in Hk.
    destruct (shown_frame _ _ _ _ Ha) as (K & A11 & M & _). cbn [t_rest] in M.
    assert (Hk0 : tk_kids (tok st a) = []) by now inversion Hk. unfold framed in A11. rewrite Hk0 in A11. destruct A11 as (F1 & F2 & F3).
    unfold get_cvalue in H2. rewrite K in H2. rewrite H2 in F3. apply (left_len P Hsmall) in Hl. unfold pos in *. rewrite slen_app in *.
    destruct (tk_cr (tok st a)) as [lo hi]. cbn [rs re] in *. f_equal; lia.
  Qed.
  Lemma assign_value h st a x b1 b2 y r : left_over P (x ++ b1 ++ lit "=" ++ b2 ++ y ++ r) ->
    shows h st a (assign_tree x b1 b2 (Tr "Identifier" (leaf y y (y ++ r)) [] r) (y ++ r) r) ->
    get_value (tok st a) = x ++ b1 ++ lit "=" ++ b2 ++ y.
  Proof.
    intros Hl Ha. pose proof (shown_text _ _ _ _ Ha) as (_ & _ & _ & T4). cbn in T4. destruct T4 as [T4 T5].
    pose proof (shown_kids _ _ _ _ Ha) as Hk. cbn [t_kids assign_tree] in Hk.
    apply shown_cons in Hk as (k1 & l1 & Hk1 & K1 & Hk). apply shown_cons in Hk as (k2 & l2 & Hk2 & K2 & Hk).
    assert (l2 = []) by now inversion Hk. subst l1 l2.
    apply leaf_range in K1; [|exact Hl].
    assert (Hl2 : left_over P (y ++ r)).
    { eapply left_follows; [exact Hl|]. exists (x ++ b1 ++ lit "=" ++ b2). now rewrite <- !app_assoc. }
    apply leaf_range in K2; [|exact Hl2].
    destruct (shown_frame _ _ _ _ Ha) as (Kd & A11 & _).
    unfold framed in A11. rewrite Hk1 in A11. destruct A11 as [F1 F2].
    unfold get_value, get_attr, get_cvalue. rewrite T4, T5, Kd. cbn [assoc_get]. rewrite F2. apply range_text_ascii; [exact Hascii|].
    rewrite F1. unfold span. cbn [map]. rewrite K1, K2. unfold hull.
    destruct Hl as [pre Hp]. exists pre, r. split; [rewrite Hp; now rewrite <- !app_assoc|].
    pose proof (pos_lt P Hsmall (y ++ r)).
    cbn [lowest highest rs re fold_right]. unfold pos in *. rewrite Hp in *. rewrite !slen_app in *.
    split; lia.
  Qed.

  (* ---------- assignments ---------- *)

  Definition choices : list matcher :=
    [ScriptComment; ScriptImportStatement E; ScriptAssignmentExpression E;
     MDiscard (Program_ [PinM (Equals_ "-->"); MBreak ""])].
  Definition reads_statement (d : statement) (t : str) : Prop :=
    (exists x u, t = x :: u /\ id_first x) /\
    forall r, statement_ends d r -> left_over P (t ++ r) ->
      exists x, picks choices (t ++ r) (Some (FTree x)) /\ t_rest x = r /\ tells_statement d x.

  Lemma id_no_hash x : id_first x -> x <> "#"%char /\ x <> "-"%char.
  Proof. intros [[H|H]|[->| ->]]; unfold code in *; split; try discriminate; intros ->; cbn in H; lia. Qed.
  Lemma id_solid x u : id_first x -> solid (x :: u).
  Proof. intros [[H|H]|[->| ->]]; unfold code, solid in *; cbn in *; lia. Qed.
  Lemma id_char_not x : ~ (id_first x \/ digit_char x) -> id_char (N_of_ascii x) = false.
  Proof.
    intros H. apply not_true_is_false. intros Hc. apply H. unfold id_char, id_start, rng, ch in Hc.
    unfold id_first, letter, digit_char, code.
    repeat rewrite orb_true_iff in Hc. repeat rewrite andb_true_iff in Hc. repeat rewrite N.leb_le in Hc. repeat rewrite N.eqb_eq in Hc.
    destruct Hc as [Hc|Hc]; [left|right; tauto]. repeat destruct Hc as [Hc|Hc]; auto.
    - right. left. now apply (f_equal ascii_of_N) in Hc; rewrite !ascii_N_embedding in Hc.
    - right. right. now apply (f_equal ascii_of_N) in Hc; rewrite !ascii_N_embedding in Hc.
  Qed.
  Lemma pick_assign x b1 b2 v t r : identifier x -> blank b1 -> blank b2 -> solid v ->
    sees (Switch_ [ScriptIdentifier; ScriptPatternDefinition E]) v (Some (FTree t)) -> t_rest t = r -> slen r < slen v ->
    picks choices (x ++ b1 ++ lit "=" ++ b2 ++ v) (Some (FTree (assign_tree x b1 b2 t v r))).
  Proof.
    intros Hx H1 H2 Hv Ht Hr Hlen. apply pk_fail; [|apply pk_fail; [now apply no_import|apply pk_tree; now apply sees_assign]].
    apply sees_comment_not. destruct Hx as (y & u & -> & Hy & _). apply no_prefix_char. apply id_no_hash in Hy as [Hy _]. congruence.
  Qed.

  Lemma alias_read x y b1 b2 t : identifier x -> identifier y -> blank b1 -> blank b2 ->
    t = x ++ b1 ++ lit "=" ++ b2 ++ y -> reads_statement (Alias x t) t.
  Proof.
    intros Hx Hy H1 H2 Ht. split.
    { destruct Hx as (z & u & -> & Hz & _). subst t. cbn [app]. eauto. }
    intros r Hr Hl. assert (Hyr : starts_not id_char r) by (destruct r; [exact Logic.I|now apply id_char_not]).
    assert (He : t ++ r = x ++ b1 ++ lit "=" ++ b2 ++ y ++ r) by (subst t; now rewrite <- !app_assoc).
    rewrite He in *. eexists. split; [|split].
    - apply pick_assign; auto.
      + destruct Hy as (z & u & -> & Hz & _). now apply id_solid.
      + apply sees_alts0. apply pk_tree. apply sees_identifier; [split; discriminate|exact Hy|exact Hyr].
      + pose proof (slen_pos _ (identifier_some _ Hy)). cbn [t_rest]. shorter.
    - reflexivity.
    - apply (tells_simply _ _ "AssignmentExpression"); [reflexivity|discriminate|reflexivity|intros h st a _ name pats s0 b0 Hw; inversion Hw; discriminate|].
      intros h st a Ha name pats s0 s1 Hs. inversion Hs as [x0 w0 s2 Q1 Q2 Q3| |]. subst x0 w0 s2.
      pose proof (assign_value _ _ _ _ _ _ _ _ Hl Ha) as Hv.
      pose proof (shown_kids _ _ _ _ Ha) as Hk. cbn [t_kids assign_tree] in Hk.
      pose proof Hk as Hk'.
      apply shown_cons in Hk as (k1 & l1 & Hk1 & K1 & Hk). apply shown_cons in Hk as (k2 & l2 & Hk2 & K2 & Hk). subst l1.
      eapply tells_node.
      + eapply sy_alias; [exact (shown_name _ _ _ _ Ha)|exact Hk1|exact (shown_name _ _ _ _ K2)].
      + apply shown_leaf in K1 as (K1 & _). rewrite K1, Hv, <- Ht. eapply (proj2 (tells_quiet h st)); [exact Hk'|reflexivity].
  Qed.

  Lemma define_ends x o i k l q r : statement_ends (Define x o i k l q) r -> def_ends r.
  Proof.
    destruct r as [|y r]; cbn; intros H; [repeat split; intros [u Hu]; discriminate|].
    apply char_ends; intros ->; apply H; auto.
  Qed.
  Lemma stated_define x o i k l q s0 s1 : stated F compile sc from_file (Define x o i k l q) s0 s1 ->
    definition_fault k q = None /\ s1 = sc_set s0 sc x (VMatcher (defined x o i k l q)).
  Proof. intros H. now inversion H. Qed.
  Lemma wrong_define x o i k l q s0 b : statement_wrong F compile sc from_file (Define x o i k l q) s0 b ->
    exists f, b = Faulty f /\ definition_fault k q = Some f.
  Proof. intros H. inversion H; subst. eauto. Qed.
  Lemma wrong_import ns path s0 b : statement_wrong F compile sc from_file (Import ns path) s0 b ->
    (from_file = None /\ b = Forbidden) \/ exists ff, from_file = Some ff /\
    ((fs_join F ff path = None /\ b = Broken PUnwrap) \/ exists full, fs_join F ff path = Some full /\
    ((exists l s1, compile full s0 = Ret (ScriptErr l) s1 /\ b = Inherits l) \/
     (exists p, compile full s0 = Pan p /\ b = Broken p) \/
     (exists root isc s1, compile full s0 = Ret (ScriptOk root isc) s1 /\ names_wrong sc (m_set_name (root_alias ns (m_name root)) root) isc full ns s1 b))).
  Proof.
    intros H. inversion H; subst; try discriminate; [now left|right; eexists; split; [reflexivity|]..].
    - left. auto.
    - right. eexists. split; [eassumption|]. left. eauto.
    - right. eexists. split; [eassumption|]. right. left. eauto.
    - right. eexists. split; [eassumption|]. right. right. eauto.
  Qed.
  Lemma define_read x o i k l q b1 b2 t : identifier x -> blank b1 -> blank b2 -> writes_bare E o i k l q t ->
    reads_statement (Define x o i k l q) (x ++ b1 ++ lit "=" ++ b2 ++ t).
  Proof.
    intros Hx H1 H2 Ht. split.
    { destruct Hx as (z & u & -> & Hz & _). cbn [app]. eauto. }
    intros r Hr Hl. apply define_ends in Hr. destruct written_patterns as (_ & Hd & _). apply Hd in Ht as [(u & Hu) Ht].
    destruct (Ht r Hr) as (d & D1 & D2 & D3 & D4 & D5). rewrite <- !app_assoc in *.
    destruct (def_start o (u ++ r)) as (y & v & Hy & Hin).
    assert (Hy' : t ++ r = y :: v) by (rewrite Hu, <- !app_assoc; exact Hy).
    eexists. split; [|split].
    - apply pick_assign with (t := d) (r := r); auto.
      + rewrite Hy'. cbn in Hin. destruct Hin as [<-|[<-|[<-|[]]]]; vis.
      + apply sees_alts0. apply pk_fail; [|now apply pk_tree].
        apply sees_identifier_not; [split; discriminate|]. rewrite Hy'. cbn in Hin. destruct Hin as [<-|[<-|[<-|[]]]]; reflexivity.
      + rewrite Hu. destruct o; shorter.
    - reflexivity.
    - intros h st a Ha.
      pose proof (shown_kids _ _ _ _ Ha) as Hk. cbn [t_kids assign_tree] in Hk.
      pose proof Hk as Hk'.
      apply shown_cons in Hk as (k1 & l1 & Hk1 & K1 & Hk). apply shown_cons in Hk as (k2 & l2 & Hk2 & K2 & Hk). subst l1.
      pose proof K1 as K0. apply shown_leaf in K1 as (K1 & _).
      split.
      { apply sound_node; [rewrite (shown_name _ _ _ _ Ha); discriminate|].
        eapply (proj2 (sound_quiet h st)); [exact Hk'|]. cbn. now rewrite D5. }
      intros name pats s0. split.
      + intros s1 Hs. apply stated_define in Hs as [Hdf ->].
        eapply tells_node.
        * eapply sy_define; [exact (shown_name _ _ _ _ Ha)|exact Hk1|rewrite (shown_name _ _ _ _ K2); exact D3|].
          rewrite K1. pose proof (D4 _ _ _ x K2) as Hf. unfold def_fate in Hf. rewrite Hdf in Hf. exact Hf.
        * rewrite K1. eapply (proj2 (tells_quiet h st)); [exact Hk'|]. cbn. now rewrite D5.
      + intros bl Hbl. apply wrong_define in Hbl as (f & -> & Hf). destruct (fault_trouble f) as (tr & Hft). apply (breaks_here _ _ _ _ _ (Faulty f) tr Hft).
        pose proof (D4 _ _ _ x K2) as Hd'. unfold def_fate in Hd'. rewrite Hf in Hd'.
        eapply tf_define; [exact (shown_name _ _ _ _ Ha)|exact Hk1|rewrite (shown_name _ _ _ _ K2); exact D3|exact Hd'|exact Hft].
  Qed.

  (* ---------- imports ---------- *)

  Lemma star_miss c d r x w : all_in c x -> starts_not c w -> (forall a, c a = true -> d a = false) -> starts_not d w ->
    match_items (Star c :: One d :: r) (chars (x ++ w)) = None.
  Proof.
    intros Hx Hw Hd Hn. cbn [match_items]. induction Hx as [|a x Ha Hx IH].
    - cbn [app]. destruct w as [|y w]; [reflexivity|]. cbn [starts_not] in *. cbn [chars map star]. rewrite Hw. now rewrite Hn.
    - cbn [app chars map star]. rewrite Ha. unfold chars in IH. rewrite IH. now rewrite (Hd _ Ha).
  Qed.
  Lemma space_not_a a : cspace E a = true -> ch "a" a = false.
  Proof. intros H. apply not_true_is_false. intros Hc. apply N.eqb_eq in Hc. subst a. vm_compute in H. discriminate. Qed.
  Lemma no_as b y w : blank b -> solid (y :: w) -> y <> "a"%char -> sees (MDiscard (Matches_ (re_as E))) (b ++ y :: w) None.
  Proof.
    intros Hb Hy Ha. apply sees_discard_fail; try assumption. apply sees_regex_not; [|own]. intros _. apply alt_none.
    pose proof (solid_space E _ Hy) as Hs.
    assert (Hc : starts_not (ch "a") (y :: w)) by (cbn; apply ch_false; congruence).
    destruct Hb as [|x b Hx Hb]; [now apply one_not|]. cbn [app]. unfold plus. cbn [app].
    pose proof (star_miss (cspace E) (ch "a") (One (ch "s") :: plus (cspace E)) b (y :: w) (all_blank E b Hb) Hs space_not_a Hc) as Hm.
    cbn [match_items chars map]. rewrite (blank_space E x Hx). fold (chars (b ++ y :: w)). unfold plus in Hm. cbn [app] in Hm.
    match goal with |- match ?X with _ => _ end = None => change X with (match_items (Star (cspace E) :: One (ch "a") :: One (ch "s") :: One (cspace E) :: [Star (cspace E)]) (chars (b ++ y :: w))) end.
    now rewrite Hm.
  Qed.

  Lemma sees_prog0 pats w ts w' r : walk pats [] w (WDone ts w' r) -> ts <> [] ->
    sees (Program_ pats) w (Some (FTree (Tr "Program" no_attrs ts r))).
  Proof.
    intros Hw Ht. destruct ts as [|t ts]; [congruence|]. unfold Program_. eapply sees_program; try assumption; try reflexivity; [own|exact Hw|]. constructor. reflexivity.
  Qed.
  Definition import_name : matcher :=
    ProgramN "ImportIdentifier" [
      ScriptIdentifierN "ImportName";
      MOptional (Proxy_ (Program_ [MDiscard (Matches_ (re_as E)); ScriptIdentifierN "ImportAsName"]));
      MDiscard (MOptional (Equals_ ","))].
  Definition import_pats : list matcher :=
    [ScriptWSN0 E; Switch_ [MDiscard (Program_ [Equals_ "}"; MBreak "IdentifiersLoop"]); import_name]].
  (* what comes after an imported name, and what is left of it *)
  Definition cuts (r r' : str) : Prop :=
    r = lit "," ++ r' \/ r' = r /\ exists b u, blank b /\ r = b ++ lit "}" ++ u.
  Definition gives_name (x : tree) (n : str * str) : Prop :=
    quiet x = true /\ forall h st a, shows h st a x -> exists i, first_kid st a ["ImportName"] i /\ stands P (fst n) (tk_mr (tok st i)) /\
      ((no_kid st a ["ImportAsName"] /\ n = (get_value (tok st i), get_value (tok st i))) \/
       exists y, first_kid st a ["ImportAsName"] y /\ n = (get_value (tok st i), get_value (tok st y))).
  Lemma cuts_form r r' : cuts r r' -> exists b y w, blank b /\ r = b ++ y :: w /\ In y (lit ",}").
  Proof.
    intros [->|(_ & b & u & Hb & ->)].
    - exists [], ","%char, r'. repeat split; [constructor|cbn; auto].
    - exists b, "}"%char, u. repeat split; [exact Hb|cbn; auto].
  Qed.
  Lemma cuts_id r r' : cuts r r' -> starts_not id_char r.
  Proof.
    intros H. apply cuts_form in H as (b & y & w & Hb & -> & Hy). apply blank_starts; [exact blank_no_id|exact Hb|].
    cbn in Hy. destruct Hy as [<-|[<-|[]]]; reflexivity.
  Qed.
  Lemma cuts_as r r' : cuts r r' -> sees (MOptional (Proxy_ (Program_ [MDiscard (Matches_ (re_as E)); ScriptIdentifierN "ImportAsName"]))) r (Some (FSkip r)).
  Proof.
    intros H. apply cuts_form in H as (b & y & w & Hb & -> & Hy). apply opt_not. apply sees_proxy_fail; try assumption.
    eapply sees_prog0_fail. apply wk_fail. apply no_as; [exact Hb| |]; cbn in Hy; destruct Hy as [<-|[<-|[]]]; try discriminate; vis.
  Qed.
  Lemma cuts_comma r r' : cuts r r' -> sees (MDiscard (MOptional (Equals_ ","))) r (Some (FSkip r')).
  Proof.
    intros [->|(-> & b & u & Hb & ->)].
    - eapply gone. apply opt. apply sees_equals; auto; [discriminate|own].
    - eapply sees_discard with (p := FSkip _); try assumption; [right; eauto|]. apply opt_not.
      apply sees_equals_not; auto; [|own]. destruct Hb as [|x b Hx _]; [now apply no_prefix_char|]. apply no_prefix_char.
      intros <-. unfold blank_char, code in Hx. cbn in Hx. lia.
  Qed.
  Lemma cuts_follows r r' : cuts r r' -> follows r r'.
  Proof. intros [->|(-> & _)]; [now exists (lit ",")|apply follows_refl]. Qed.
  Lemma sees_as b1 b2 r : blank b1 -> blank b2 -> b1 <> [] -> b2 <> [] -> starts_not (cspace E) r ->
    sees (MDiscard (Matches_ (re_as E))) (b1 ++ lit "as" ++ b2 ++ r) (Some (FSkip r)).
  Proof.
    intros H1 H2 N1 N2 Hr. replace (b1 ++ lit "as" ++ b2 ++ r) with ((b1 ++ lit "as" ++ b2) ++ r) by now rewrite <- !app_assoc.
    apply sees_gone; [|own]. intros _. apply alt_one. rewrite <- !app_assoc.
    destruct b1 as [|c b1]; [congruence|]. destruct b2 as [|d b2]; [congruence|]. inversion H1; subst. inversion H2; subst.
    rewrite !slen_app, !slen_cons. change (slen (lit "as")) with 2.
    replace (1 + slen b1 + (2 + (1 + slen b2))) with (1 + (slen b1 + (1 + (1 + (1 + slen b2))))) by lia.
    unfold plus. cbn [app lit_re map list_ascii_of_string].
    apply one_ok; [now apply blank_space|]. apply star_then; [now apply all_blank|reflexivity|].
    apply one_ok; [reflexivity|]. apply one_ok; [reflexivity|]. apply one_ok; [now apply blank_space|].
    apply star_end; [now apply all_blank|exact Hr].
  Qed.
  Definition name_tree (x r : str) (more : list tree) (r' : str) : tree :=
    Tr "ImportIdentifier" no_attrs (Tr "ImportName" (leaf x x (x ++ r)) [] r :: more) r'.
  Lemma leaf_stands h st a nm x r : shows h st a (Tr nm (leaf x x (x ++ r)) [] r) -> left_over P (x ++ r) -> stands P x (tk_mr (tok st a)).
  Proof.
    intros Ha (pre & Hl). destruct (shown_frame _ _ _ _ Ha) as (_ & _ & M & _). cbn [t_rest] in M. apply shown_leaf in Ha as (_ & _ & Hs).
    exists pre, r. split; [exact Hl|]. destruct (tk_mr (tok st a)) as [lo hi]. cbn [rs re] in *. subst. unfold pos. rewrite Hl, !slen_app. f_equal; lia.
  Qed.
  Lemma name_read n t r r' : name_text n t -> cuts r r' -> left_over P (t ++ r) ->
    exists x, sees import_name (t ++ r) (Some (FTree x)) /\ t_rest x = r' /\ gives_name x n.
  Proof.
    intros Ht Hr Hl. destruct Ht as [x Hx|x y b1 b2 Hx Hy H1 H2 N1 N2].
    - exists (name_tree x r [] r'). split; [|split].
      + eapply sees_prog; [own| |discriminate].
        eapply step_tree; [reflexivity|apply sees_identifier; [split; discriminate|exact Hx|exact (cuts_id _ _ Hr)]| |].
        { pose proof (slen_pos _ (identifier_some _ Hx)). shorter. }
        eapply step_skip; [reflexivity|exact (cuts_as _ _ Hr)|].
        eapply step_skip; [reflexivity|exact (cuts_comma _ _ Hr)|]. apply wk_nil.
      + reflexivity.
      + split; [reflexivity|]. intros h st a Ha.
        destruct (first_of h st a _ ["ImportName"] _ Ha eq_refl) as (i & I1 & I2). exists i. split; [exact I1|].
        split; [exact (leaf_stands _ _ _ _ _ _ I2 Hl)|]. left.
        split; [eapply none_of; [exact Ha|reflexivity]|]. apply shown_leaf in I2 as (I2 & _). congruence.
    - set (w := b1 ++ lit "as" ++ b2 ++ y ++ r).
      pose proof (slen_pos _ (identifier_some _ Hx)). pose proof (slen_pos _ (identifier_some _ Hy)).
      exists (name_tree x w [Tr "ImportAsName" (leaf y y (y ++ r)) [] r] r'). split; [|split].
      + rewrite <- !app_assoc. fold w. eapply sees_prog; [own| |discriminate].
        eapply step_tree; [reflexivity|apply sees_identifier; [split; discriminate|exact Hx|]|shorter|].
        { unfold w. clear w. destruct H1 as [|c b1 Hc _]; [congruence|]. now apply blank_no_id. }
        eapply (wk_proxy _ _ _ _ _ _ _ _ (Tr "Program" no_attrs [Tr "ImportAsName" (leaf y y (y ++ r)) [] r] r)); [reflexivity| | |].
        * apply opt. eapply sees_proxy; try assumption; [constructor; discriminate|]. eapply sees_prog0; [|discriminate].
          eapply step_skip; [reflexivity|apply sees_as; auto|].
          { destruct Hy as (z & u & -> & Hz & _). apply solid_space. now apply id_solid. }
          eapply step_tree; [reflexivity|apply sees_identifier; [split; discriminate|exact Hy|exact (cuts_id _ _ Hr)]|shorter|]. apply wk_nil.
        * cbn [t_rest t_kids]. constructor; [apply follows_refl|constructor].
        * cbn [t_rest t_kids]. eapply step_skip; [reflexivity|exact (cuts_comma _ _ Hr)|]. apply wk_nil.
      + reflexivity.
      + split; [reflexivity|]. intros h st a Ha.
        destruct (first_of h st a _ ["ImportName"] _ Ha eq_refl) as (i & I1 & I2). exists i. split; [exact I1|].
        split; [apply (leaf_stands _ _ _ _ _ _ I2); rewrite <- !app_assoc in Hl; exact Hl|]. right.
        destruct (first_of h st a _ ["ImportAsName"] _ Ha eq_refl) as (j & J1 & J2). exists j. split; [exact J1|].
        apply shown_leaf in I2 as (I2 & _). apply shown_leaf in J2 as (J2 & _). congruence.
  Qed.

  Lemma names_close r : sees (MDiscard (Program_ [Equals_ "}"; MBreak "IdentifiersLoop"])) (lit "}" ++ r)
    (Some (FBreak "IdentifiersLoop" (FSkip r))).
  Proof.
    assert (G : exists t, t_rest t = r /\ sees (Program_ [Equals_ "}"; MBreak "IdentifiersLoop"]) (lit "}" ++ r) (Some (FBreak "IdentifiersLoop" (FTree t)))).
    { eexists. split; [|apply sees_prog0_break].
      2: { eapply step_tree; [reflexivity|apply sees_equals; auto; [discriminate|own]|shorter|]. apply wk_break. apply sees_break. }
      reflexivity. }
    destruct G as (t & Ht & H). eapply sees_discard_break; try assumption; [|exact H].
    left. left. exists t. split; [now left|now rewrite Ht].
  Qed.
  Lemma names_stay w : ~ has_prefix (lit "}") w -> sees (MDiscard (Program_ [Equals_ "}"; MBreak "IdentifiersLoop"])) w None.
  Proof.
    intros H. apply sees_discard_fail; try assumption. eapply sees_prog0_fail. apply wk_fail. apply sees_equals_not; auto. own.
  Qed.
  Definition named (ns : list (str * str)) (ts : list tree) (r : str) : Prop :=
    Forall2 gives_name ts ns /\ Forall (fun x => follows (t_rest x) r) ts.
  Lemma named_spread ns ts r : named ns ts r -> forall w, exists w', spread r w ts w'.
  Proof.
    intros (_ & H). induction H as [|x ts Hx _ IH]; intros w; [exists w; constructor|].
    destruct (IH (t_rest x)) as (w' & Hw). exists w'. now constructor.
  Qed.
  Lemma named_quiet ns ts r : named ns ts r -> forallb quiet ts = true.
  Proof. intros (H & _). induction H as [|x n ts ns [Hx _] _ IH]; [reflexivity|]. cbn. now rewrite Hx. Qed.
  Lemma named_says h st ns ts r : named ns ts r -> forall l, shows_all P h st l ts -> import_names st l ns.
  Proof.
    intros (H & _). induction H as [|x n ts ns [_ Hx] _ IH]; intros l Hl.
    - inversion Hl; subst. constructor.
    - apply shown_cons in Hl as (a & l' & -> & Ha & Hl). destruct (Hx _ _ _ Ha) as (i & I1 & _ & [[I2 ->]|(y & I2 & ->)]); constructor; auto.
  Qed.
  Lemma name_first n t : name_text n t -> exists x u, t = x :: u /\ id_first x.
  Proof. intros [x Hx|x y b1 b2 Hx _ _ _ _ _]; destruct Hx as (z & u & -> & Hz & _); cbn [app]; eauto. Qed.
  Lemma named_fails h st root isc file ns ts r bl : named ns ts r -> forall l s0, shows_all P h st l ts ->
    names_wrong sc root isc file ns s0 bl -> exists t, blames P bl t /\ import_fails st sc root isc file l ns s0 t.
  Proof.
    intros (H & _). induction H as [|x n ts ns [_ Hx] _ IH]; intros l s0 Hl Hw; [inversion Hw|].
    apply shown_cons in Hl as (a & l' & -> & Ha & Hl). destruct (Hx _ _ _ Ha) as (i & I1 & I2 & _).
    inversion Hw as [l0 s1|x0 y l0 s1 Hne Hg|n0 l0 s1 s2 b0 Him Hw']; subst.
    - eexists. split; [exists (tk_mr (tok st i)); split; [exact I2|reflexivity]|]. now apply if_unnamed.
    - eexists. split; [exists (tk_mr (tok st i)); split; [exact I2|reflexivity]|]. now apply if_missing.
    - destruct (IH _ _ Hl Hw') as (t & T1 & T2). exists t. split; [exact T1|].
      inversion Him as [|y ids s3 s4 Hne Hr|x0 y m ids s3 s4 Hne Hg Hr]; subst; inversion Hr; subst.
      + now apply if_root.
      + eapply if_definition; eauto.
  Qed.
  Lemma name_walk n t b r r' ts : name_text n t -> blank b -> cuts r r' -> left_over P (b ++ t ++ r) ->
    exists x, walk import_pats ts (b ++ t ++ r) (WDone (ts ++ [x]) r' r') /\ t_rest x = r' /\ gives_name x n /\ slen r' < slen (b ++ t ++ r).
  Proof.
    intros Ht Hb Hr Hlo. destruct (name_read n t r r' Ht Hr (left_follows _ _ _ Hlo (follows_app _ _))) as (x & X1 & X2 & X3). destruct (name_first n t Ht) as (z & u & -> & Hz).
    assert (Hlen : slen r' <= slen r) by (destruct (cuts_follows _ _ Hr) as [y Hy]; rewrite Hy; shorter).
    exists x. split; [|split; [exact X2|split; [exact X3|shorter]]].
    eapply step_skip; [reflexivity|apply sees_wsn; [exact Hb|now apply id_solid]|].
    eapply (tree_step _ _ _ _ x); [reflexivity| |rewrite X2; shorter|rewrite X2; apply wk_nil].
    apply sees_alts0. apply pk_fail; [|apply pk_tree; exact X1]. apply names_stay. apply no_prefix_char. intros <-.
    destruct Hz as [[Hz|Hz]|[Hz|Hz]]; try discriminate; unfold code in Hz; cbn in Hz; lia.
  Qed.
  Lemma names_end b r ts : blank b -> laps "IdentifiersLoop" import_pats ts (b ++ lit "}" ++ r) ts r.
  Proof.
    intros Hb. eapply la_break; [|right; reflexivity|apply pl_skip].
    eapply step_skip; [reflexivity|apply sees_wsn; [exact Hb|vis]|]. apply wk_break. apply sees_alts0. apply pk_break. apply names_close.
  Qed.
  Lemma names_read ns t : names_text ns t -> forall r ts, left_over P (t ++ r) -> exists ts',
    laps "IdentifiersLoop" import_pats ts (t ++ r) (ts ++ ts') r /\ named ns ts' r /\ ts' <> [] /\ follows t [].
  Proof.
    intros H. induction H as [n t b1 b2 Ht H1 H2|n t b1 b2 Ht H1 H2|n t b1 ns u Ht H1 Hu IH]; intros r ts Hlo; rewrite <- !app_assoc in Hlo.
    - destruct (name_walk n t b1 (b2 ++ lit "}" ++ r) (b2 ++ lit "}" ++ r) ts Ht H1) as (x & X1 & X2 & X3 & X4).
      { right. split; [reflexivity|]. eauto. }
      { exact Hlo. }
      exists [x]. rewrite <- !app_assoc. split; [|split; [split|split]].
      + eapply la_next; [exact X1|exact X4|]. now apply names_end.
      + constructor; [exact X3|constructor].
      + constructor; [|constructor]. rewrite X2. exists (b2 ++ lit "}"). now rewrite <- app_assoc.
      + discriminate.
      + eexists. symmetry. apply app_nil_r.
    - destruct (name_walk n t b1 (lit "," ++ b2 ++ lit "}" ++ r) (b2 ++ lit "}" ++ r) ts Ht H1) as (x & X1 & X2 & X3 & X4); [now left|exact Hlo|].
      exists [x]. rewrite <- !app_assoc. split; [|split; [split|split]].
      + eapply la_next; [exact X1|exact X4|]. now apply names_end.
      + constructor; [exact X3|constructor].
      + constructor; [|constructor]. rewrite X2. exists (b2 ++ lit "}"). now rewrite <- app_assoc.
      + discriminate.
      + eexists. symmetry. apply app_nil_r.
    - destruct (name_walk n t b1 (lit "," ++ u ++ r) (u ++ r) ts Ht H1) as (x & X1 & X2 & X3 & X4); [now left|exact Hlo|].
      destruct (IH r (ts ++ [x]) ltac:(eapply left_follows; [exact Hlo|exists (b1 ++ t ++ lit ","); now rewrite <- !app_assoc])) as (ts' & U1 & (U2 & U3) & _ & _).
      exists (x :: ts'). rewrite <- !app_assoc. split; [|split; [split|split]].
      + replace (ts ++ x :: ts') with ((ts ++ [x]) ++ ts') by now rewrite <- app_assoc.
        eapply la_next; [exact X1|exact X4|exact U1].
      + now constructor.
      + constructor; [|exact U3]. rewrite X2. now exists u.
      + discriminate.
      + eexists. symmetry. apply app_nil_r.
  Qed.

  Lemma import_read ns path b1 b2 b3 tn tp : blank_line b1 -> blank_line b2 -> blank_line b3 ->
    names_text ns tn -> string_text path tp ->
    reads_statement (Import ns path) (lit "import" ++ b1 ++ lit "{" ++ tn ++ b2 ++ lit "from" ++ b3 ++ tp).
  Proof.
    intros H1 H2 H3 Hn (raw & Hraw & ->). split.
    { exists "i"%char. eexists. split; [reflexivity|]. left. left. unfold code. cbn. lia. }
    intros r _ Hl. rewrite <- !app_assoc in *. set (w3 := lit "'" ++ raw ++ lit "'" ++ r) in *. set (w2 := b2 ++ lit "from" ++ b3 ++ w3) in *.
    destruct (names_read ns tn Hn w2 []) as (ts & T1 & T2 & T3 & _).
    { eapply left_follows; [exact Hl|]. exists (lit "import" ++ b1 ++ lit "{"). now rewrite <- !app_assoc. }
    cbn [app] in T1.
    exists (Tr "ImportStatement" no_attrs [Tr "ImportIdentifiers" no_attrs ts w2; Tr "Path" (leaf path raw w3) [] r] r).
    split; [|split; [reflexivity|]].
    - apply pk_fail; [apply sees_comment_not; now apply no_prefix_char|]. apply pk_tree. eapply sees_prog; [own| |discriminate].
      eapply step_skip; [reflexivity|apply sees_lit; discriminate|].
      eapply step_skip; [reflexivity|apply sees_ws; [exact H1|reflexivity]|].
      eapply (tree_step _ _ _ _ (Tr "ImportIdentifiers" no_attrs ts w2)); [reflexivity| |cbn [t_rest]; shorter|].
      + destruct (named_spread _ _ _ T2 w2) as (w' & Hw'). apply (sees_prog _ _ _ ts w' w2); [own| |exact T3].
        eapply step_skip; [reflexivity|apply sees_lit; discriminate|].
        change (WDone ts w' w2) with (WDone ([] ++ t_kids (Tr "IdentifiersLoop" no_attrs ts w2)) w' (t_rest (Tr "IdentifiersLoop" no_attrs ts w2))).
        apply wk_proxy_last; [reflexivity| |exact Hw'].
        eapply sees_proxy; try assumption; [constructor; exact T3|].
        apply (sees_rounds "IdentifiersLoop" import_pats 0 true); [own|lia|exact T1|exact T3].
      + cbn [t_rest app]. unfold w2. eapply step_skip; [reflexivity|apply sees_ws; [exact H2|reflexivity]|].
        eapply step_skip; [reflexivity|apply sees_lit; discriminate|].
        eapply step_skip; [reflexivity|apply sees_ws; [exact H3|reflexivity]|].
        eapply step_tree; [reflexivity|apply sees_string; [split; discriminate|exact Hraw]|unfold w3; shorter|]. apply wk_nil.
    - apply (tells_simply _ _ "ImportStatement"); [reflexivity|discriminate|cbn; now rewrite (named_quiet _ _ _ T2)| |].
      { intros h st a Ha name pats s0 bl Hw. pose proof (shown_name _ _ _ _ Ha) as Hnm. cbn [t_name] in Hnm.
        destruct (first_of h st a _ ["ImportIdentifiers"] _ Ha eq_refl) as (i & I1 & I2).
        destruct (first_of h st a _ ["Path"] _ Ha eq_refl) as (j & J1 & J2). apply shown_leaf in J2 as (J2 & _).
        apply shown_kids in I2. cbn [t_kids] in I2.
        apply wrong_import in Hw as [(Hff & ->)|(ff & Hff & [(Hj & ->)|(file & Hj & [(l & s1 & Hc & ->)|[(p & Hc & ->)|(root & isc & s1 & Hc & Hw)]])])].
        - eapply breaks_here; [|now apply tf_forbidden]. exists (tk_mr (tok st a)).
          destruct (shown_frame _ _ _ _ Ha) as (_ & _ & M & _). split; [|split; [|reflexivity]].
          + now inversion Ha.
          + rewrite M. unfold pos. lia.
        - eapply breaks_here; [reflexivity|]. eapply tf_path; eauto. now rewrite J2.
        - eapply breaks_here; [reflexivity|]. eapply tf_refused; eauto. now rewrite J2.
        - eapply breaks_here; [reflexivity|]. eapply tf_crash; eauto. now rewrite J2.
        - destruct (named_fails h st _ isc file ns ts w2 bl T2 _ _ I2 Hw) as (t & B1 & B2).
          eapply breaks_here; [exact B1|]. eapply tf_import; eauto; [now rewrite J2|]. eapply named_says; eassumption. }
      intros h st a Ha name pats s0 s1 Hs. inversion Hs; subst.
      destruct (first_of h st a _ ["ImportIdentifiers"] _ Ha eq_refl) as (i & I1 & I2).
      destruct (first_of h st a _ ["Path"] _ Ha eq_refl) as (j & J1 & J2). apply shown_leaf in J2 as (J2 & _).
      apply shown_kids in I2. cbn [t_kids] in I2.
      eapply tells_node.
      + eapply sy_import; [exact (shown_name _ _ _ _ Ha)|eassumption|exact I1|exact J1|rewrite J2; eassumption|eassumption| |eassumption].
        eapply named_says; eassumption.
      + eapply (proj2 (tells_quiet h st)); [exact (shown_kids _ _ _ _ Ha)|]. cbn. now rewrite (named_quiet _ _ _ T2).
  Qed.
  Lemma statement_read d t : statement_text E d t -> reads_statement d t.
  Proof.
    intros [x y b1 b2 t0 Hx Hy H1 H2 Ht|x o i k l r b1 b2 t0 Hx H1 H2 Ht|ns path b1 b2 b3 tn tp H1 H2 H3 Hn Hp].
    - exact (alias_read x y b1 b2 t0 Hx Hy H1 H2 Ht).
    - now apply define_read.
    - now apply import_read.
  Qed.

  (* ---------- the head of a script ---------- *)

  Definition scope_pats : list matcher := [ScriptWSN0 E; Switch_ choices].
  Inductive head_trees : list statement -> list tree -> Prop :=
  | hd_nil : head_trees [] []
  | hd_comment t ds ts : quiet t = true -> head_trees ds ts -> head_trees ds (t :: ts)
  | hd_statement t d ds ts : tells_statement d t -> head_trees ds ts -> head_trees (d :: ds) (t :: ts).

  Lemma ends_more d u v : statement_ends d u -> statement_ends d (u ++ lit "-->" ++ v).
  Proof.
    destruct u as [|x u]; [|exact (fun H => H)]. intros _. destruct d; cbn; [| |exact Logic.I].
    - intros [[[H|H]|[H|H]]|H]; try discriminate; unfold digit_char, code in H; cbn in H; lia.
    - intros H. repeat destruct H as [H|H]; try discriminate; contradiction.
  Qed.
  Lemma no_choice r : picks choices (lit "-->" ++ r) None.
  Proof.
    apply pk_fail; [apply sees_comment_not; now apply no_prefix_char|].
    apply pk_fail; [eapply sees_prog_fail; [own|]; apply wk_fail; apply sees_lit_not; now apply no_prefix_char|].
    apply pk_fail; [eapply sees_prog_fail; [own|]; apply wk_fail; apply sees_identifier_not; [split; discriminate|reflexivity]|].
    apply pk_fail; [apply never_breaks|apply pk_none].
  Qed.
  Lemma head_laps ds u : statements_text E ds u -> forall r ts, left_over P (u ++ lit "-->" ++ r) -> exists ts',
    laps "Scope" scope_pats ts (u ++ lit "-->" ++ r) (ts ++ ts') (lit "-->" ++ r) /\ head_trees ds ts' /\ (ts' = [] -> blank u) /\
    (ts' <> [] -> 0 < slen u).
  Proof.
    induction 1 as [b Hb|b c ds u Hb Hc Hu Hds IH|b d t ds u Hb Ht He Hds IH]; intros r ts Hl.
    - exists []. rewrite app_nil_r. split; [|split; [constructor|split; [auto|congruence]]]. apply la_fail.
      eapply step_skip; [reflexivity|apply sees_wsn; [exact Hb|vis]|]. apply wk_fail. apply sees_alts0. apply no_choice.
    - rewrite <- !app_assoc in *. set (v := u ++ lit "-->" ++ r) in *.
      set (k := Tr "Comment" (leaf c c (c ++ v)) [] v).
      destruct (IH r (ts ++ [k])) as (ts' & L & T & _ & _).
      { eapply left_follows; [exact Hl|]. exists (b ++ c). now rewrite <- !app_assoc. }
      exists (k :: ts'). split; [|split; [now constructor|split; [discriminate|intros _]]].
      2: { pose proof (comment_len c [] Hc) as Hlen. rewrite !slen_app, slen_nil in *. lia. }
      replace (ts ++ k :: ts') with ((ts ++ [k]) ++ ts') by now rewrite <- app_assoc.
      eapply la_next; [| |exact L].
      + eapply step_skip; [reflexivity|apply sees_wsn; [exact Hb|now apply comment_solid]|].
        eapply (tree_step _ _ _ _ k); [reflexivity| |now apply comment_len|apply wk_nil].
        apply sees_alts0. apply pk_tree. apply sees_comment; [exact Hc|]. unfold v. destruct u as [|y u]; [contradiction|]. now apply line_stops in Hu.
      + pose proof (comment_len c v Hc) as Hlen. rewrite slen_app in Hlen. fold v. shorter.
    - rewrite <- !app_assoc in *. set (v := u ++ lit "-->" ++ r) in *.
      destruct (statement_read d t Ht) as [(y & w & -> & Hy) Hr].
      destruct (Hr v) as (k & K1 & K2 & K3).
      { now apply ends_more. }
      { eapply left_follows; [exact Hl|]. now exists b. }
      destruct (IH r (ts ++ [k])) as (ts' & L & T & _ & _).
      { eapply left_follows; [exact Hl|]. exists (b ++ y :: w). now rewrite <- !app_assoc. }
      exists (k :: ts'). split; [|split; [now constructor|split; [discriminate|intros _]]].
      2: { rewrite !slen_app, slen_cons. lia. }
      replace (ts ++ k :: ts') with ((ts ++ [k]) ++ ts') by now rewrite <- app_assoc.
      eapply la_next; [| |exact L].
      + eapply step_skip; [reflexivity|apply sees_wsn; [exact Hb|now apply id_solid]|].
        eapply (tree_step _ _ _ _ k); [reflexivity| |rewrite K2; shorter|rewrite K2; apply wk_nil].
        apply sees_alts0. exact K1.
      + fold v. shorter.
  Qed.
  Lemma tells_head h st ds ts : head_trees ds ts -> forall l name pats s0 s1, shows_all P h st l ts ->
    all_stated F compile sc from_file ds s0 s1 -> tells st l (name, pats, s0) (name, pats, s1).
  Proof.
    induction 1 as [|t ds ts Ht _ IH|t d ds ts Ht _ IH]; intros l name pats s0 s1 Hl Hs.
    - inversion Hl; subst. inversion Hs; subst. apply tells_nil.
    - apply shown_cons in Hl as (a & l' & -> & Ha & Hl). eapply tells_cons; [eapply (proj1 (tells_quiet h st)); [exact Ha|exact Ht]|]. now apply IH.
    - apply shown_cons in Hl as (a & l' & -> & Ha & Hl). inversion Hs; subst. eapply tells_cons; [eapply Ht; eassumption|]. now apply IH.
  Qed.
  Lemma sound_head h st ds ts : head_trees ds ts -> forall l, shows_all P h st l ts -> sound st l.
  Proof.
    induction 1 as [|t ds ts Ht _ IH|t d ds ts Ht _ IH]; intros l Hl; [inversion Hl; apply sound_nil| |];
      apply shown_cons in Hl as (a & l' & -> & Ha & Hl); apply (sound_app st [a] l'); auto.
    - eapply (proj1 (sound_quiet h st)); eauto.
    - apply (Ht h st a Ha).
  Qed.
  Lemma breaks_head h st ds ts : head_trees ds ts -> forall l name pats s0 b, shows_all P h st l ts ->
    statements_wrong F compile sc from_file ds s0 b -> breaks st l (name, pats, s0) b.
  Proof.
    induction 1 as [|t ds ts Ht _ IH|t d ds ts Ht _ IH]; intros l name pats s0 b Hl Hs.
    - inversion Hs.
    - apply shown_cons in Hl as (a & l' & -> & Ha & Hl).
      eapply (breaks_right st [a] l'); [eapply (proj1 (sound_quiet h st)); eauto|eapply (proj1 (tells_quiet h st)); [exact Ha|exact Ht]|]. now apply IH.
    - apply shown_cons in Hl as (a & l' & -> & Ha & Hl). destruct (Ht h st a Ha) as [H1 H2]. destruct (H2 name pats s0) as [H3 H4]. inversion Hs; subst.
      + apply (breaks_left st [a] l'). now apply H4.
      + eapply (breaks_right st [a] l'); [exact H1|apply H3; eassumption|]. now apply IH.
  Qed.

  Definition setting (l acc : list (str * str)) : list (str * str) := fold_left (fun acc p => assoc_set (fst p) (snd p) acc) l acc.
  Lemma setting_get n l acc : assoc_get n (setting l acc) = match last_of n l with Some v => Some v | None => assoc_get n acc end.
  Proof.
    unfold setting. revert acc. induction l as [|[m v] l IH]; intros acc; [reflexivity|]. cbn [fold_left fst snd last_of]. rewrite IH.
    destruct (last_of n l) as [w|]; [reflexivity|]. destruct (str_eqb m n) eqn:Hm.
    - apply str_eqb_eq in Hm. subst m. apply assoc_get_set_same.
    - apply assoc_get_set_other. intros ->. rewrite str_eqb_refl in Hm. discriminate.
  Qed.
  Lemma set_attrs_setting ps t : tk_attrs (set_attrs ps t) = setting (map (fun p => (snd (fst p), snd p)) ps) (tk_attrs t) /\
    tk_value (set_attrs ps t) = tk_value t.
  Proof.
    unfold set_attrs, setting. revert t. induction ps as [|p ps IH]; intros t; [split; reflexivity|]. cbn [fold_left map fst snd].
    destruct (IH (set_attr (snd (fst p)) (snd p) t)) as [H1 H2]. split; [exact H1|exact H2].
  Qed.
  Lemma pairs_given h st l l' ts : attr_trees l l' ts -> forall ads, shows_all P h st ads ts ->
    exists ps, attr_pairs st ads = Val ps /\ map (fun p => (snd (fst p), snd p)) ps = l.
  Proof.
    induction 1 as [|n v raw l l' ts w i r w1 rest Hts IH Hi Hc Hpast]; intros ads Hs.
    - inversion Hs; subst. now exists [].
    - apply shown_cons in Hs as (a & ads' & -> & Ha & Hs). apply shown_kids in Ha. cbn [t_kids] in Ha.
      apply shown_cons in Ha as (k & l1 & Hk & Hk1 & Ha). apply shown_cons in Ha as (k2 & l2 & -> & Hk2 & _).
      destruct (IH _ Hs) as (ps & Hps & Hm). cbn [attr_pairs]. rewrite Hk, Hps. cbn. eexists. split; [reflexivity|]. cbn [map fst snd].
      apply shown_leaf in Hk1 as (Hk1 & _). apply shown_text in Hk2 as (Hk2 & _). cbn [t_text] in Hk2. rewrite Hi in Hk2. cbn [maybe] in Hk2.
      now rewrite Hk1, Hk2, Hm.
  Qed.
  Lemma attributes_given h st a t l l' ak : shows h st a t -> pick ["Attributes"] (t_kids t) = pick ["Attributes"] ak ->
    attr_kids l l' ak -> (l' = [] -> l = []) -> exists ps, attributes_of st a = Val ps /\ map (fun p => (snd (fst p), snd p)) ps = l.
  Proof.
    intros Ha Hp Hk Hn. unfold attributes_of. destruct Hk as [[-> ->]|(ts & rest & Hl & -> & Ht)].
    - rewrite (proj2 (child_none st a "Attributes")); [exists []; split; [reflexivity|]; symmetry; now apply Hn|].
      eapply none_of; eauto.
    - destruct (first_of _ _ _ _ _ _ Ha Hp) as (k & Hk & Hs). rewrite (proj2 (child_some st a "Attributes" k) Hk).
      apply shown_kids in Hs. now apply (pairs_given h st l l' ts Ht).
  Qed.
  (* what is known of the token of a head *)
  Definition head_info (l : list (str * str)) : info := mkInfo None None None (Some (setting l [])).
  Definition head_pats : list matcher :=
    [MDiscard (Matches_ re_scope_start); ScriptWS0 E; ScriptAttributes E; MDiscard (Equals_ "]"); PinN "EndOfScopeHeader";
     MOptional (LoopN "Scope" scope_pats); MDiscard (Equals_ "-->")].
  Lemma sees_raw_head b l l' ta ds th tb : blank_line b -> attrs_text l l' ta -> l <> [] \/ th <> [] ->
    statements_text E ds th -> (blank th -> th = []) ->
    left_over P (lit "<!--[adextopa" ++ b ++ ta ++ lit "]" ++ th ++ lit "-->" ++ tb) ->
    exists ak sk, sees (ProgramN "AdextopaScope" head_pats) (lit "<!--[adextopa" ++ b ++ ta ++ lit "]" ++ th ++ lit "-->" ++ tb)
        (Some (FTree (Tr "AdextopaScope" no_attrs (ak ++ sk) tb))) /\
      attr_kids l l' ak /\ pick ["Attributes"] sk = None /\
      ((sk = [] /\ ds = []) \/ exists ts r, sk = [Tr "Scope" no_attrs ts r] /\ head_trees ds ts).
  Proof.
    intros Hb Ha Hl0 Hds Hth Hl. set (w := th ++ lit "-->" ++ tb) in *.
    destruct (step_attrs l l' ta (lit "]" ++ w) Ha ltac:(reflexivity) ltac:(vis) ltac:(left; eexists; reflexivity)) as (ak & Hak & Sak).
    assert (Hw : left_over P w).
    { eapply left_follows; [exact Hl|]. exists (lit "<!--[adextopa" ++ b ++ ta ++ lit "]"). now rewrite <- !app_assoc. }
    destruct (head_laps ds th Hds tb [] Hw) as (ts & L & T & Tn & Ts). cbn [app] in L. fold w in L.
    assert (Hsk : exists sk, (l <> [] \/ sk <> []) /\ ((sk = [] /\ ds = []) \/ exists ts r, sk = [Tr "Scope" no_attrs ts r] /\ head_trees ds ts) /\
      pick ["Attributes"] sk = None /\
      forall ms ts0 x, walk ms (ts0 ++ sk) (lit "-->" ++ tb) x -> walk (MOptional (LoopN "Scope" scope_pats) :: ms) ts0 w x).
    { destruct ts as [|t ts].
      - exists []. split; [destruct Hl0 as [H|H]; [now left|]; exfalso; apply H; now apply Hth, Tn|].
        split; [left; split; [reflexivity|now inversion T]|]. split; [reflexivity|]. intros ms ts0 x Hx. rewrite app_nil_r in Hx.
        assert (Hw0 : w = lit "-->" ++ tb) by (unfold w; now rewrite Hth by now apply Tn). rewrite Hw0 in *.
        eapply wk_stay; [|exact Hx]. apply opt_not. apply (sees_no_rounds "Scope" scope_pats 0 true _ (lit "-->" ++ tb)); [own|lia|exact L].
      - eexists. split; [right|split; [right; do 2 eexists; split; [reflexivity|exact T]|]]; [discriminate|]. split; [reflexivity|]. intros ms ts0 x Hx.
        eapply step_tree; [reflexivity|apply opt; apply (sees_rounds "Scope" scope_pats 0 true w (t :: ts) (lit "-->" ++ tb)); [own|lia|exact L|discriminate]| |exact Hx].
        unfold w. specialize (Ts ltac:(discriminate)). rewrite (slen_app th). lia. }
    destruct Hsk as (sk & Hne & Hsk & Hpk & Ssk). exists ak, sk. split; [|auto].
    eapply sees_prog; [own| |].
    - eapply step_skip; [reflexivity|apply sees_gone; [|own]; intros _; apply alt_one; reflexivity|].
      eapply step_skip; [reflexivity|apply sees_ws; [exact Hb|]|].
      { destruct Ha as [|m v0 raw c1 c2 c3 l0 l0' t0 Hm]; [reflexivity|]. apply solid_line. rewrite <- app_assoc. now apply attr_solid. }
      apply Sak. eapply step_skip; [reflexivity|apply sees_lit; discriminate|].
      eapply wk_look; [apply sees_mark; split; discriminate|]. apply Ssk.
      eapply step_skip; [reflexivity|apply sees_lit; discriminate|]. apply wk_nil.
    - intros H. apply app_eq_nil in H as [-> ->]. destruct Hne as [Hne|Hne]; [|congruence].
      destruct Hak as [[Hak _]|(? & ? & _ & Hak & _)]; [|discriminate]. subst l'. inversion Ha; subst; congruence.
  Qed.
  (* the attributes of a head are read as they are written *)
  Lemma head_attrs h st a l l' ta ak sk tb : shows h st a (Tr "AdextopaScope" no_attrs (ak ++ sk) tb) -> attrs_text l l' ta ->
    attr_kids l l' ak -> pick ["Attributes"] sk = None ->
    exists ps, attributes_of st a = Val ps /\ map (fun p => (snd (fst p), snd p)) ps = l /\
      tok (modify st a (set_attrs ps)) a = set_attrs ps (tok st a) /\
      tk_attrs (set_attrs ps (tok st a)) = setting l [] /\ tk_value (set_attrs ps (tok st a)) = None.
  Proof.
    intros Hs Ha Hak Hpk.
    destruct (attributes_given h st a _ l l' ak Hs) as (ps & P1 & P2).
    { cbn [t_kids]. rewrite pick_app, Hpk. now destruct (pick ["Attributes"] ak). }
    { exact Hak. }
    { intros Hl0. destruct Ha; [reflexivity|discriminate]. }
    exists ps. split; [exact P1|]. split; [exact P2|]. split.
    { inversion Hs; subst. apply tok_set_same. unfold heap_size in *. lia. }
    destruct (set_attrs_setting ps (tok st a)) as [S1 S2]. rewrite S1, S2, P2.
    apply shown_text in Hs as (_ & _ & _ & Hs). cbn in Hs. destruct Hs as [-> ->]. auto.
  Qed.
  Lemma sees_head b l l' ta v n ds th tb : blank_line b -> attrs_text l l' ta -> last_of "version" l = Some v -> usize_text n v ->
    statements_text E ds th -> (blank th -> th = []) ->
    left_over P (lit "<!--[adextopa" ++ b ++ ta ++ lit "]" ++ th ++ lit "-->" ++ tb) ->
    exists ak sk, sees (ScriptAdextopaScope E) (lit "<!--[adextopa" ++ b ++ ta ++ lit "]" ++ th ++ lit "-->" ++ tb)
        (Some (FTree (Tr "AdextopaScope" (head_info l) (ak ++ sk) tb))) /\
      forallb quiet ak = true /\
      ((sk = [] /\ ds = []) \/ exists ts r, sk = [Tr "Scope" no_attrs ts r] /\ head_trees ds ts).
  Proof.
    intros Hb Ha Hv Hn Hds Hth Hl.
    destruct (sees_raw_head b l l' ta ds th tb Hb Ha ltac:(left; intros ->; discriminate) Hds Hth Hl) as (ak & sk & Hs0 & Hak & Hpk & Hsk).
    exists ak, sk. split; [|split; [exact (attr_quiet _ _ _ Hak)|exact Hsk]].
    eapply (sees_map _ _ _ (Tr "AdextopaScope" no_attrs (ak ++ sk) tb)); [exact Hs0|reflexivity|].
    intros h st a c Hs.
    destruct (head_attrs h st a l l' ta ak sk tb Hs Ha Hak Hpk) as (ps & P1 & _ & Hsame & Hat).
    exists (modify st a (set_attrs ps)). split; [|split; [reflexivity|]].
    - cbn [map_ok]. rewrite P1. cbn zeta. rewrite Hsame. unfold get_attr. rewrite (proj1 Hat), setting_get, Hv.
      apply parse_usize_spec in Hn. now rewrite Hn.
    - eapply shows_modified; [exact Hs|apply keeps_attrs|]. repeat split; apply Hat.
  Qed.
  Lemma tells_scope h st a l ak sk r ds name pats s0 s1 : shows h st a (Tr "AdextopaScope" (head_info l) (ak ++ sk) r) ->
    forallb quiet ak = true -> ((sk = [] /\ ds = []) \/ exists ts r, sk = [Tr "Scope" no_attrs ts r] /\ head_trees ds ts) ->
    all_stated F compile sc from_file ds s0 s1 ->
    tells st [a] (name, pats, s0) (match last_of "name" l with Some v => v | None => name end, pats, s1).
  Proof.
    intros Ha Hq Hsk Hs. pose proof (shown_text _ _ _ _ Ha) as (_ & _ & _ & T). cbn in T. destruct T as [T _].
    pose proof (shown_kids _ _ _ _ Ha) as Hk. cbn [t_kids] in Hk.
    assert (Hg : get_attr "name" (tok st a) = last_of "name" l) by (unfold get_attr; rewrite T, setting_get; now destruct (last_of _ l)).
    apply tells_node with (w1 := (match last_of "name" l with Some v => v | None => name end, pats, s0)).
    - destruct (last_of "name" l) as [v|] eqn:Hv.
      + apply sy_name; [exact (shown_name _ _ _ _ Ha)|exact Hg].
      + apply sy_no_name; [exact (shown_name _ _ _ _ Ha)|exact Hg].
    - apply shows_all_split in Hk as (l1 & l2 & -> & K1 & K2). eapply tells_app.
      + eapply (proj2 (tells_quiet h st)); [exact K1|exact Hq].
      + destruct Hsk as [[-> ->]|(ts & r0 & -> & Ht)].
        * inversion K2; subst. inversion Hs; subst. apply tells_nil.
        * apply shown_cons in K2 as (k & l3 & -> & Hk & K2). inversion K2; subst.
          eapply tells_node.
          -- apply sy_other. rewrite (shown_name _ _ _ _ Hk). cbn. intros H. repeat destruct H as [H|H]; try discriminate; contradiction.
          -- eapply tells_head; [exact Ht|exact (shown_kids _ _ _ _ Hk)|exact Hs].
  Qed.

  Lemma sound_scope h st a l ak sk r ds : shows h st a (Tr "AdextopaScope" (head_info l) (ak ++ sk) r) ->
    forallb quiet ak = true -> ((sk = [] /\ ds = []) \/ exists ts r, sk = [Tr "Scope" no_attrs ts r] /\ head_trees ds ts) -> sound st [a].
  Proof.
    intros Ha Hq Hsk. apply sound_node; [rewrite (shown_name _ _ _ _ Ha); discriminate|].
    pose proof (shown_kids _ _ _ _ Ha) as Hk. cbn [t_kids] in Hk.
    apply shows_all_split in Hk as (l1 & l2 & -> & K1 & K2). apply sound_app; [eapply (proj2 (sound_quiet h st)); eauto|].
    destruct Hsk as [[-> ->]|(ts & r0 & -> & Ht)]; [inversion K2; apply sound_nil|].
    apply shown_cons in K2 as (k & l3 & -> & Hk & K2). inversion K2; subst.
    apply sound_node; [rewrite (shown_name _ _ _ _ Hk); discriminate|]. eapply sound_head; [exact Ht|exact (shown_kids _ _ _ _ Hk)].
  Qed.
  Lemma breaks_scope h st a l ak sk r ds name pats s0 b : shows h st a (Tr "AdextopaScope" (head_info l) (ak ++ sk) r) ->
    forallb quiet ak = true -> ((sk = [] /\ ds = []) \/ exists ts r, sk = [Tr "Scope" no_attrs ts r] /\ head_trees ds ts) ->
    statements_wrong F compile sc from_file ds s0 b -> breaks st [a] (name, pats, s0) b.
  Proof.
    intros Ha Hq Hsk Hs. pose proof (shown_text _ _ _ _ Ha) as (_ & _ & _ & T). cbn in T. destruct T as [T _].
    pose proof (shown_kids _ _ _ _ Ha) as Hk. cbn [t_kids] in Hk.
    assert (Hg : get_attr "name" (tok st a) = last_of "name" l) by (unfold get_attr; rewrite T, setting_get; now destruct (last_of _ l)).
    apply breaks_below with (w1 := (match last_of "name" l with Some v => v | None => name end, pats, s0)).
    - rewrite (shown_name _ _ _ _ Ha). discriminate.
    - destruct (last_of "name" l) as [v|] eqn:Hv.
      + apply sy_name; [exact (shown_name _ _ _ _ Ha)|exact Hg].
      + apply sy_no_name; [exact (shown_name _ _ _ _ Ha)|exact Hg].
    - apply shows_all_split in Hk as (l1 & l2 & -> & K1 & K2).
      eapply breaks_right; [eapply (proj2 (sound_quiet h st)); eauto|eapply (proj2 (tells_quiet h st)); [exact K1|exact Hq]|].
      destruct Hsk as [[-> ->]|(ts & r0 & -> & Ht)]; [inversion Hs|].
      apply shown_cons in K2 as (k & l3 & -> & Hk & K2). inversion K2; subst.
      eapply breaks_below; [rewrite (shown_name _ _ _ _ Hk); discriminate| |eapply breaks_head; [exact Ht|exact (shown_kids _ _ _ _ Hk)|exact Hs]].
      apply sy_other. rewrite (shown_name _ _ _ _ Hk). cbn. intros H. repeat destruct H as [H|H]; try discriminate; contradiction.
  Qed.

  (* ---------- what comes before a script ---------- *)

  Definition pre_pats : list matcher := [ScriptWSN0 E; ScriptComment].
  Lemma lead_laps lead : lead_text lead -> forall r ts, solid r -> ~ has_prefix (lit "#") r -> exists ts',
    laps "PreHead" pre_pats ts (lead ++ r) (ts ++ ts') r /\ forallb quiet ts' = true /\ (ts' = [] -> blank lead) /\
    (ts' <> [] -> 0 < slen lead).
  Proof.
    induction 1 as [b Hb|b c u Hb Hc Hu Hl IH]; intros r ts Hr Hn.
    - exists []. rewrite app_nil_r. split; [|split; [reflexivity|split; [auto|congruence]]]. apply la_fail.
      eapply step_skip; [reflexivity|apply sees_wsn; [exact Hb|exact Hr]|]. apply wk_fail. now apply sees_comment_not.
    - rewrite <- !app_assoc. set (v := u ++ r). set (k := Tr "Comment" (leaf c c (c ++ v)) [] v).
      destruct (IH r (ts ++ [k]) Hr Hn) as (ts' & L & T & _ & _).
      pose proof (comment_len c v Hc) as Hlen. rewrite slen_app in Hlen.
      exists (k :: ts'). split; [|split; [exact T|split; [discriminate|intros _; shorter]]].
      replace (ts ++ k :: ts') with ((ts ++ [k]) ++ ts') by now rewrite <- app_assoc.
      eapply la_next; [| |exact L].
      + eapply step_skip; [reflexivity|apply sees_wsn; [exact Hb|now apply comment_solid]|].
        eapply (tree_step _ _ _ _ k); [reflexivity| |now apply comment_len|apply wk_nil].
        apply sees_comment; [exact Hc|]. unfold v. destruct u as [|y u]; [contradiction|]. now apply line_stops in Hu.
      + fold v. shorter.
  Qed.
  Lemma step_lead lead r : lead_text lead -> solid r -> ~ has_prefix (lit "#") r -> exists pk, forallb quiet pk = true /\
    forall ms x, walk ms pk r x -> walk (MOptional (LoopN "PreHead" pre_pats) :: ScriptWSN0 E :: ms) [] (lead ++ r) x.
  Proof.
    intros Hl Hr Hn. destruct (lead_laps lead Hl r [] Hr Hn) as (ts & L & T & Tn & Ts). cbn [app] in L.
    destruct ts as [|t ts].
    - exists []. split; [reflexivity|]. intros ms x Hx. eapply wk_stay.
      + apply opt_not. apply (sees_no_rounds "PreHead" pre_pats 0 true _ r); [own|lia|exact L].
      + eapply step_skip; [reflexivity|apply sees_wsn; [now apply Tn|exact Hr]|exact Hx].
    - exists [Tr "PreHead" no_attrs (t :: ts) r]. split; [change (forallb quiet (t :: ts) && true = true); now rewrite T|]. intros ms x Hx.
      eapply step_tree; [reflexivity|apply opt; apply (sees_rounds "PreHead" pre_pats 0 true (lead ++ r) (t :: ts) r); [own|lia|exact L|discriminate]| |].
      + specialize (Ts ltac:(discriminate)). shorter.
      + eapply step_skip; [reflexivity|apply (sees_wsn [] r); [constructor|exact Hr]|exact Hx].
  Qed.

  (* ---------- patterns are no heads ---------- *)

  Lemma core_no_dash k t : writes_core E k t -> exists x u, t = x :: u /\ x <> "-"%char.
  Proof.
    destruct 1 as [v t Hv|id Hid| | | |]; try (do 2 eexists; split; [reflexivity|discriminate]).
    destruct Hid as (x & u & -> & Hx & _). exists x, u. split; [reflexivity|]. now apply id_no_hash in Hx.
  Qed.
  Lemma bare_no_head o i k l q t u : writes_bare E o i k l q t -> ~ has_prefix (lit "<!-") (t ++ u).
  Proof.
    destruct 1 as [o i k l l' q b1 tk b2 tl tr Hb1 Hk _ _ _ _]. intros [z Hz].
    destruct (core_no_dash k tk Hk) as (x & v & -> & Hx).
    destruct written_patterns as (_ & _ & Hc & _). apply Hc in Hk as [(x' & v' & He & _ & _ & Hx') _]. injection He as <- _.
    destruct o; try discriminate. destruct i; cbn [sign_text app lit list_ascii_of_string] in Hz; injection Hz as Hz; try discriminate;
      destruct Hb1 as [|y b1 Hy _]; cbn [app] in Hz; injection Hz as Hz _; subst; try congruence;
      unfold blank_char, code in Hy; cbn in Hy; lia.
  Qed.
  Lemma pattern_no_head p t u : writes E p t -> ~ has_prefix (lit "<!-") (t ++ u).
  Proof.
    destruct 1 as [o i k l r t H|o i k l r t b1 b2 H _ _|n tn o i k l r t b1 b2 b3 H _ _ _ _].
    - eapply bare_no_head; exact H.
    - now apply no_prefix_char.
    - now apply no_prefix_char.
  Qed.
  Lemma lit_none v rest : forall w, ~ has_prefix v w -> match_items (lit_re v ++ rest) (chars w) = None.
  Proof.
    induction v as [|x v IH]; intros w H; [exfalso; apply H; now exists w|]. destruct w as [|y w]; [reflexivity|].
    cbn [lit_re map app]. destruct (Ascii.ascii_dec x y) as [<-|Hne].
    - cbn [match_items chars map]. rewrite ch_true. unfold lit_re, chars in IH. rewrite IH; [reflexivity|].
      intros [z ->]. apply H. now exists z.
    - apply one_not. cbn. apply ch_false. congruence.
  Qed.
  Lemma no_head w : ~ has_prefix (lit "<!-") w -> sees (ScriptAdextopaScope E) w None.
  Proof.
    intros H. apply sees_map_fail; auto. eapply sees_prog_fail; [own|]. apply wk_fail. apply sees_discard_fail; try assumption.
    apply sees_regex_not; [|own]. intros _. apply alt_none.
    now apply (lit_none (lit "<!-") (lit_re "-[adextopa")).
  Qed.
  Lemma body_first ps t : body_text E ps t -> ps <> [] -> exists lead u, t = lead ++ u /\ lead_text lead /\ body_text E ps u /\
    pat_start u /\ ~ has_prefix (lit "<!-") u.
  Proof.
    induction 1 as [b Hb|b c ps u Hb Hc Hu Hbody IH|b p t ps u Hb Ht Hbody _]; intros Hps; [congruence| |].
    - destruct (IH Hps) as (lead & v & -> & L & B1 & B2 & B3). exists (b ++ c ++ lead), v. rewrite <- !app_assoc.
      split; [reflexivity|]. split; [|auto]. apply ld_comment; auto.
      destruct Hu as [Hu|Hu]; [apply app_eq_nil in Hu as [_ ->]; destruct B2 as (? & ? & ? & _); discriminate|].
      destruct lead as [|x lead]; [|exact Hu]. destruct B2 as (x & w & -> & Hx). cbn in Hu, Hx. unfold line_end, code in Hu.
      repeat destruct Hx as [<-|Hx]; try contradiction; cbn in Hu; lia.
    - exists b, (t ++ u). split; [reflexivity|]. split; [now constructor|]. split; [apply (bt_pattern E [] p t ps u); [constructor|exact Ht|exact Hbody]|]. split.
      + destruct (proj1 written_patterns _ _ Ht) as [(x & v & -> & Hx) _]. exists x, (v ++ u). auto.
      + eapply pattern_no_head; exact Ht.
  Qed.

  (* ---------- patterns ---------- *)

  Lemma body_quiet ps ts : body_trees ps ts -> forallb quiet ts = true.
  Proof.
    induction 1 as [|t ps ts [Hn Hk] _ IH|t p ps ts _ _ Hq _ IH]; [reflexivity| |]; cbn [forallb].
    - rewrite IH, andb_true_r. destruct t as [n i k r]. cbn in Hn, Hk. now subst.
    - now rewrite Hq.
  Qed.
  Lemma body_says h st ps ts : body_trees ps ts -> forall l, shows_all P h st l ts ->
    let l := filter (pattern_token st) l in
    match first_fault (map fault_of ps) with None => patterns_mean E st l (map meaning ps) | Some f => patterns_fail E st l f end.
  Proof.
    induction 1 as [|t ps ts [Hn Hk] _ IH|t p ps ts Hn Hm _ _ IH]; intros l Hl.
    - inversion Hl; subst. constructor.
    - apply shown_cons in Hl as (a & l' & -> & Ha & Hl). cbn [filter].
      assert (Hp : pattern_token st a = false) by (unfold pattern_token; rewrite (shown_name _ _ _ _ Ha), Hn; reflexivity).
      rewrite Hp. now apply IH.
    - apply shown_cons in Hl as (a & l' & -> & Ha & Hl). cbn [filter].
      assert (Hp : pattern_token st a = true).
      { unfold pattern_token. rewrite (shown_name _ _ _ _ Ha). cbn in Hn. destruct Hn as [<-|[<-|[]]]; reflexivity. }
      rewrite Hp. cbn [map first_fault]. pose proof (Hm _ _ _ Ha) as Hf. unfold pattern_fate in Hf.
      destruct (fault_of p); [now apply pl_here|]. specialize (IH _ Hl). cbn zeta in IH. destruct (first_fault _); [eapply pl_later; eauto|now constructor].
  Qed.
  Lemma no_faults ps : faultless ps -> first_fault (map fault_of ps) = None.
  Proof. induction 1 as [|p ps Hp _ IH]; [reflexivity|]. cbn. now rewrite Hp. Qed.
  Lemma breaks_patterns h st a ps ts r name pats s0 f : body_trees ps ts -> shows h st a (Tr "PatternScope" no_attrs ts r) ->
    first_fault (map fault_of ps) = Some f -> breaks st [a] (name, pats, s0) (Faulty f).
  Proof.
    intros Hb Ha Hf. destruct (fault_trouble f) as (t & Hft). apply (breaks_here _ _ _ _ _ (Faulty f) t Hft). eapply tf_patterns; [exact (shown_name _ _ _ _ Ha)| |exact Hft].
    pose proof (body_says h st ps ts Hb _ (shown_kids _ _ _ _ Ha)) as H. cbn zeta in H. now rewrite Hf in H.
  Qed.
  Lemma tells_patterns h st a ps ts r name pats s0 : faultless ps -> body_trees ps ts -> shows h st a (Tr "PatternScope" no_attrs ts r) ->
    tells st [a] (name, pats, s0) (name, pats ++ map meaning ps, s0).
  Proof.
    intros Hps Hb Ha. eapply tells_node.
    - apply sy_patterns; [exact (shown_name _ _ _ _ Ha)|]. pose proof (body_says h st ps ts Hb _ (shown_kids _ _ _ _ Ha)) as H. cbn zeta in H.
      rewrite (no_faults ps Hps) in H. exact H.
    - eapply (proj2 (tells_quiet h st)); [exact (shown_kids _ _ _ _ Ha)|now apply (body_quiet ps)].
  Qed.

  (* ---------- scripts ---------- *)

  Definition script_pats : list matcher :=
    [MOptional (LoopN "PreHead" pre_pats); ScriptWSN0 E; MOptional (ScriptAdextopaScope E); MOptional (ScriptPatternScope E)].
  Definition tells_script (d : script) (t : tree) : Prop :=
    forall h st a, shows h st a t -> forall name s0 s1,
      (all_stated F compile sc from_file (s_statements d) s0 s1 -> faultless (s_patterns d) ->
         tells st [a] (name, [], s0) (s_name name d, map meaning (s_patterns d), s1)) /\
      (forall b, script_wrong F compile sc from_file d s0 b -> breaks st [a] (name, [], s0) b).
  Lemma script_node w kids r : walk script_pats [] w (WDone kids r r) ->
    (exists k, pick ["AdextopaScope"] kids = Some k) \/ (exists k, pick ["PatternScope"] kids = Some k) ->
    sees (Script_ E) w (Some (FTree (Tr "Script" no_attrs kids r))).
  Proof.
    intros Hw Hp. eapply sees_map; [eapply sees_prog; [own|exact Hw|]|reflexivity|].
    - intros ->. destruct Hp as [[k Hp]|[k Hp]]; discriminate.
    - intros h st a c Ha. exists st. split; [|auto]. cbn [map_ok].
      destruct Hp as [[k Hp]|[k Hp]]; destruct (first_of h st a _ _ k Ha Hp) as (x & X1 & _).
      + rewrite (proj2 (child_some st a "AdextopaScope" x) X1). reflexivity.
      + rewrite (proj2 (child_some st a "PatternScope" x) X1). now destruct (find_child _ _ _).
  Qed.
  Lemma step_body ps u : body_text E ps u -> exists bk, (ps <> [] -> bk <> []) /\ 
    ((bk = [] /\ ps = []) \/ exists ts, bk = [Tr "PatternScope" no_attrs ts []] /\ body_trees ps ts) /\
    exists r, forall ts, walk [MOptional (ScriptPatternScope E)] ts u (WDone (ts ++ bk) r r).
  Proof.
    intros H. destruct (sees_patterns ps u H) as [(ts & T1 & T2 & T3 & T4)|[-> Hn]].
    - exists [Tr "PatternScope" no_attrs ts []]. split; [discriminate|]. split; [right; eauto|]. exists []. intros ts0.
      eapply step_tree; [reflexivity|apply opt; exact T4|rewrite slen_nil; exact T3|apply wk_nil].
    - exists []. split; [congruence|]. split; [now left|]. exists u. intros ts0. rewrite app_nil_r.
      eapply wk_stay; [now apply opt_not|]. apply wk_nil.
  Qed.
  Lemma tells_body h st l ps bk name pats s0 : ((bk = [] /\ ps = []) \/ exists ts, bk = [Tr "PatternScope" no_attrs ts []] /\ body_trees ps ts) ->
    shows_all P h st l bk -> faultless ps -> tells st l (name, pats, s0) (name, pats ++ map meaning ps, s0).
  Proof.
    intros [[-> ->]|(ts & -> & T)] Hl Hps.
    - inversion Hl; subst. cbn [map]. rewrite app_nil_r. apply tells_nil.
    - apply shown_cons in Hl as (a & l' & -> & Ha & Hl). inversion Hl; subst. eapply tells_patterns; eassumption.
  Qed.
  Lemma breaks_body h st l ps bk name pats s0 f : ((bk = [] /\ ps = []) \/ exists ts, bk = [Tr "PatternScope" no_attrs ts []] /\ body_trees ps ts) ->
    shows_all P h st l bk -> first_fault (map fault_of ps) = Some f -> breaks st l (name, pats, s0) (Faulty f).
  Proof.
    intros [[-> ->]|(ts & -> & T)] Hl Hps; [discriminate|].
    apply shown_cons in Hl as (a & l' & -> & Ha & Hl). inversion Hl; subst. eapply breaks_patterns; eassumption.
  Qed.
  Lemma pick_quiet ts (n : String.string) : In n loud -> forallb quiet ts = true -> pick [n] ts = None.
  Proof.
    intros Hn. induction ts as [|[m i k r] ts IH]; [reflexivity|]. cbn [forallb]. intros H. apply andb_true_iff in H as [H1 H2].
    apply quiet_split in H1 as [H1 _]. cbn [pick existsb t_name]. destruct (str_eqb m (lit n)) eqn:He; [|now apply IH].
    apply str_eqb_eq in He. subst m. exfalso. apply H1. now apply in_map.
  Qed.
  Theorem sees_script d w : script_text E d w -> left_over P w ->
    exists t, sees (Script_ E) w (Some (FTree t)) /\ t_name t = lit "Script" /\ tells_script d t /\
      (forall k, In k (t_kids t) -> t_name k <> lit "Error").
  Proof.
    assert (Hquiet : forall pk k, forallb quiet pk = true -> In k pk -> t_name k <> lit "Error").
    { intros pk [m i ks r] Hq Hk. rewrite forallb_forall in Hq. apply Hq, quiet_split in Hk as [Hk _]. cbn [t_name]. intros ->. apply Hk. cbn. auto. }
    assert (Hbk : forall ps bk k, ((bk = [] /\ ps = []) \/ exists ts, bk = [Tr "PatternScope" no_attrs ts []] /\ body_trees ps ts) ->
      In k bk -> t_name k <> lit "Error").
    { intros ps bk k [[-> _]|(ts & -> & _)] Hk; [destruct Hk|]. destruct Hk as [<-|[]]. discriminate. }
    intros Hd Hl. destruct Hd as [ps t Hps Hbody|l l' v n ds ps lead b ta th tb Hlead Hb Hta Hv Hn Hth Hblank Htb].
    - destruct (body_first ps t Hbody Hps) as (lead & u & -> & L & B1 & B2 & B3).
      assert (Hsolid : solid u /\ ~ has_prefix (lit "#") u).
      { split; [rewrite <- (app_nil_r u); now apply pat_solid|]. destruct B2 as (x & v & -> & Hx). apply no_prefix_char. intros <-. cbn in Hx.
        repeat destruct Hx as [Hx|Hx]; try discriminate; contradiction. }
      destruct Hsolid as [S1 S2]. destruct (step_lead lead u L S1 S2) as (pk & Pq & Pw).
      destruct (step_body ps u B1) as (bk & Bn & Bk & r & Bw).
      exists (Tr "Script" no_attrs (pk ++ bk) r). split; [|split; [reflexivity|split]].
      + apply script_node.
        * apply Pw. eapply wk_stay; [apply opt_not; now apply no_head|]. apply Bw.
        * right. destruct Bk as [[_ ->]|(ts & -> & _)]; [congruence|]. eexists. rewrite pick_app, (pick_quiet _ "PatternScope"); [reflexivity|cbn; auto 10|exact Pq].
      + intros h st a Ha name s0 s1.
        pose proof (shown_kids _ _ _ _ Ha) as Hk. cbn [t_kids] in Hk. apply shows_all_split in Hk as (l1 & l2 & Hk & K1 & K2).
        assert (Hsay : forall w, token_says E F compile st sc from_file a w w).
        { intros w0. apply sy_other; rewrite (shown_name _ _ _ _ Ha); cbn; intros H; repeat destruct H as [H|H]; try discriminate; contradiction. }
        split.
        * intros Hs Hf. cbn in Hs. inversion Hs; subst.
          eapply tells_node; [apply Hsay|].
          rewrite Hk. eapply tells_app; [eapply (proj2 (tells_quiet h st)); [exact K1|exact Pq]|].
          exact (tells_body h st l2 ps bk name [] s1 Bk K2 Hf).
        * intros b0 Hs. eapply breaks_below; [rewrite (shown_name _ _ _ _ Ha); discriminate|apply Hsay|].
          rewrite Hk. eapply breaks_right; [eapply (proj2 (sound_quiet h st)); eauto|eapply (proj2 (tells_quiet h st)); [exact K1|exact Pq]|].
          destruct Hs as [bl Hs|f s2 Hs Hf]; cbn in Hs; inversion Hs; subst. eapply breaks_body; eauto.
      + cbn [t_kids]. intros k Hk. apply in_app_or in Hk as [Hk|Hk]; eauto.
    - set (w := lit "<!--[adextopa" ++ b ++ ta ++ lit "]" ++ th ++ lit "-->" ++ tb) in *.
      destruct (step_lead lead w Hlead) as (pk & Pq & Pw); [vis|now apply no_prefix_char|].
      destruct (sees_head b l l' ta v n ds th tb Hb Hta Hv Hn Hth Hblank) as (ak & sk & H1 & H2 & H3).
      { eapply left_follows; [exact Hl|]. now exists lead. }
      fold w in H1. destruct (step_body ps tb Htb) as (bk & Bn & Bk & r & Bw).
      set (hk := Tr "AdextopaScope" (head_info l) (ak ++ sk) tb) in *.
      exists (Tr "Script" no_attrs ((pk ++ [hk]) ++ bk) r). split; [|split; [reflexivity|split]].
      + apply script_node.
        * apply Pw. eapply (tree_step _ _ _ _ hk); [reflexivity|apply opt; exact H1|unfold w; cbn [t_rest hk]; shorter|]. cbn [t_rest hk]. apply Bw.
        * left. eexists. rewrite pick_app, pick_app, (pick_quiet _ "AdextopaScope"); [reflexivity|cbn; auto 10|exact Pq].
      + intros h st a Ha name s0 s1.
        pose proof (shown_kids _ _ _ _ Ha) as Hk. cbn [t_kids] in Hk. apply shows_all_split in Hk as (l1 & l2 & Hk & K1 & K2).
        apply shows_all_split in K1 as (l3 & l4 & -> & K3 & K4). apply shown_cons in K4 as (x & l5 & -> & Hx & K4). inversion K4; subst.
        assert (Hsay : forall w, token_says E F compile st sc from_file a w w).
        { intros w0. apply sy_other; rewrite (shown_name _ _ _ _ Ha); cbn; intros H; repeat destruct H as [H|H]; try discriminate; contradiction. }
        split.
        * intros Hs Hf. cbn [s_statements s_head] in Hs. eapply tells_node; [apply Hsay|].
          rewrite Hk. eapply tells_app; [eapply tells_app; [eapply (proj2 (tells_quiet h st)); [exact K3|exact Pq]|]|].
          -- eapply tells_scope; eassumption.
          -- exact (tells_body h st l2 ps bk _ [] s1 Bk K2 Hf).
        * intros b0 Hs. eapply breaks_below; [rewrite (shown_name _ _ _ _ Ha); discriminate|apply Hsay|]. rewrite Hk.
          destruct Hs as [bl Hs|f s2 Hs Hf]; cbn [s_statements s_head] in Hs.
          -- apply breaks_left. eapply breaks_right; [eapply (proj2 (sound_quiet h st)); eauto|eapply (proj2 (tells_quiet h st)); [exact K3|exact Pq]|].
             eapply breaks_scope; eassumption.
          -- eapply breaks_right.
             ++ apply sound_app; [eapply (proj2 (sound_quiet h st)); eauto|]. eapply sound_scope; eassumption.
             ++ eapply tells_app; [eapply (proj2 (tells_quiet h st)); [exact K3|exact Pq]|]. eapply tells_scope; eassumption.
             ++ eapply breaks_body; eauto.
      + cbn [t_kids]. intros k Hk. apply in_app_or in Hk as [Hk|Hk]; [|eauto]. apply in_app_or in Hk as [Hk|[<-|[]]]; [eauto|discriminate].
  Qed.
End ScriptText.
