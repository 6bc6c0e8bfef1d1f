(* What becomes of scripts that are not written well. *)
From Verif Require Import TokenizeProofs ScopeProofs TreeProofs DepthProofs CombProofs MapProofs LoopProofs.
From Verif Require Import ScriptTextProofs ScriptProofs CompileProofs.
Open Scope string_scope.
Open Scope list_scope.
Open Scope N_scope.

(* ---------- trees that are left as they are ---------- *)

Lemma nested_quiet st roots errs : nested_errors st roots errs ->
  forall all, preorder st roots all -> (forall a k, In a all -> In k (tk_kids (tok st a)) -> is_error (tok st k) = false) -> errs = [].
Proof.
  induction 1 as [|a roots l1 l2 H1 IH1 H2 IH2]; intros all Ha He; [reflexivity|].
  inversion Ha as [|a0 roots0 m1 m2 Hm1 Hm2]; subst.
  rewrite (IH1 m1), (IH2 m2); auto.
  - unfold error_kids. rewrite app_nil_r. cbn [app]. apply filter_nothing. intros k Hk. apply (He a k); [now left|exact Hk].
  - intros b k Hb. apply He. right. apply in_or_app. now right.
  - intros b k Hb. apply He. right. apply in_or_app. now left.
Qed.
Lemma hoisted_quiet st root st' l : hoisted st root st' -> preorder st (tk_kids (tok st root)) l ->
  (forall a k, In a l -> In k (tk_kids (tok st a)) -> is_error (tok st k) = false) -> forall a, tok st' a = tok st a.
Proof.
  intros (_ & _ & l' & errs & Hp & Hn & Hr & Hl & Ho) Hpre He a.
  rewrite (preorder_det _ _ _ Hp _ Hpre) in *.
  assert (errs = []) as -> by (now apply (nested_quiet _ _ _ Hn l Hpre)).
  rewrite app_nil_r, set_kids_same in Hr.
  destruct (Nat.eq_dec a root) as [->|Hne]; [exact Hr|].
  destruct (in_dec Nat.eq_dec a l) as [Hi|Hi]; [|now apply Ho].
  rewrite (Hl a Hi). unfold other_kids. rewrite filter_all; [apply set_kids_same|].
  intros k Hk. now rewrite (He a k Hi Hk).
Qed.

Section Broken.
  Variables (E : env) (P : parser) (s : sid).
  Hypothesis HE : tame E.
  Hypothesis Hascii : ascii_only (p_src P).
  Hypothesis Hsmall : slen (p_src P) < isize_bound.
  Notation B := (script_known E).
  Notation sees := (sees E P s B).
  Notation laps := (laps E P s B).
  Notation shows := (shows P).
  Notation pos := (pos P).
  Notation left_over := (left_over P).

  (* ---------- error tokens ---------- *)

  Definition bad (h : nat) (st : state) (a : addr) : Prop :=
    (h <= a < heap_size st)%nat /\ tk_kind (tok st a) = KStandard /\ is_error (tok st a) = true /\
    tk_name (tok st a) = lit "Error" /\ get_attr "__message" (tok st a) <> None /\ tk_kids (tok st a) = [].
  Lemma bad_same h st st' a : same_looks h st st' -> bad h st a -> bad h st' a.
  Proof.
    intros [H1 H2] (A1 & A2 & A3 & A4 & A5 & A6). destruct (H2 a A1) as (B1 & B2 & B3 & B4 & B5 & B6 & B7 & B8 & B9).
    split; [lia|]. unfold is_error, get_attr in *. rewrite B1, B2, B7, B8, B9. auto.
  Qed.
  (* [m] gives an error token that ends before [e] *)
  Definition errs (m : matcher) (w e : str) : Prop :=
    forall c st, c_debug c = 0 -> c_off c = mkR (pos w) (slen (p_src P)) -> known s B st -> left_over w ->
    exists a st', Runs E P m c s st (Ok (SToken a)) st' /\ known s B st' /\ bad (heap_size st) st' a /\
      tk_cr (tok st' a) = tk_mr (tok st' a) /\ re (tk_mr (tok st' a)) = pos e /\ rs (tk_mr (tok st' a)) < usize_max /\ left_over e.
  Lemma errs_opt m w e : errs m w e -> errs (MOptional m) w e.
  Proof.
    intros H c st Hd Hc Hk Hl. destruct (H (clone_with_name c "Optional") st Hd Hc Hk Hl) as (a & st' & D & R).
    exists a, st'. split; [|exact R]. apply optional_runs. right. split; [discriminate|exact D].
  Qed.

  (* ---------- programs that collect trees and errors ---------- *)

  Inductive kid := KTree (t : tree) | KBad.
  Definition looks_like (h : nat) (st : state) (a : addr) (k : kid) : Prop :=
    match k with KTree t => shows h st a t | KBad => bad h st a end.
  Lemma looks_like_same h st st' a k : same_looks h st st' -> looks_like h st a k -> looks_like h st' a k.
  Proof. intros H. destruct k; [now apply shows_same|now apply bad_same]. Qed.
  Lemma kids_same h st st' l ks : same_looks h st st' -> Forall2 (looks_like h st) l ks -> Forall2 (looks_like h st') l ks.
  Proof. intros H. induction 1; constructor; auto. eapply looks_like_same; eauto. Qed.

  Inductive stroll : bool -> list matcher -> list kid -> str -> list kid -> bool -> Prop :=
  | so_nil b ks w : stroll b [] ks w ks b
  | so_tree b m ms ks w t ks' b' : m_consuming m = true -> sees m w (Some (FTree t)) -> slen (t_rest t) < slen w ->
      stroll b ms (ks ++ [KTree t]) (t_rest t) ks' b' -> stroll b (m :: ms) ks w ks' b'
  | so_skip b m ms ks w r ks' b' : m_consuming m = true -> sees m w (Some (FSkip r)) ->
      stroll true ms ks r ks' b' -> stroll b (m :: ms) ks w ks' b'
  | so_bad m ms ks w e ks' b' : m_consuming m = true -> errs m w e ->
      stroll true ms (ks ++ [KBad]) e ks' b' -> stroll true (m :: ms) ks w ks' b'.

  Definition gathers (b : bool) (h : nat) (done : list piece) (st : state) (ks : list kid) : Prop :=
    Forall2 (looks_like h st) (all_kids done) ks /\ highest (all_mr done) <= slen (p_src P) /\
    (ks <> [] -> lowest (all_cr done) < usize_max /\ lowest (all_mr done) < usize_max) /\
    (b = true -> lowest (all_mr done) = 0).
  Lemma gathers_same b h done st st' ks : same_looks h st st' -> gathers b h done st ks -> gathers b h done st' ks.
  Proof. intros H (H1 & H2 & H3). split; [now apply (kids_same h st)|auto]. Qed.
  Lemma pos_in w : left_over w -> pos w <= slen (p_src P).
  Proof. intros H. apply (left_len P Hsmall) in H. unfold SeesProofs.pos. lia. Qed.

  Lemma stroll_pass b ms ks w ks' b' : stroll b ms ks w ks' b' -> forall c name pt h done st,
    c_debug c = 0 -> c_off c = mkR 0 (slen (p_src P)) -> left_over w ->
    known s B st -> (h <= heap_size st)%nat -> gathers b h done st ks ->
    exists done' off st', pass E P c name s pt ms done (pos w) st (AllDone done' off st') /\ gathers b' h done' st' ks' /\
      known s B st' /\ preserved h st st'.
  Proof.
    induction 1 as [b ks w|b m ms ks w t ks' b' Hcm Hm Hlt Hw IH|b m ms ks w r ks' b' Hcm Hm Hw IH|m ms ks w e ks' b' Hcm Hm Hw IH];
      intros c name pt h done st Hd Hc Hl Hk Hh Hg.
    - exists done, (pos w), st. split; [constructor|]. split; [exact Hg|]. split; [exact Hk|apply preserved_refl].
    - destruct (Hm (pattern_ctx c name pt (pos w)) st) as (y & st1 & D & K & O); auto.
      { cbn. now rewrite Hc. }
      destruct y as [y|[|]]; cbn in O; try contradiction. inversion O as [a t0 Ha Hf| | | | |]; subst.
      pose proof (frame_looks E P s HE Hsmall _ _ _ _ _ D h) as L1. pose proof (run_preserved E P s HE _ _ _ _ _ h D Hh) as L2.
      pose proof (frame_size E P s HE _ _ _ _ _ D) as L3.
      apply (shows_lower P Hsmall _ h) in Ha as Ha'; [|exact Hh].
      pose proof (looks_adopt P Hsmall h st1 a (Some pt)) as Hs.
      set (t' := set_parent (Some pt) (tok st1 a)) in *.
      inversion Ha as [a0 nm text kids rest A1 A2 A3 A4 A5 A6 A7 A8 A9 A10 A11 A12]; subst a0 t. cbn [t_rest] in *.
      assert (Hg' : gathers b h (done ++ [token_piece a true t']) (set_tok st1 a t') (ks ++ [KTree (Tr nm text kids rest)])).
      { destruct (gathers_same _ _ _ _ _ _ L1 Hg) as (G1 & G2 & G3 & G4). split; [|split; [|split]].
        - rewrite all_kids_app. apply Forall2_app; [now apply (kids_same h st1)|]. cbn. constructor; [|constructor].
          cbn [looks_like]. now apply (shows_same P Hsmall h st1 _ Hs).
        - rewrite all_mr_app, highest_app. cbn [all_mr flat_map token_piece pc_mr app highest fold_right].
          change (tk_mr t') with (tk_mr (tok st1 a)). rewrite A8. pose proof (pos_in _ A9). lia.
        - intros _. rewrite all_cr_app, all_mr_app, !lowest_app.
          cbn [all_cr all_mr flat_map token_piece pc_cr pc_mr app lowest fold_right].
          change (tk_mr t') with (tk_mr (tok st1 a)). change (tk_cr t') with (tk_cr (tok st1 a)). lia.
        - intros Hb. rewrite all_mr_app, lowest_app, (G4 Hb). lia. }
      destruct (IH c name pt h (done ++ [token_piece a true t']) (set_tok st1 a t') Hd Hc A9 K) as (d & off & st2 & I1 & I2 & I3 & I4); [rewrite heap_size_set; lia|exact Hg'|].
      exists d, off, st2. split; [|split; [exact I2|split; [exact I3|]]].
      + eapply ps_next; [exact D| |exact I1]. rewrite Hcm.
        replace (pos rest) with (if true then re (tk_mr t') else pos w) by exact A8.
        apply ct_token with (t := t').
        * exact A2.
        * intros _ _. right. rewrite A8. apply (left_len P Hsmall) in Hl. apply (left_len P Hsmall) in A9. unfold SeesProofs.pos. lia.
        * unfold adopted. now rewrite A3.
      + eapply preserved_trans; [exact L2|]. eapply preserved_trans; [|exact I4]. apply preserved_set. lia.
    - destruct (Hm (pattern_ctx c name pt (pos w)) st) as (y & st1 & D & K & O); auto.
      { cbn. now rewrite Hc. }
      destruct y as [y|[|]]; cbn in O; try contradiction. inversion O as [| |r0 Hf| | |]; subst.
      pose proof (frame_looks E P s HE Hsmall _ _ _ _ _ D h) as L1. pose proof (run_preserved E P s HE _ _ _ _ _ h D Hh) as L2.
      pose proof (frame_size E P s HE _ _ _ _ _ D) as L3. pose proof (left_follows P _ _ Hl Hf) as Hl'.
      assert (Hg' : gathers true h (done ++ [mkPiece [] [] [mkR (rs (c_off c)) (pos r)]]) st1 ks).
      { destruct (gathers_same _ _ _ _ _ _ L1 Hg) as (G1 & G2 & G3 & G4). rewrite Hc. split; [|split; [|split]].
        - rewrite all_kids_app. cbn. now rewrite app_nil_r.
        - rewrite all_mr_app, highest_app. cbn [all_mr flat_map pc_mr app highest fold_right re]. pose proof (pos_in _ Hl'). lia.
        - intros Hks. destruct (G3 Hks). rewrite all_cr_app, all_mr_app, !lowest_app.
          cbn [all_cr all_mr flat_map pc_cr pc_mr app lowest fold_right rs]. lia.
        - intros _. rewrite all_mr_app, lowest_app. cbn [all_mr flat_map pc_mr app lowest fold_right rs]. lia. }
      destruct (IH c name pt h _ st1 Hd Hc Hl' K ltac:(lia) Hg') as (d & off & st2 & I1 & I2 & I3 & I4).
      exists d, off, st2. split; [|split; [exact I2|split; [exact I3|eapply preserved_trans; eauto]]].
      eapply ps_next; [exact D| |exact I1]. rewrite Hcm. apply ct_skip; [reflexivity|]. now apply skips_pos.
    - destruct (Hm (pattern_ctx c name pt (pos w)) st) as (a & st1 & D & K & Ha & A1 & A2 & A3 & A4); auto.
      { cbn. now rewrite Hc. }
      pose proof (frame_looks E P s HE Hsmall _ _ _ _ _ D h) as L1. pose proof (run_preserved E P s HE _ _ _ _ _ h D Hh) as L2.
      pose proof (frame_size E P s HE _ _ _ _ _ D) as L3.
      destruct (gathers_same _ _ _ _ _ _ L1 Hg) as (G1 & G2 & G3 & G4). specialize (G4 eq_refl).
      set (t' := adopted P pt (lowest (all_mr done)) (tok st1 a)).
      destruct Ha as (B1 & B2 & B3 & B4 & B5 & B6).
      assert (T : tk_kind t' = KStandard /\ is_error t' = true /\ tk_name t' = lit "Error" /\ get_attr "__message" t' <> None /\
                  tk_kids t' = [] /\ re (tk_mr t') = pos e /\ rs (tk_mr t') < usize_max /\ tk_cr t' = tk_mr t').
      { unfold t', adopted. rewrite G4. destruct (is_error (tok st1 a) && _).
        - unfold set_mr, set_cr, set_parent. cbn. rewrite B2. cbn. repeat split; auto.
        - unfold set_parent. cbn. repeat split; auto. }
      destruct T as (T1 & T2 & T3 & T4 & T5 & T6 & T7 & T8).
      assert (Hg' : gathers true h (done ++ [token_piece a true t']) (set_tok st1 a t') (ks ++ [KBad])).
      { assert (Hsl : same_looks h st (set_tok st1 a t')).
        { split; [rewrite heap_size_set; lia|]. intros x Hx. rewrite tok_set_other by lia. now apply L1. }
        split; [|split; [|split]].
        - rewrite all_kids_app. apply Forall2_app; [apply (kids_same h st _ _ _ Hsl); apply Hg|]. cbn. constructor; [|constructor].
          cbn [looks_like]. unfold bad. rewrite heap_size_set, tok_set_same by (unfold heap_size in *; lia). repeat split; auto; lia.
        - rewrite all_mr_app, highest_app. cbn [all_mr flat_map token_piece pc_mr app highest fold_right].
          rewrite T6. pose proof (pos_in _ A4). lia.
        - intros _. rewrite all_cr_app, all_mr_app, !lowest_app.
          cbn [all_cr all_mr flat_map token_piece pc_cr pc_mr app lowest fold_right]. rewrite T8. lia.
        - intros _. rewrite all_mr_app, lowest_app, G4. lia. }
      destruct (IH c name pt h (done ++ [token_piece a true t']) (set_tok st1 a t') Hd Hc A4 K) as (d & off & st2 & I1 & I2 & I3 & I4); [rewrite heap_size_set; lia|exact Hg'|].
      exists d, off, st2. split; [|split; [exact I2|split; [exact I3|]]].
      + eapply ps_next; [exact D| |exact I1]. rewrite Hcm.
        replace (pos e) with (if true then re (tk_mr t') else pos w) by exact T6.
        apply ct_token with (t := t'); [exact B2|auto|reflexivity].
      + eapply preserved_trans; [exact L2|]. eapply preserved_trans; [|exact I4]. apply preserved_set. lia.
  Qed.

  (* what a program that collected these is *)
  Definition collected_root (n : str) (ks : list kid) (h : nat) (st : state) (a : addr) : Prop :=
    (h <= a < heap_size st)%nat /\ tk_kind (tok st a) = KStandard /\ is_error (tok st a) = false /\ tk_name (tok st a) = n /\
    Forall2 (looks_like (S a) st) (tk_kids (tok st a)) ks /\
    rs (tk_mr (tok st a)) = 0 /\ re (tk_mr (tok st a)) <= slen (p_src P).
  Lemma program_strolls n pats ks : own_ok B true n (ProgramN n pats) -> stroll false pats [] (p_src P) ks true ->
    forall c st, c_debug c = 0 -> c_off c = mkR 0 (slen (p_src P)) -> known s B st ->
    exists st', known s B st' /\
      match ks with
      | [] => Runs E P (ProgramN n pats) c s st (Err FFail) st'
      | _ => exists a, Runs E P (ProgramN n pats) c s st (Ok (SToken a)) st' /\ collected_root n ks (heap_size st) st' a
      end.
  Proof.
    intros Ho Hs c st Hd Hc Hk. set (i := mkPI n None false true). change (ProgramN n pats) with (MProgram pats i) in *.
    set (pt := List.length (st_heap st)). set (st0 := program_start P pats i s st).
    assert (Hsz : heap_size st0 = S pt) by apply program_start_size.
    assert (L : left_over (p_src P)) by (now exists []).
    assert (Hpos : pos (p_src P) = rs (c_off c)) by (rewrite Hc; unfold SeesProofs.pos; apply N.sub_diag).
    destruct (stroll_pass _ _ _ _ _ _ Hs c n pt (S pt) [] st0 Hd Hc L) as (done & off & st1 & P1 & (G1 & G2 & G3 & G4) & P3 & P4).
    { now apply known_start. } { now rewrite Hsz. }
    { split; [constructor|]. split; [cbn; lia|]. split; [congruence|discriminate]. }
    rewrite Hpos in P1.
    assert (D : forall r st', closes P pt done st1 r st' -> Runs E P (MProgram pats i) c s st r st').
    { intros r st' Hcl. apply (program_does E P c i s st pats Hd eq_refl eq_refl (AllDone done off st1) (Done r st')); [exact P1|now apply lt_all]. }
    destruct P4 as [P4 P5].
    assert (Hpt : tok st1 pt = std_token P n (mkR 0 0)) by (rewrite P5 by lia; apply program_start_tok).
    destruct ks as [|k ks].
    - exists st1. split; [exact P3|]. apply D. apply cl_fail. intros (H & _). inversion G1 as [Hn|]; subst. congruence.
    - destruct (G3 ltac:(discriminate)) as [G5 G6]. set (t' := filled P done (tok st1 pt)). exists (set_tok st1 pt t').
      split; [exact P3|]. exists pt. split; [apply D; apply cl_token; split; [|split; lia]; intros H; rewrite H in G1; inversion G1|].
      assert (Ht : tok (set_tok st1 pt t') pt = t') by (apply tok_set_same; unfold heap_size in *; lia).
      unfold collected_root. rewrite heap_size_set, Ht. unfold t', filled. rewrite Hpt. cbn [set_mr set_cr set_kids std_token tk_kind tk_name tk_kids tk_mr is_error].
      split; [unfold heap_size in *; lia|]. split; [reflexivity|]. split; [reflexivity|]. split; [reflexivity|].
      split; [|split; [apply G4; reflexivity|exact G2]].
      apply (kids_same (S pt) st1); [|exact G1]. split; [rewrite heap_size_set; lia|]. intros x Hx. rewrite tok_set_other by lia. apply alike_refl.
  Qed.

  (* ---------- patterns and then something else ---------- *)

  Notation body_pats := (body_pats E).
  Local Notation step_skip := (SyntaxProofs.step_skip E P s) (only parsing).
  Local Notation sees_wsn := (SyntaxProofs.sees_wsn E P s Hascii Hsmall) (only parsing).
  Local Notation sees_alts0 := (SyntaxProofs.sees_alts0 E P s HE Hsmall) (only parsing).
  Local Notation tree_step := (SyntaxProofs.tree_step E P s) (only parsing).
  Local Notation written_patterns := (SyntaxProofs.written_patterns E P s HE Hascii Hsmall) (only parsing).
  Ltac shorter := rewrite ?slen_app, ?slen_cons; cbn [lit list_ascii_of_string]; rewrite ?slen_cons, ?slen_nil; try lia.

  (* a text in which no pattern or comment starts *)
  Definition stuck (t : str) : Prop := solid t /\ ~ has_prefix (lit "#") t /\
    starts_not (fun x => ch "(" x || (ch "?" x || ch "!" x || ch "<" x)) t.
  Lemma stuck_round b t ts : blank b -> stuck t -> laps "PatternScope" body_pats ts (b ++ t) ts t.
  Proof.
    intros Hb (H1 & H2 & H3). apply la_fail. eapply step_skip; [reflexivity|apply sees_wsn; auto|].
    apply wk_fail. apply sees_alts0. apply pk_fail; [apply sees_comment_not; auto|].
    apply pk_fail; [|apply pk_none]. apply no_pattern; auto.
  Qed.
  Lemma junk_stuck t : junk t -> stuck t.
  Proof.
    intros (x & u & -> & Hx & Hn). split; [cbn; unfold code in Hx; lia|].
    assert (G : forall y, In y (lit "#(<?!*+{") -> y <> x) by (intros y Hy ->; contradiction).
    split; [apply no_prefix_char; apply G; cbn; auto|]. cbn [starts_not].
    rewrite !ch_false; [reflexivity|..]; apply G; cbn; auto 10.
  Qed.
  Lemma stuck_none b t : blank b -> stuck t -> sees (ScriptPatternScope E) (b ++ t) None.
  Proof.
    intros Hb Ht. apply sees_map_fail; auto.
    apply (sees_no_rounds E P s HE Hsmall "PatternScope" body_pats 1 true _ t); [own|reflexivity|now apply stuck_round].
  Qed.
  Lemma broken_ends ps u : broken_body E ps u -> def_ends u.
  Proof.
    intros H. assert (G : exists b v, u = b ++ v /\ blank b /\ def_ends v).
    { destruct H as [b t Hb (x & u & -> & _ & Hn)|b c ps u Hb (c' & -> & _) _ _|b p t ps u Hb Ht _].
      - eexists b, _. split; [reflexivity|]. split; [exact Hb|]. apply char_ends; intros ->; apply Hn; cbn; auto 10.
      - eexists b, _. split; [reflexivity|]. split; [exact Hb|]. now apply char_ends.
      - eexists b, _. split; [reflexivity|]. split; [exact Hb|].
        destruct (proj1 written_patterns _ _ Ht) as [(x & v & -> & Hx) _]. cbn [app]. cbn in Hx.
        apply char_ends; intros ->; repeat destruct Hx as [Hx|Hx]; try discriminate; contradiction. }
    destruct G as (b & v & -> & Hb & Hv). now apply (blank_ends P Hsmall).
  Qed.
  Lemma broken_laps ps u : broken_body E ps u -> forall ts, exists ts' j,
    laps "PatternScope" body_pats ts u (ts ++ ts') j /\ 0 < slen j /\ (ts' = [] -> ps = []).
  Proof.
    induction 1 as [b t Hb Ht|b c ps u Hb Hc Hu Hbody IH|b p t ps u Hb Ht Hbody IH]; intros ts.
    - exists [], t. rewrite app_nil_r. split; [apply stuck_round; auto using junk_stuck|].
      split; [|auto]. destruct Ht as (x & u & -> & _). shorter.
    - set (k := Tr "Comment" (leaf c c (c ++ u)) [] u).
      destruct (IH (ts ++ [k])) as (ts' & j & L & J & _). exists (k :: ts'), j. split; [|split; [exact J|discriminate]].
      replace (ts ++ k :: ts') with ((ts ++ [k]) ++ ts') by now rewrite <- app_assoc.
      eapply la_next; [| |exact L].
      + eapply step_skip; [reflexivity|apply sees_wsn; [exact Hb|now apply comment_solid]|].
        eapply (tree_step _ _ _ _ k); [reflexivity| |now apply (comment_len P Hsmall)|apply wk_nil].
        apply sees_alts0. apply pk_tree. apply sees_comment; auto. now apply line_stops.
      + pose proof (comment_len P Hsmall c u Hc) as Hlen. rewrite slen_app in Hlen. shorter.
    - destruct (proj1 written_patterns _ _ Ht) as [Hst Hp]. destruct (Hp u (broken_ends _ _ Hbody)) as (k & K1 & K2 & K3 & K4 & K5).
      destruct (IH (ts ++ [k])) as (ts' & j & L & J & _). exists (k :: ts'), j. split; [|split; [exact J|discriminate]].
      replace (ts ++ k :: ts') with ((ts ++ [k]) ++ ts') by now rewrite <- app_assoc.
      eapply la_next; [| |exact L].
      + eapply step_skip; [reflexivity|apply sees_wsn; [exact Hb|now apply pat_solid]|].
        eapply (tree_step _ _ _ _ k); [reflexivity| |now apply (tree_moves P Hsmall)|rewrite K2; apply wk_nil].
        apply sees_alts0. apply pk_fail; [|now apply pk_tree].
        apply sees_comment_not; auto. apply start_not; [exact Hst|]. cbn. intros H. repeat destruct H as [H|H]; try discriminate; contradiction.
      + destruct Hst as (x & v & -> & _). shorter.
  Qed.

  Lemma left_le w : left_over w -> slen w <= slen (p_src P).
  Proof. intros [pre H]. rewrite H, slen_app. lia. Qed.
  Lemma sliceable_ascii r : rs r <= re r -> re r <= slen (p_src P) -> sliceable (p_src P) r.
  Proof. intros H1 H2. split; [exact H1|]. split; [exact H2|]. split; apply ascii_boundary; auto; lia. Qed.
  Lemma small_max n : n <= slen (p_src P) -> n < usize_max.
  Proof. unfold isize_bound, usize_max in *. lia. Qed.
  (* a mapped tree that is turned down *)
  Lemma errs_map m f w t e : sees m w (Some (FTree t)) ->
    (forall c h st a, c_off c = mkR (pos w) (slen (p_src P)) -> left_over w -> shows h st a t ->
       exists msg r st1, map_ok E P f a c s st = error_token_at E P msg r st1 /\ (heap_size st <= heap_size st1)%nat /\
         st_scopes st1 = st_scopes st /\ rs r <= re r /\ re r = pos e /\ left_over e) ->
    errs (MMap m f) w e.
  Proof.
    intros Hm Hf c st Hd Hc Hk Hl.
    destruct (Hm (renamed c "Map") st Hd Hc Hk Hl) as (x & st1 & D & K & O).
    destruct x as [x|[|]]; cbn in O; try contradiction. inversion O as [a t0 Ha Hfo| | | | |]; subst.
    destruct (Hf (renamed c "Map") _ _ _ Hc Hl Ha) as (msg & r & st2 & F1 & F2 & F3 & F4 & F5 & F6).
    pose proof (frame_size E P s HE _ _ _ _ _ D) as L3. pose proof (pos_in _ F6).
    destruct (error_token_at_spec E P msg r st2) as (text & k & _ & T & Hk').
    { apply sliceable_ascii; lia. } { apply small_max. lia. }
    destruct T as (T1 & T2 & T3 & T4 & T5 & T6 & T7 & T8 & T9).
    assert (Hnew : tok (mkSt (st_heap st2 ++ [k]) (st_scopes st2)) (List.length (st_heap st2)) = k).
    { unfold tok. cbn. now rewrite app_nth2, Nat.sub_diag by lia. }
    eexists _, _. split; [eapply map_runs; [exact D|cbn [map_k]; rewrite F1; exact Hk']|].
    split; [eapply known_scopes; [|exact K]; cbn; congruence|]. unfold bad. rewrite Hnew, T3, T4.
    split; [|split; [reflexivity|split; [exact F5|split; [apply small_max; lia|exact F6]]]].
    unfold get_attr. rewrite T7. unfold heap_size in *. cbn [st_heap]. rewrite app_length. cbn [List.length].
    split; [lia|]. repeat split; auto. discriminate.
  Qed.
  Lemma broken_patterns ps u : broken_body E ps u ->
    errs (ScriptPatternScope E) u u \/ (ps = [] /\ sees (ScriptPatternScope E) u None).
  Proof.
    intros H. destruct (broken_laps ps u H []) as (ts & j & L & J & Hts). cbn [app] in L. destruct ts as [|t ts].
    - right. split; [now apply Hts|]. apply sees_map_fail; auto.
      apply (sees_no_rounds E P s HE Hsmall "PatternScope" body_pats 1 true _ j); [own|reflexivity|exact L].
    - left. eapply errs_map; [apply (sees_rounds E P s HE Hsmall "PatternScope" body_pats 1 true u (t :: ts) j); [own|reflexivity|exact L|discriminate]|].
      intros c h st a Hc Hl Ha. inversion Ha as [a0 nm text kids rest A1 A2 A3 A4 A5 A6 A7 A8 A9 A10 A11 A12]; subst. cbn [map_ok].
      rewrite A8. assert (Hj : pos j < slen (p_src P)) by (pose proof (left_le _ A9); unfold SeesProofs.pos; lia).
      apply N.ltb_lt in Hj as ->.
      unfold src_slice. destruct (slice (p_src P) (pos j) (slen (p_src P))) as [v|] eqn:Hv.
      + cbn. eexists _, _, st. split; [reflexivity|]. rewrite Hc. cbn [rs re]. repeat split; auto; lia.
      + exfalso. apply slice_none in Hv. apply Hv. apply sliceable_ascii; cbn [rs re]; [now apply pos_in|lia].
  Qed.

  (* ---------- heads with a version that is missing or no number ---------- *)

  Lemma no_version b l l' ta ds th tb : blank_line b -> attrs_text l l' ta -> l <> [] \/ th <> [] ->
    statements_text E ds th -> (blank th -> th = []) -> last_of "version" l = None ->
    left_over (lit "<!--[adextopa" ++ b ++ ta ++ lit "]" ++ th ++ lit "-->" ++ tb) ->
    errs (ScriptAdextopaScope E) (lit "<!--[adextopa" ++ b ++ ta ++ lit "]" ++ th ++ lit "-->" ++ tb) tb.
  Proof.
    intros Hb Ha Hne Hds Hth Hv Hl.
    destruct (sees_raw_head E P s HE Hascii Hsmall (mkFs (fun _ _ => None) (fun _ => None) (fun _ => None)) (fun _ s => Ret (ScriptErr []) s) 0%nat None b l l' ta ds th tb Hb Ha Hne Hds Hth Hl) as (ak & sk & Hs0 & Hak & Hpk & Hsk).
    eapply errs_map; [exact Hs0|]. intros c h st a Hc _ Hs.
    destruct (head_attrs P Hsmall (fun _ s => Ret (ScriptErr []) s) h st a l l' ta ak sk tb Hs Ha Hak Hpk) as (ps & P1 & _ & Hsame & Hat & Hnv).
    pose proof (shows_modified P Hsmall _ _ _ _ _ _ _ (set_attrs ps) (head_info l) Hs (keeps_attrs ps)) as Hs'.
    assert (Hf : find_child (modify st a (set_attrs ps)) (set_attrs ps (tok st a)) "EndOfScopeHeader" = None).
    { rewrite <- Hsame. apply child_none. eapply (none_of P); [apply Hs'; repeat split; [exact Hat|exact Hnv]|]. cbn [t_kids].
      rewrite pick_app, (attr_kids_pick _ _ _ _ Hak) by reflexivity. destruct Hsk as [[-> _]|(ts & r & -> & _)]; reflexivity. }
    cbn [map_ok]. rewrite P1. cbn zeta. rewrite Hsame. unfold get_attr. rewrite Hat, setting_get, Hv. cbn [assoc_get].
    rewrite Hf. eexists _, _, _. split; [reflexivity|].
    inversion Hs as [a0 nm text kids rest A1 A2 A3 A4 A5 A6 A7 A8 A9 A10 A11 A12]; subst.
    split; [unfold modify; now rewrite heap_size_set|]. split; [reflexivity|].
    destruct (keeps_attrs ps (tok st a)) as (_ & _ & _ & -> & _). auto.
  Qed.
  Definition versions := fold_left (fun (o : option addr) (p : addr * str * str) => if str_eqb (snd (fst p)) "version" then Some (fst (fst p)) else o).
  Lemma version_given l l' ts : attr_trees l l' ts ->
    match last_of "version" l with
    | None => forall h st ads ps o, shows_all P h st ads ts -> attr_pairs st ads = Val ps -> versions ps o = o
    | Some _ => exists t, t_name t = lit "Attribute" /\ past_attr (t_rest t) /\
        forall h st ads ps o, shows_all P h st ads ts -> attr_pairs st ads = Val ps -> exists va, versions ps o = Some va /\ shows h st va t
    end.
  Proof.
    induction 1 as [|n v raw l l' ts w i r w1 rest Hts IH Hi Hc Hpast].
    - intros h st ads ps o Hs Hp. inversion Hs; subst. cbn in Hp. injection Hp as <-. reflexivity.
    - set (x := Tr "Attribute" no_attrs [Tr "Name" (leaf n n w) [] w1; Tr "Value" i [] rest] r).
      assert (G : forall h st ads ps o, shows_all P h st ads (x :: ts) -> attr_pairs st ads = Val ps ->
        exists a ads' ps', shows h st a x /\ shows_all P h st ads' ts /\ attr_pairs st ads' = Val ps' /\
          versions ps o = versions ps' (if str_eqb n "version" then Some a else o)).
      { intros h st ads ps o Hs Hp. apply (shown_cons P) in Hs as (a & ads' & -> & Ha & Hs). pose proof Ha as Ha0. apply (shown_kids P) in Ha. cbn [t_kids x] in Ha.
        apply (shown_cons P) in Ha as (k & l1 & Hk & Hk1 & Ha). apply (shown_cons P) in Ha as (k2 & l2 & -> & Hk2 & _).
        cbn [attr_pairs] in Hp. rewrite Hk in Hp. destruct (attr_pairs st ads') as [ps'|] eqn:Hps; [|discriminate]. cbn in Hp. injection Hp as <-.
        apply (shown_leaf P) in Hk1 as (Hk1 & _). exists a, ads', ps'. split; [exact Ha0|]. split; [exact Hs|]. split; [exact Hps|].
        unfold versions. cbn [fold_left fst snd]. now rewrite Hk1. }
      cbn [last_of]. destruct (last_of "version" l) as [v0|].
      + destruct IH as (t & T1 & T2 & T3). exists t. split; [exact T1|]. split; [exact T2|]. intros h st ads ps o Hs Hp.
        destruct (G _ _ _ _ o Hs Hp) as (a & ads' & ps' & _ & G2 & G3 & ->). eapply T3; eauto.
      + destruct (str_eqb n "version") eqn:Hn.
        * exists x. split; [reflexivity|]. split; [exact Hpast|]. intros h st ads ps o Hs Hp.
          destruct (G _ _ _ _ o Hs Hp) as (a & ads' & ps' & G1 & G2 & G3 & ->). exists a. split; [|exact G1]. eapply IH; eauto.
        * intros h st ads ps o Hs Hp. destruct (G _ _ _ _ o Hs Hp) as (a & ads' & ps' & G1 & G2 & G3 & ->). eapply IH; eauto.
  Qed.
  Lemma bad_version b l l' ta v ds th tb : blank_line b -> attrs_text l l' ta ->
    statements_text E ds th -> (blank th -> th = []) -> last_of "version" l = Some v -> (forall n, ~ usize_text n v) ->
    left_over (lit "<!--[adextopa" ++ b ++ ta ++ lit "]" ++ th ++ lit "-->" ++ tb) ->
    exists e, errs (ScriptAdextopaScope E) (lit "<!--[adextopa" ++ b ++ ta ++ lit "]" ++ th ++ lit "-->" ++ tb) e /\ past_attr e.
  Proof.
    intros Hb Ha Hds Hth Hv Hno Hl.
    assert (Hl0 : l <> []) by (intros ->; discriminate).
    assert (Hne : l <> [] \/ th <> []) by now left.
    destruct (sees_raw_head E P s HE Hascii Hsmall (mkFs (fun _ _ => None) (fun _ => None) (fun _ => None)) (fun _ s => Ret (ScriptErr []) s) 0%nat None b l l' ta ds th tb Hb Ha Hne Hds Hth Hl) as (ak & sk & Hs0 & Hak & Hpk & Hsk).
    pose proof Hak as [[Hnil _]|(ts & rest & _ & Hts & Htr)].
    { exfalso. apply Hl0. subst l'. now inversion Ha. }
    pose proof (version_given _ _ _ Htr) as Hg. rewrite Hv in Hg. destruct Hg as (t & T1 & T2 & T3).
    exists (t_rest t). split; [|exact T2]. eapply errs_map; [exact Hs0|]. intros c h st a Hc _ Hs.
    destruct (head_attrs P Hsmall (fun _ s => Ret (ScriptErr []) s) h st a l l' ta ak sk tb Hs Ha Hak Hpk) as (ps & P1 & _ & Hsame & Hat & _).
    cbn [map_ok]. rewrite P1. cbn zeta. rewrite Hsame. unfold get_attr. rewrite Hat, setting_get, Hv.
    assert (Hu : parse_usize v = None).
    { destruct (parse_usize v) as [n|] eqn:Hp; [|reflexivity]. exfalso. apply (Hno n). now apply parse_usize_spec. }
    rewrite Hu. unfold attributes_of in P1.
    destruct (first_of P h st a _ ["Attributes"] (Tr "Attributes" no_attrs ts rest) Hs) as (k & Hk & Hks).
    { cbn [t_kids]. rewrite Hts. reflexivity. }
    apply child_some in Hk. rewrite Hk in P1. apply (shown_kids P) in Hks. cbn [t_kids] in Hks.
    destruct (T3 _ _ _ _ None Hks P1) as (va & V1 & V2). change (version_attr ps) with (versions ps None). rewrite V1.
    eexists _, _, _. split; [reflexivity|]. split; [unfold modify; rewrite heap_size_set; lia|]. split; [reflexivity|].
    assert (va <> a).
    { intros ->. apply (shown_name P) in V2. apply (shown_name P) in Hs. rewrite T1, Hs in V2. discriminate. }
    unfold modify. rewrite tok_set_other by congruence. destruct V2. cbn [t_rest]. auto.
  Qed.
  Lemma past_stuck e : past_attr e -> exists b u, e = b ++ u /\ blank b /\ stuck u.
  Proof.
    intros (b & u & -> & Hb & H). exists b, u. split; [reflexivity|]. split; [exact Hb|].
    destruct H as [[[v ->]|[v ->]]|(n & v & (x & t & -> & _ & Hx) & ->)].
    1-2: repeat split; [vm_compute; discriminate|now apply no_prefix_char].
    cbn [app]. inversion Hx as [|x0 t0 H _]; subst. unfold letter, digit_char, code in H.
    assert (G : forall y, In y (lit "#(<?!") -> y <> x).
    { intros y Hy <-. cbn in Hy. repeat destruct Hy as [<-|Hy]; try contradiction; cbn in H; repeat destruct H as [H|H]; try discriminate; lia. }
    split; [|split].
    - cbn. repeat destruct H as [H|H]; subst; cbn in *; lia.
    - apply no_prefix_char. apply G. cbn. auto.
    - cbn [starts_not]. rewrite !ch_false; [reflexivity|..]; apply G; cbn; auto 10.
  Qed.

  (* ---------- the whole script ---------- *)

  Definition kid_name (k : kid) : str := match k with KTree t => t_name t | KBad => lit "Error" end.
  Definition has (n : str) (ks : list kid) : bool := existsb (fun k => str_eqb (kid_name k) n) ks.
  Lemma kid_named h st a k : looks_like h st a k -> tk_name (tok st a) = kid_name k.
  Proof. destruct k as [t|]; cbn; [intros H; inversion H; subst; reflexivity|intros (_ & _ & _ & H & _); exact H]. Qed.
  Lemma find_kid h st l ks n : Forall2 (looks_like h st) l ks ->
    has n ks = match find (fun a => str_eqb (tk_name (tok st a)) n) l with Some _ => true | None => false end.
  Proof.
    induction 1 as [|a k l ks Ha _ IH]; [reflexivity|]. unfold has in *. cbn [existsb find].
    rewrite <- (kid_named _ _ _ _ Ha). now destruct (str_eqb _ n).
  Qed.
  Lemma script_runs ks : stroll false (script_pats E) [] (p_src P) ks true ->
    forall c st, c_debug c = 0 -> c_off c = mkR 0 (slen (p_src P)) -> known s B st ->
    if has (lit "AdextopaScope") ks || has (lit "PatternScope") ks
    then exists a st', Runs E P (Script_ E) c s st (Ok (SToken a)) st' /\ collected_root (lit "Script") ks (heap_size st) st' a
    else exists st', Runs E P (Script_ E) c s st (Err FFail) st' \/
           exists a, Runs E P (Script_ E) c s st (Ok (SToken a)) st' /\ tk_name (tok st' a) = lit "Error".
  Proof.
    intros Hs c st Hd Hc Hk.
    destruct (program_strolls (lit "Script") (script_pats E) ks) with (c := renamed c "Map") (st := st) as (st' & _ & H); auto.
    { own. }
    destruct ks as [|k ks].
    - exists st'. left. eapply map_runs; [exact H|reflexivity].
    - destruct H as (a & H & R). set (ks0 := k :: ks) in *.
      assert (Hf : forall n, find_child st' (tok st' a) n = None <-> has n ks0 = false).
      { intros n. rewrite (find_kid _ _ _ _ n (proj1 (proj2 (proj2 (proj2 (proj2 R)))))). unfold find_child.
        destruct (find _ _); split; congruence. }
      destruct (has (lit "AdextopaScope") ks0) eqn:H1; [|destruct (has (lit "PatternScope") ks0) eqn:H2]; cbn [orb].
      + exists a, st'. split; [|exact R]. eapply map_runs; [exact H|]. cbn [map_k map_ok].
        destruct (find_child st' (tok st' a) "AdextopaScope") eqn:F; [reflexivity|]. apply Hf in F. congruence.
      + exists a, st'. split; [|exact R]. eapply map_runs; [exact H|]. cbn [map_k map_ok].
        destruct (find_child st' (tok st' a) "PatternScope") eqn:F; [|apply Hf in F; congruence].
        now destruct (find_child st' (tok st' a) "AdextopaScope").
      + destruct R as (_ & _ & _ & _ & _ & R1 & R2).
        destruct (error_token_at_spec E P "Nothing to parse. No scopes found." (tk_mr (tok st' a)) st') as (text & t & _ & T & Ht).
        { split; [lia|]. split; [lia|]. split; apply ascii_boundary; auto; lia. }
        { unfold isize_bound, usize_max in *. lia. }
        eexists. right. eexists. split.
        * eapply map_runs; [exact H|]. cbn [map_k map_ok]. apply Hf in H1. apply Hf in H2. rewrite H1, H2. exact Ht.
        * unfold tok. cbn. rewrite app_nth2, Nat.sub_diag by lia. apply T.
  Qed.

  (* ---------- how such scripts are walked through ---------- *)

  Local Notation opt := (SyntaxProofs.opt E P s) (only parsing).
  Local Notation opt_not := (SyntaxProofs.opt_not E P s Hsmall) (only parsing).
  Lemma lead_strolls lead r : lead_text lead -> solid r -> ~ has_prefix (lit "#") r -> exists pk, forallb quiet pk = true /\
    forall ms ks b, stroll true ms (map KTree pk) r ks b ->
      stroll false (MOptional (LoopN "PreHead" (pre_pats E)) :: ScriptWSN0 E :: ms) [] (lead ++ r) ks b.
  Proof.
    intros Hl Hr Hn. destruct (lead_laps E P s Hascii Hsmall (fun _ s => Ret (ScriptErr []) s) lead Hl r [] Hr Hn) as (ts & L & T & Tn & Ts). cbn [app] in L.
    destruct ts as [|t ts].
    - exists []. split; [reflexivity|]. intros ms ks b Hx. eapply so_skip; [reflexivity| |].
      + apply opt_not. apply (sees_no_rounds E P s HE Hsmall "PreHead" (pre_pats E) 0 true _ r); [own|lia|exact L].
      + eapply so_skip; [reflexivity|apply sees_wsn; [now apply Tn|exact Hr]|exact Hx].
    - exists [Tr "PreHead" no_attrs (t :: ts) r]. split; [change (forallb quiet (t :: ts) && true = true); now rewrite T|]. intros ms ks b Hx.
      eapply so_tree; [reflexivity|apply opt; apply (sees_rounds E P s HE Hsmall "PreHead" (pre_pats E) 0 true (lead ++ r) (t :: ts) r); [own|lia|exact L|discriminate]| |].
      + specialize (Ts ltac:(discriminate)). cbn [t_rest]. shorter.
      + cbn [t_rest app]. eapply so_skip; [reflexivity|apply (sees_wsn [] r); [constructor|exact Hr]|exact Hx].
  Qed.
  Lemma blank_laps ps t : body_text E ps t -> ps = [] -> forall ts, exists ts',
    laps "PreHead" (pre_pats E) ts t (ts ++ ts') [] /\ forallb quiet ts' = true /\ (ts' = [] -> blank t) /\ (ts' <> [] -> 0 < slen t).
  Proof.
    induction 1 as [b Hb|b c ps u Hb Hc Hu Hbody IH|b p t ps u Hb Ht Hbody _]; intros Hps ts; [| |discriminate].
    - exists []. rewrite app_nil_r. split; [|split; [reflexivity|split; [auto|congruence]]]. apply la_fail.
      eapply step_skip; [reflexivity|rewrite <- (app_nil_r b); apply sees_wsn; [exact Hb|exact Logic.I]|].
      apply wk_fail. apply sees_comment_not; auto. intros [v Hv]. discriminate.
    - set (k := Tr "Comment" (leaf c c (c ++ u)) [] u). destruct (IH Hps (ts ++ [k])) as (ts' & L & T & _ & _).
      pose proof (comment_len P Hsmall c u Hc) as Hlen. rewrite slen_app in Hlen.
      exists (k :: ts'). split; [|split; [exact T|split; [discriminate|intros _; shorter]]].
      replace (ts ++ k :: ts') with ((ts ++ [k]) ++ ts') by now rewrite <- app_assoc.
      eapply la_next; [| |exact L].
      + eapply step_skip; [reflexivity|apply sees_wsn; [exact Hb|now apply comment_solid]|].
        eapply (tree_step _ _ _ _ k); [reflexivity| |now apply (comment_len P Hsmall)|apply wk_nil].
        apply sees_comment; auto. destruct Hu as [->|Hu]; [exact Logic.I|now apply line_stops].
      + shorter.
  Qed.
  Lemma quiet_has pk n ks : forallb quiet pk = true -> In n loud -> has (lit n) (map KTree pk ++ ks) = has (lit n) ks.
  Proof.
    intros Hq Hn. induction pk as [|[m i k r] pk IH]; [reflexivity|]. cbn [forallb] in Hq. apply andb_true_iff in Hq as [H1 H2].
    apply quiet_split in H1 as [H1 _]. unfold has in *. cbn [map app existsb kid_name t_name]. rewrite IH by exact H2.
    destruct (str_eqb m (lit n)) eqn:He; [|reflexivity]. apply str_eqb_eq in He. subst m. exfalso. apply H1. now apply in_map.
  Qed.
  Definition unscoped (ks : list kid) : Prop := has (lit "AdextopaScope") ks || has (lit "PatternScope") ks = false.
  Lemma unscoped_quiet pk ks : forallb quiet pk = true -> unscoped ks -> unscoped (map KTree pk ++ ks).
  Proof. intros Hq Hk. unfold unscoped. rewrite !(quiet_has pk) by (auto; cbn; auto 10). exact Hk. Qed.

  (* nothing to parse *)
  Lemma nothing_strolls : body_text E [] (p_src P) -> exists ks, stroll false (script_pats E) [] (p_src P) ks true /\ unscoped ks.
  Proof.
    intros H. destruct (blank_laps [] _ H eq_refl []) as (ts & L & T & Tn & Ts). cbn [app] in L.
    assert (G : forall ks, stroll true [MOptional (ScriptAdextopaScope E); MOptional (ScriptPatternScope E)] ks [] ks true).
    { intros ks. eapply so_skip; [reflexivity|apply opt_not; apply no_head; auto; intros [v Hv]; discriminate|].
      eapply so_skip; [reflexivity|apply opt_not; apply (stuck_none [] []); [constructor|]|apply so_nil].
      split; [exact Logic.I|]. split; [intros [v Hv]; discriminate|exact Logic.I]. }
    destruct ts as [|t ts].
    - exists []. split; [|reflexivity]. eapply so_skip; [reflexivity| |].
      + apply opt_not. apply (sees_no_rounds E P s HE Hsmall "PreHead" (pre_pats E) 0 true _ []); [own|lia|exact L].
      + eapply so_skip; [reflexivity| |apply G]. rewrite <- (app_nil_r (p_src P)). apply sees_wsn; [now apply Tn|exact Logic.I].
    - exists [KTree (Tr "PreHead" no_attrs (t :: ts) [])]. split; [|reflexivity].
      eapply so_tree; [reflexivity|apply opt; apply (sees_rounds E P s HE Hsmall "PreHead" (pre_pats E) 0 true (p_src P) (t :: ts) []); [own|lia|exact L|discriminate]| |].
      + cbn [t_rest]. rewrite slen_nil. apply Ts. discriminate.
      + cbn [t_rest app]. eapply so_skip; [reflexivity|apply (sees_wsn [] []); [constructor|exact Logic.I]|apply G].
  Qed.
  Lemma broken_first ps t : broken_body E ps t -> exists lead u, t = lead ++ u /\ lead_text lead /\ broken_body E ps u /\
    solid u /\ ~ has_prefix (lit "#") u /\ ~ has_prefix (lit "<!-") u.
  Proof.
    induction 1 as [b t Hb Ht|b c ps u Hb Hc Hu Hbody IH|b p t ps u Hb Ht Hbody _].
    - exists b, t. split; [reflexivity|]. split; [now constructor|]. split; [apply (bb_junk E [] t); [constructor|exact Ht]|].
      destruct (junk_stuck t Ht) as (S1 & S2 & _). split; [exact S1|]. split; [exact S2|].
      destruct Ht as (x & v & -> & _ & Hn). apply no_prefix_char. intros <-. apply Hn. cbn. auto.
    - destruct IH as (lead & v & -> & L & B1 & B2 & B3 & B4). exists (b ++ c ++ lead), v. rewrite <- !app_assoc.
      split; [reflexivity|]. split; [|auto]. apply ld_comment; auto.
      destruct lead as [|x lead]; [|exact Hu]. exfalso. cbn [app] in Hu. destruct v as [|y v]; [contradiction|].
      cbn in Hu, B2. unfold line_end, code in Hu. lia.
    - exists b, (t ++ u). split; [reflexivity|]. split; [now constructor|].
      split; [apply (bb_pattern E [] p t ps u); [constructor|exact Ht|exact Hbody]|].
      destruct (proj1 written_patterns _ _ Ht) as [Hst _]. split; [now apply pat_solid|]. split.
      + apply start_not; [exact Hst|]. cbn. intros H. repeat destruct H as [H|H]; try discriminate; contradiction.
      + eapply (pattern_no_head E P s HE Hascii Hsmall (fun _ s => Ret (ScriptErr []) s)). exact Ht.
  Qed.
  Lemma broken_strolls ps : broken_body E ps (p_src P) -> exists ks, stroll false (script_pats E) [] (p_src P) ks true /\ unscoped ks.
  Proof.
    intros H. destruct (broken_first ps _ H) as (lead & u & Hsrc & L & B1 & B2 & B3 & B4). rewrite Hsrc.
    destruct (lead_strolls lead u L B2 B3) as (pk & Pq & Pw).
    destruct (broken_patterns ps u B1) as [He|[_ He]].
    - exists (map KTree pk ++ [KBad]). split; [|now apply unscoped_quiet]. apply Pw.
      eapply so_skip; [reflexivity|apply opt_not; now apply no_head|].
      eapply so_bad; [reflexivity|apply errs_opt; exact He|apply so_nil].
    - exists (map KTree pk ++ []). split; [|now apply unscoped_quiet]. apply Pw. rewrite app_nil_r.
      eapply so_skip; [reflexivity|apply opt_not; now apply no_head|].
      eapply so_skip; [reflexivity|apply opt_not; exact He|apply so_nil].
  Qed.

  Section Headed.
    Variables (lead b ta th tb : str) (l l' : list (str * str)) (ds : list statement).
    Hypothesis Hlead : lead_text lead.
    Hypothesis Hb : blank_line b.
    Hypothesis Hta : attrs_text l l' ta.
    Hypothesis Hth : statements_text E ds th.
    Hypothesis Hblank : blank th -> th = [].
    Let w := lit "<!--[adextopa" ++ b ++ ta ++ lit "]" ++ th ++ lit "-->" ++ tb.
    Hypothesis Hsrc : p_src P = lead ++ w.
    Lemma headed_left : left_over w.
    Proof. now exists lead. Qed.
    Lemma headed_lead : exists pk, forallb quiet pk = true /\
      forall ks, stroll true [MOptional (ScriptAdextopaScope E); MOptional (ScriptPatternScope E)] (map KTree pk) w ks true ->
        stroll false (script_pats E) [] (p_src P) ks true.
    Proof.
      rewrite Hsrc. destruct (lead_strolls lead w Hlead) as (pk & Pq & Pw).
      - split; [vm_compute; discriminate|reflexivity].
      - now apply no_prefix_char.
      - exists pk. split; [exact Pq|]. intros ks. apply Pw.
    Qed.
    (* the version is no number: nothing of the script is used *)
    Lemma bad_version_strolls v : last_of "version" l = Some v -> (forall n, ~ usize_text n v) ->
      exists ks, stroll false (script_pats E) [] (p_src P) ks true /\ unscoped ks.
    Proof.
      intros Hv Hn. destruct headed_lead as (pk & Pq & Pw).
      destruct (bad_version b l l' ta v ds th tb Hb Hta Hth Hblank Hv Hn headed_left) as (e & He & Hp).
      apply past_stuck in Hp as (b' & u & -> & Hb' & Hu).
      exists (map KTree pk ++ [KBad]). split; [|now apply unscoped_quiet]. apply Pw.
      eapply so_bad; [reflexivity|apply errs_opt; exact He|].
      eapply so_skip; [reflexivity|apply opt_not; now apply stuck_none|apply so_nil].
    Qed.
    (* there is no version *)
    Lemma no_version_strolls ks : l <> [] \/ th <> [] -> last_of "version" l = None ->
      (forall k0, stroll true [MOptional (ScriptPatternScope E)] k0 tb (k0 ++ ks) true) ->
      exists pk, forallb quiet pk = true /\ stroll false (script_pats E) [] (p_src P) ((map KTree pk ++ [KBad]) ++ ks) true.
    Proof.
      intros Hne Hv Hks. destruct headed_lead as (pk & Pq & Pw). exists pk. split; [exact Pq|]. apply Pw.
      eapply so_bad; [reflexivity|apply errs_opt; exact (no_version b l l' ta ds th tb Hb Hta Hne Hth Hblank Hv headed_left)|]. apply Hks.
    Qed.
  End Headed.
  Lemma broken_tail ps tb : broken_body E ps tb -> exists ks, (ks = [] \/ ks = [KBad]) /\
    forall k0, stroll true [MOptional (ScriptPatternScope E)] k0 tb (k0 ++ ks) true.
  Proof.
    intros H. destruct (broken_patterns ps tb H) as [He|[_ He]].
    - exists [KBad]. split; [now right|]. intros k0. eapply so_bad; [reflexivity|apply errs_opt; exact He|apply so_nil].
    - exists []. split; [now left|]. intros k0. rewrite app_nil_r. eapply so_skip; [reflexivity|apply opt_not; exact He|apply so_nil].
  Qed.
End Broken.

Section Compiled.
  Variables (E : env) (P : parser) (F : fs) (compile : str -> state -> res script_res) (name : str) (ff : option str).
  Hypothesis HE : tame E.
  Hypothesis HT : tidy E.
  Hypothesis Hascii : ascii_only (p_src P).
  Hypothesis Hsmall : slen (p_src P) < isize_bound.

  Lemma start_offset st : c_off (script_ctx P name st) = mkR 0 (slen (p_src P)).
  Proof. reflexivity. Qed.
  Lemma compile_start fuel st : compile_with fuel E F compile P name ff false st =
    do r, st <- tokenize fuel E P (script_ctx P name st) (Script_ E) (script_start E P name st);
    match r with
    | TOk a =>
        do b, st' <- build_matcher E P F compile a name ff st;
        match b with
        | ScriptOk _ _ => if false && negb (log_ok st a) then Pan PUnwrap else Ret b st'
        | ScriptErr _ => Ret b st'
        end
    | TErr FFail =>
        Ret (ScriptErr [mkPE "Failed to parse script with an unknown error. This is likely a bug. Please report this issue to the adextopa maintainers." None]) st
    | TErr (FError e) => Ret (ScriptErr [e]) st
    end.
  Proof. unfold compile_with, script_start, script_ctx. destruct (context_new P name st) as [c st0]. reflexivity. Qed.
  (* nothing is compiled *)
  Lemma refused ks st : stroll E P (next_sid st) false (script_pats E) [] (p_src P) ks true -> unscoped ks ->
    exists fuel msg st', says_nothing msg /\ compile_with fuel E F compile P name ff false st = Ret (ScriptErr [mkPE msg None]) st'.
  Proof.
    intros Hs Hu.
    pose proof (script_runs E P (next_sid st) HE Hascii Hsmall ks Hs (script_ctx P name st) (script_start E P name st) eq_refl (start_offset st) (script_known_start E P name st)) as H.
    unfold unscoped in Hu. rewrite Hu in H. destruct H as (st1 & [H|(a & H & Hn)]).
    - apply (tokenize_err E P (script_ctx P name st)) in H as [fuel H]. exists fuel. rewrite compile_start, H. do 2 eexists. split; [right; reflexivity|reflexivity].
    - destruct (tokenize_ok E P (script_ctx P name st) (Script_ E) (script_start E P name st) (SToken a) a st1 HE HT H (ro_token a)) as (st' & [fuel Htk] & Hh).
      exists fuel. rewrite compile_start, Htk.
      assert (Hn' : tk_name (tok st' a) = lit "Error").
      { destruct Hh as (_ & _ & l & errs & _ & _ & Hr & _). rewrite Hr. exact Hn. }
      unfold build_matcher. rewrite Hn'. do 2 eexists. split; [left; reflexivity|reflexivity].
  Qed.

  (* what a list of tokens of which some are errors says *)
  Lemma tells_bad sc st h a w : bad h st a -> tells E F compile sc ff st [a] w w.
  Proof.
    intros (_ & _ & _ & B4 & B5 & B6). eapply tells_node; [apply sy_error; [exact B4|exact B5]|]. rewrite B6. apply tells_nil.
  Qed.
  Lemma kids_clean h st l ks : Forall2 (looks_like P h st) l ks -> exists all, preorder st l all /\
    forall a k, In a all -> In k (tk_kids (tok st a)) -> is_error (tok st k) = false.
  Proof.
    induction 1 as [|a k l ks Ha _ (all & IH1 & IH2)]; [exists []; split; [constructor|intros ? ? []]|].
    destruct k as [t|].
    - destruct (proj1 (shows_clean P h st) _ _ Ha) as (all1 & A1 & A2). exists (all1 ++ all). split; [now apply (preorder_app st [a])|].
      intros b k Hb Hk. apply in_app_or in Hb as [Hb|Hb]; [|now apply (IH2 b)].
      destruct (is_error (tok st k)) eqn:He; [|reflexivity]. exfalso.
      assert (Hin : In k (filter (fun x => is_error (tok st x)) all1)) by (apply filter_In; split; [|exact He]; exact (proj2 (preorder_kids _ _ _ A1) _ _ Hb Hk)).
      rewrite <- A2 in Hin. destruct Hin.
    - destruct Ha as (_ & _ & _ & _ & _ & B6). exists (a :: all). split.
      + apply (preorder_app st [a] l [a] all); [|exact IH1]. apply preorder_one. rewrite B6. constructor.
      + intros b k [<-|Hb] Hk; [|now apply (IH2 b)]. rewrite B6 in Hk. destruct Hk.
  Qed.
  Lemma accepted st d :
    (forall sc, exists ks, has (lit "AdextopaScope") ks || has (lit "PatternScope") ks = true /\
       stroll E P (next_sid st) false (script_pats E) [] (p_src P) ks true /\
       forall h st1 l name0 s0 s1, Forall2 (looks_like P h st1) l ks -> all_stated F compile sc ff (s_statements d) s0 s1 ->
         tells E F compile sc ff st1 l (name0, [], s0) (s_name name0 d, map meaning (s_patterns d), s1)) ->
    exists root st1, Tokenizes E P (script_ctx P name st) (Script_ E) (script_start E P name st) (TOk root) st1 /\
      forall st', all_stated F compile (next_sid st1) ff (s_statements d) (sc_new st1) st' ->
        exists fuel, compile_with fuel E F compile P name ff false st =
          Ret (ScriptOk (compiled_script name (next_sid st1) d) (next_sid st1)) st'.
  Proof.
    intros Hall0.
    assert (Hrun : forall sc, exists ks a st1,
      Runs E P (Script_ E) (script_ctx P name st) (next_sid st) (script_start E P name st) (Ok (SToken a)) st1 /\
      collected_root P (lit "Script") ks (heap_size (script_start E P name st)) st1 a /\
      forall h st1 l name0 s0 s1, Forall2 (looks_like P h st1) l ks -> all_stated F compile sc ff (s_statements d) s0 s1 ->
         tells E F compile sc ff st1 l (name0, [], s0) (s_name name0 d, map meaning (s_patterns d), s1)).
    { intros sc. destruct (Hall0 sc) as (ks & Hhas & Hs & Ht).
      pose proof (script_runs E P (next_sid st) HE Hascii Hsmall ks Hs (script_ctx P name st) (script_start E P name st) eq_refl (start_offset st) (script_known_start E P name st)) as H.
      rewrite Hhas in H. destruct H as (a & st1 & H). exists ks, a, st1. tauto. }
    destruct (Hrun 0%nat) as (ks & a & st1 & H & (R1 & R2 & R3 & R4 & R5 & _) & _).
    destruct (tokenize_ok E P (script_ctx P name st) (Script_ E) (script_start E P name st) (SToken a) a st1 HE HT H (ro_token a)) as (st2 & Htk & Hh).
    destruct (kids_clean _ _ _ _ R5) as (all & A1 & A2).
    pose proof (hoisted_quiet _ _ _ _ Hh A1 A2) as Hsame.
    assert (Hlooks : same_looks (S a) st1 st2).
    { split; [destruct Hh as (_ & -> & _); lia|]. intros x _. rewrite Hsame. apply alike_refl. }
    exists a, st2. split; [exact Htk|]. intros st' Hall.
    assert (Hn : tk_name (tok st2 a) = lit "Script") by now rewrite Hsame.
    destruct (Hrun (next_sid st2)) as (ks' & a' & st1' & H' & (_ & _ & _ & _ & R5' & _) & Htell).
    destruct (runs_det _ _ _ _ _ _ _ _ _ _ H H') as [E1 E2]. injection E1 as <-. subst st1'.
    destruct (tells_node E F compile (next_sid st2) ff st2 a (name, [], sc_new st2) (name, [], sc_new st2) (s_name name d, map meaning (s_patterns d), st')) as (l & L1 & L2).
    - apply sy_other. rewrite Hn. cbn. intros G. repeat destruct G as [G|G]; try discriminate; contradiction.
    - rewrite Hsame. eapply Htell; [|exact Hall]. eapply kids_same; eauto.
    - apply compile_spec; auto. exists a, st2, l, (s_name name d), (map meaning (s_patterns d)). auto 10.
  Qed.
  Lemma trees_shown h st l ts : Forall2 (looks_like P h st) l (map KTree ts) -> shows_all P h st l ts.
  Proof.
    revert l. induction ts as [|t ts IH]; intros l H; inversion H; subst; constructor; auto.
  Qed.
  Lemma quiet_told sc h st l pk w : forallb quiet pk = true -> Forall2 (looks_like P h st) l (map KTree pk) -> tells E F compile sc ff st l w w.
  Proof. intros Hq H. apply trees_shown in H. eapply (proj2 (tells_quiet E P F compile sc ff h st)); eauto. Qed.

  Theorem nothing_refused st : body_text E [] (p_src P) ->
    exists fuel msg st', says_nothing msg /\ compile_with fuel E F compile P name ff false st = Ret (ScriptErr [mkPE msg None]) st'.
  Proof. intros H. destruct (nothing_strolls E P (next_sid st) HE Hascii Hsmall H) as (ks & H1 & H2). exact (refused ks st H1 H2). Qed.
  Theorem junk_refused ps st : broken_body E ps (p_src P) ->
    exists fuel msg st', says_nothing msg /\ compile_with fuel E F compile P name ff false st = Ret (ScriptErr [mkPE msg None]) st'.
  Proof. intros H. destruct (broken_strolls E P (next_sid st) HE Hascii Hsmall ps H) as (ks & H1 & H2). exact (refused ks st H1 H2). Qed.
  Theorem bad_version_refused lead l ss v t tail st : lead_text lead -> head_text E l ss t ->
    last_of "version" l = Some v -> (forall n, ~ usize_text n v) -> p_src P = lead ++ t ++ tail ->
    exists fuel msg st', says_nothing msg /\ compile_with fuel E F compile P name ff false st = Ret (ScriptErr [mkPE msg None]) st'.
  Proof.
    intros Hl [l0 l' ss0 b ta th Hb Hta Hth Hbl _] Hv Hn Hsrc. rewrite <- !app_assoc in Hsrc.
    destruct (bad_version_strolls E P (next_sid st) HE Hascii Hsmall lead b ta th tail l0 l' ss0 Hl Hb Hta Hth Hbl Hsrc v Hv Hn) as (ks & H1 & H2).
    exact (refused ks st H1 H2).
  Qed.
  Theorem no_version_junk_refused lead l ss t ps tail st : lead_text lead -> head_text E l ss t ->
    last_of "version" l = None -> broken_body E ps tail -> p_src P = lead ++ t ++ tail ->
    exists fuel msg st', says_nothing msg /\ compile_with fuel E F compile P name ff false st = Ret (ScriptErr [mkPE msg None]) st'.
  Proof.
    intros Hl [l0 l' ss0 b ta th Hb Hta Hth Hbl Hne] Hv Htail Hsrc. rewrite <- !app_assoc in Hsrc.
    destruct (broken_tail E P (next_sid st) HE Hascii Hsmall ps tail Htail) as (ks & Hks & Hst).
    destruct (no_version_strolls E P (next_sid st) HE Hascii Hsmall lead b ta th tail l0 l' ss0 Hl Hb Hta Hth Hbl Hsrc ks Hne Hv Hst) as (pk & Pq & Hs).
    apply (refused _ st Hs). rewrite <- app_assoc. apply unscoped_quiet; [exact Pq|]. destruct Hks as [-> | ->]; reflexivity.
  Qed.

  (* a head without a version is passed over *)
  Theorem no_version_compiles lead l ss t ps tail st : lead_text lead -> head_text E l ss t ->
    last_of "version" l = None -> ps <> [] -> faultless ps -> body_text E ps tail -> p_src P = lead ++ t ++ tail ->
    exists root st1, Tokenizes E P (script_ctx P name st) (Script_ E) (script_start E P name st) (TOk root) st1 /\
      forall st', all_stated F compile (next_sid st1) ff (s_statements (mkScript None ps)) (sc_new st1) st' ->
        exists fuel, compile_with fuel E F compile P name ff false st =
          Ret (ScriptOk (compiled_script name (next_sid st1) (mkScript None ps)) (next_sid st1)) st'.
  Proof.
    intros Hl [l0 l' ss0 b ta th Hb Hta Hth Hbl Hne] Hv Hps Hgood Htail Hsrc. rewrite <- !app_assoc in Hsrc.
    destruct (sees_patterns E P (next_sid st) HE Hascii Hsmall ps tail Htail) as [(ts & T1 & T2 & T3 & T4)|[-> _]]; [|congruence].
    set (x := Tr "PatternScope" no_attrs ts []) in *.
    destruct (no_version_strolls E P (next_sid st) HE Hascii Hsmall lead b ta th tail l0 l' ss0 Hl Hb Hta Hth Hbl Hsrc [KTree x] Hne Hv) as (pk & Pq & Hs).
    { intros k0. eapply so_tree; [reflexivity|apply (opt E P); exact T4|cbn [t_rest x]; rewrite slen_nil; exact T3|apply so_nil]. }
    apply accepted. intros sc. eexists. split; [|split; [exact Hs|]].
    - rewrite <- app_assoc. rewrite !(quiet_has pk) by (auto; cbn; auto 10). reflexivity.
    - intros h st1 k name0 s0 s1 Hk Hst. cbn in Hst. inversion Hst; subst.
      apply Forall2_app_inv_r in Hk as (k1 & k2 & K1 & K2 & ->). apply Forall2_app_inv_r in K1 as (k3 & k4 & K3 & K4 & ->).
      inversion K4 as [|y ? k5 ? Y1 Y2]; subst. inversion Y2; subst. inversion K2 as [|z ? k6 ? Z1 Z2]; subst. inversion Z2; subst.
      cbn [looks_like] in Y1, Z1. eapply tells_app; [eapply tells_app; [eapply quiet_told; [exact Pq|exact K3]|eapply tells_bad; exact Y1]|].
      exact (tells_patterns E P F compile sc ff h st1 z ps ts [] name0 [] s1 Hgood T2 Z1).
  Qed.
  (* after a good head, patterns that are followed by something else are dropped *)
  Theorem junk_dropped lead l ss v n t ps tail st : lead_text lead -> head_text E l ss t ->
    last_of "version" l = Some v -> usize_text n v -> broken_body E ps tail -> p_src P = lead ++ t ++ tail ->
    exists root st1, Tokenizes E P (script_ctx P name st) (Script_ E) (script_start E P name st) (TOk root) st1 /\
      forall st', all_stated F compile (next_sid st1) ff (s_statements (mkScript (Some (l, ss)) [])) (sc_new st1) st' ->
        exists fuel, compile_with fuel E F compile P name ff false st =
          Ret (ScriptOk (compiled_script name (next_sid st1) (mkScript (Some (l, ss)) [])) (next_sid st1)) st'.
  Proof.
    intros Hl [l0 l' ss0 b ta th Hb Hta Hth Hbl Hne] Hv Hn Htail Hsrc. rewrite <- !app_assoc in Hsrc.
    destruct (broken_tail E P (next_sid st) HE Hascii Hsmall ps tail Htail) as (ks & Hks & Hst).
    destruct (headed_lead E P (next_sid st) HE Hascii Hsmall lead b ta th tail Hl Hsrc) as (pk & Pq & Pw).
    apply accepted. intros sc.
    destruct (sees_head E P (next_sid st) HE Hascii Hsmall F compile sc ff b l0 l' ta v n ss0 th tail Hb Hta Hv Hn Hth Hbl) as (ak & sk & H1 & H2 & H3).
    { now exists lead. }
    set (x := Tr "AdextopaScope" (head_info l0) (ak ++ sk) tail) in *.
    exists ((map KTree pk ++ [KTree x]) ++ ks). split; [|split].
    - rewrite <- app_assoc. rewrite !(quiet_has pk) by (auto; cbn; auto 10). reflexivity.
    - apply Pw. eapply so_tree; [reflexivity|apply (opt E P); exact H1|cbn [t_rest x]|cbn [t_rest x]; apply Hst].
      rewrite !slen_app. change (slen (lit "]")) with 1. lia.
    - intros h st1 k name0 s0 s1 Hk Hstd. cbn [s_statements s_head] in Hstd.
      apply Forall2_app_inv_r in Hk as (k1 & k2 & K1 & K2 & ->). apply Forall2_app_inv_r in K1 as (k3 & k4 & K3 & K4 & ->).
      inversion K4 as [|y ? k5 ? Y1 Y2]; subst. inversion Y2; subst. cbn [looks_like] in Y1.
      eapply tells_app; [eapply tells_app; [eapply quiet_told; [exact Pq|exact K3]|]|].
      + eapply tells_scope; [exact Y1|exact H2|exact H3|exact Hstd].
      + cbn [s_patterns map s_name s_head]. destruct Hks as [-> | ->].
        * inversion K2; subst. apply tells_nil.
        * inversion K2 as [|z ? k6 ? Z1 Z2]; subst. inversion Z2; subst. eapply tells_bad; exact Z1.
  Qed.
End Compiled.
