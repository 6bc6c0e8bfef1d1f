(* An attribute value without quotes ends the compilation of a script, wherever
   it is. *)
From Verif Require Import TokenizeProofs ScopeProofs TreeProofs DepthProofs CombProofs MapProofs LoopProofs.
From Verif Require Import ScriptTextProofs ScriptProofs CompileProofs BrokenProofs.
Open Scope string_scope.
Open Scope list_scope.
Open Scope N_scope.

Section Fatal.
  Variables (E : env) (P : parser) (s : sid).
  Hypothesis HE : tame E.
  Hypothesis Hascii : ascii_only (p_src P).
  Hypothesis Hsmall : slen (p_src P) < isize_bound.
  Notation B := (script_known E).
  Notation sees := (sees E P s B).
  Notation walk := (walk E P s B).
  Notation dies := (dies E P s B).
  Notation falls := (falls E P s B).
  Notation fatal_pick := (fatal_pick E P s B).
  Notation pos := (pos P).
  Notation left_over := (left_over P).
  Local Notation sees_regex := (SyntaxProofs.sees_regex E P s Hascii Hsmall) (only parsing).
  Local Notation sees_gone := (SyntaxProofs.sees_gone E P s Hascii Hsmall) (only parsing).
  Local Notation sees_wsn := (SyntaxProofs.sees_wsn E P s Hascii Hsmall) (only parsing).
  Local Notation sees_lit := (SyntaxProofs.sees_lit E P s Hascii Hsmall) (only parsing).
  Local Notation sees_lit_not := (SyntaxProofs.sees_lit_not E P s Hascii Hsmall) (only parsing).
  Local Notation sees_identifier := (SyntaxProofs.sees_identifier E P s Hascii Hsmall) (only parsing).
  Local Notation sees_identifier_not := (SyntaxProofs.sees_identifier_not E P s Hascii Hsmall) (only parsing).
  Local Notation sees_string := (SyntaxProofs.sees_string E P s Hascii Hsmall) (only parsing).
  Local Notation step_tree := (SyntaxProofs.step_tree E P s) (only parsing).
  Local Notation step_skip := (SyntaxProofs.step_skip E P s) (only parsing).
  Local Notation sees_prog := (SyntaxProofs.sees_prog E P s HE Hsmall) (only parsing).
  Local Notation sees_prog_fail := (SyntaxProofs.sees_prog_fail E P s HE Hsmall) (only parsing).
  Local Notation sees_alts0 := (SyntaxProofs.sees_alts0 E P s HE Hsmall) (only parsing).
  Local Notation opt := (SyntaxProofs.opt E P s) (only parsing).
  Local Notation opt_not := (SyntaxProofs.opt_not E P s Hsmall) (only parsing).
  Local Notation attr_solid := (SyntaxProofs.attr_solid P Hsmall) (only parsing).
  Local Notation step_sign := (SyntaxProofs.step_sign E P s HE Hascii Hsmall) (only parsing).
  Local Notation step_both := (SyntaxProofs.step_both E P s Hascii Hsmall) (only parsing).
  Local Notation step_attrs := (SyntaxProofs.step_attrs E P s HE Hascii Hsmall) (only parsing).
  Local Notation blank_ends := (SyntaxProofs.blank_ends P Hsmall) (only parsing).
  Local Notation tree_step := (SyntaxProofs.tree_step E P s) (only parsing).
  Local Notation tree_moves := (SyntaxProofs.tree_moves P Hsmall) (only parsing).
  Local Notation written_patterns := (SyntaxProofs.written_patterns E P s HE Hascii Hsmall) (only parsing).
  Ltac vis := split; [vm_compute; discriminate|reflexivity].
  Ltac shorter := rewrite ?slen_app, ?slen_cons; cbn [lit list_ascii_of_string]; rewrite ?slen_cons, ?slen_nil; try lia.

  (* ---------- the value ---------- *)

  Lemma dies_left m w e : (left_over w -> dies m w e) -> dies m w e.
  Proof. intros H c st Hd Hc Hk Hl. now apply H. Qed.
  Lemma not_blank_space a : N_of_ascii a < 128 -> ~ blank_char a -> cspace E (N_of_ascii a) = false.
  Proof.
    intros H Hb. unfold cspace. apply N.ltb_lt in H as ->. apply not_true_is_false. intros Hc. apply Hb. unfold blank_char, code.
    rewrite orb_true_iff, andb_true_iff, !N.leb_le, N.eqb_eq in Hc. lia.
  Qed.
  Definition plain_char (x : N) : bool := negb (ch "'" x) && negb (cspace E x).
  Lemma unquoted_in v r : ascii_only (v ++ r) -> unquoted v r -> all_in plain_char v /\ starts_not plain_char r /\
    starts_not (line_space E) (v ++ r) /\ starts_not (attr_char E) (lit "=" ++ v ++ r).
  Proof.
    intros Ha (H1 & H2 & H3).
    assert (Hv : all_in plain_char v).
    { apply Forall_forall. intros x Hx. rewrite Forall_forall in H2. destruct (H2 x Hx) as [H4 H5]. unfold plain_char.
      rewrite ch_false by congruence. rewrite not_blank_space; [reflexivity| |exact H5]. apply Ha. apply in_or_app. now left. }
    split; [exact Hv|]. split; [|split; [|reflexivity]].
    - destruct r as [|x r]; [exact Logic.I|]. cbn. unfold plain_char. destruct H3 as [->|H3]; [reflexivity|].
      rewrite (blank_space E x H3). apply andb_false_r.
    - destruct v as [|x v]; [congruence|]. inversion Hv as [|? ? Hx _]; subst. cbn. unfold plain_char in Hx. unfold line_space.
      apply andb_true_iff in Hx as [_ Hx]. apply negb_true_iff in Hx. now rewrite Hx.
  Qed.
  (* where the value is *)
  Definition value_range (v r : str) : range := mkR (pos (v ++ r)) (pos r).
  Lemma value_dies v r : unquoted v r -> left_over (v ++ r) ->
    exists text, error_text P msg_malformed (value_range v r) text /\
      dies (FatalIf (Matches_ (re_unquoted E)) msg_malformed) (v ++ r) (mkPE text (Some (value_range v r))).
  Proof.
    intros Hu Hl. pose proof (left_ascii P Hascii _ Hl) as Ha.
    destruct (unquoted_in v r Ha Hu) as (U1 & U2 & U3 & U4).
    assert (Hlr : left_over r) by (eapply left_follows; [exact Hl|now exists v]).
    pose proof (left_le P Hsmall _ Hl) as L1. rewrite slen_app in L1.
    destruct (error_string_text E P msg_malformed (value_range v r)) as (text & T1 & T2).
    { apply (sliceable_ascii P Hascii); unfold value_range, SeesProofs.pos; cbn [rs re]; rewrite ?slen_app; lia. }
    { apply (small_max P Hsmall). unfold value_range, SeesProofs.pos. cbn [rs re]. lia. }
    exists text. split; [exact T1|]. intros c st Hd Hc Hk _.
    assert (Hs : sees (Matches_ (re_unquoted E)) (v ++ r) (Some (FTree (Tr "Matches" (leaf v v (v ++ r)) [] r)))).
    { apply sees_regex; [|exact (proj1 Hu)|own]. intros _. apply alt_one. apply plus_end; [exact (proj1 Hu)|exact U1|exact U2]. }
    destruct (Hs (renamed c "Map") st Hd Hc Hk Hl) as (x & st1 & D & _ & O).
    destruct x as [x|[|]]; cbn in O; try contradiction. inversion O as [a t0 Hsh Hfo| | | | |]; subst.
    exists st1. eapply map_runs; [exact D|]. cbn [map_k map_ok].
    pose proof (shown_leaf P _ _ _ _ _ _ _ _ _ Hsh) as (_ & _ & R1).
    assert (R2 : re (tk_mr (tok st1 a)) = pos r) by (inversion Hsh; assumption).
    assert (R : tk_mr (tok st1 a) = value_range v r).
    { destruct (tk_mr (tok st1 a)) as [x y]. cbn in R1, R2. unfold value_range. congruence. }
    rewrite R, T2. reflexivity.
  Qed.

  Section Open.
  Variables (w0 : str) (e : parse_error).
  Hypothesis Hdie : dies (FatalIf (Matches_ (re_unquoted E)) msg_malformed) w0 e.
  Hypothesis Hline : starts_not (line_space E) w0.

  (* ---------- attributes ---------- *)

  Definition name_char (y : ascii) : Prop := letter y \/ digit_char y \/ y = "+"%char \/ y = "_"%char.
  Lemma name_in n : Forall name_char n -> all_in (attr_char E) n.
  Proof. intros H. eapply all_in_of; [|exact H]. intros a Ha. now apply attr_char_in. Qed.
  Lemma name_solid n r : n <> [] -> Forall name_char n -> solid (n ++ r).
  Proof.
    intros Hn H. destruct H as [|y l Hy _]; [congruence|]. cbn. unfold name_char, letter, digit_char, code in Hy.
    change (N_of_ascii "a") with 97 in Hy. change (N_of_ascii "z") with 122 in Hy. change (N_of_ascii "A") with 65 in Hy.
    change (N_of_ascii "Z") with 90 in Hy. change (N_of_ascii "0") with 48 in Hy. change (N_of_ascii "9") with 57 in Hy.
    destruct Hy as [[Hy|Hy]|[Hy|[->| ->]]]; try lia; cbn; lia.
  Qed.
  Lemma attr_dies n b1 b2 : n <> [] -> Forall name_char n -> blank_line b1 -> blank_line b2 ->
    dies (ScriptAttribute E) (n ++ b1 ++ lit "=" ++ b2 ++ w0) e.
  Proof.
    intros Hn Hc H1 H2. apply dies_program; try reflexivity; try assumption; [own|].
    eapply wk_look; [apply sees_pin; assumption|]. pose proof (slen_pos _ Hn).
    eapply step_tree; [reflexivity|apply sees_regex; [|exact Hn|own]|shorter|].
    { intros _. apply alt_one. apply plus_end; [exact Hn|now apply name_in|now apply (attr_blank E P Hsmall)]. }
    eapply step_skip; [reflexivity|apply (sees_ws E P s Hascii Hsmall); [exact H1|reflexivity]|].
    eapply step_skip; [reflexivity|apply sees_lit; discriminate|].
    eapply step_skip; [reflexivity|apply (sees_ws E P s Hascii Hsmall); [exact H2|exact Hline]|].
    apply wk_fatal. exact Hdie.
  Qed.
  Lemma open_attrs_solid t r : open_attrs t -> solid (t ++ r).
  Proof.
    intros [l l' ta n b1 b2 Ha Hn Hc _ _]. rewrite <- !app_assoc. destruct Ha as [|m v raw c1 c2 c3 l l' t' Hm].
    - cbn [app]. now apply name_solid.
    - rewrite <- app_assoc. now apply attr_solid.
  Qed.
  Lemma attrs_fall l l' ta : attrs_text l l' ta -> forall r ts, solid r -> dies (ScriptAttribute E) r e ->
    falls (attr_pats E) ts (ta ++ r) e.
  Proof.
    induction 1 as [|n v raw b1 b2 b3 l l' t Hn H1 H2 H3 Hv Ht IH]; intros r ts Hs Hr.
    - apply fa_now. now apply wk_fatal.
    - rewrite <- !app_assoc.
      pose proof (sees_attr E P s HE Hascii Hsmall n v raw b1 b2 (b3 ++ t ++ r) Hn H1 H2 Hv) as Ha. cbn zeta in Ha.
      destruct (attr_name_in E n Hn) as [N1 _]. pose proof (slen_pos _ N1).
      eapply fa_next; [| |apply IH; [exact Hs|exact Hr]].
      + eapply step_tree; [reflexivity|exact Ha|shorter|].
        eapply step_skip; [reflexivity|apply sees_wsn; [exact H3|]|apply wk_nil].
        destruct Ht; [exact Hs|]. rewrite <- app_assoc. now apply attr_solid.
      + shorter.
  Qed.
  Lemma attrs_die t : open_attrs t -> dies (ScriptAttributes E) (t ++ w0) e.
  Proof.
    intros [l l' ta n b1 b2 Ha Hn Hc H1 H2]. rewrite <- !app_assoc. apply dies_optional; try assumption.
    apply (dies_loop E P s HE Hsmall B (attr_pats E) _ 1); try reflexivity; [own|].
    apply (attrs_fall l l' ta Ha); [now apply name_solid|]. now apply attr_dies.
  Qed.

  (* ---------- patterns ---------- *)

  Definition open_start (t : str) : Prop := exists x u, t = x :: u /\ In x (lit "(?!<").
  Definition def_dies (t : str) : Prop := (exists o u, t = sign_text o ++ lit "<" ++ u /\ ~ has_prefix (lit "<!-") (t ++ w0)) /\
    dies (ScriptPatternDefinition E) (t ++ w0) e.
  Definition pat_dies (t : str) : Prop := pat_start t /\ ~ has_prefix (lit "<!-") (t ++ w0) /\ dies (ScriptPattern E) (t ++ w0) e.
  Definition core_dies (t : str) : Prop := core_start t /\ (exists x u, t = x :: u /\ x <> "-"%char) /\ dies (ScriptMatcher E) (t ++ w0) e.
  Definition alts_die (t : str) : Prop := forall ts, falls (switch_pats E) ts (t ++ w0) e.
  Definition seq_dies (t : str) : Prop :=
    exists b t0, t = b ++ t0 /\ blank b /\ pat_start t0 /\ forall b' ts, blank b' -> falls (program_pats E) ts (b' ++ t0 ++ w0) e.

  Lemma no_dash_head o i b1 t : blank b1 -> core_start t -> (exists x u, t = x :: u /\ x <> "-"%char) ->
    ~ has_prefix (lit "<!-") (sign_text o ++ lit "<" ++ sign_text i ++ b1 ++ t).
  Proof.
    intros Hb1 (x' & v' & He & _ & _ & Hx') (x & v & -> & Hx) [z Hz]. injection He as <- _.
    destruct o; try discriminate. destruct i; cbn [sign_text app lit list_ascii_of_string] in Hz; injection Hz as Hz; try discriminate;
      destruct Hb1 as [|y b1 Hy _]; cbn [app] in Hz; injection Hz as Hz _; subst; try congruence;
      unfold blank_char, code in Hy; cbn in Hy; lia.
  Qed.
  Lemma core_app t r : core_start t -> core_start (t ++ r).
  Proof. intros (x & u & -> & H). exists x, (u ++ r). auto. Qed.
  Lemma dash_app t r : (exists x u, t = x :: u /\ x <> "-"%char) -> exists x u, t ++ r = x :: u /\ x <> "-"%char.
  Proof. intros (x & u & -> & H). exists x, (u ++ r). auto. Qed.

  Lemma bare_attrs o i b1 k tk b2 ta : blank b1 -> writes_core E k tk -> blank b2 -> (forall l, separated k l b2) -> open_attrs ta ->
    def_dies (sign_text o ++ lit "<" ++ sign_text i ++ b1 ++ tk ++ b2 ++ ta).
  Proof.
    intros Hb1 Hk Hb2 Hsep Ha. pose proof (proj1 (proj2 (proj2 written_patterns)) _ _ Hk) as [Hst Hr].
    pose proof (core_no_dash E P Hsmall k tk Hk) as Hnd.
    split.
    { exists o. eexists. split; [reflexivity|]. rewrite <- !app_assoc. apply no_dash_head; [exact Hb1|now apply core_app|now apply dash_app]. }
    rewrite <- !app_assoc. apply dies_map; try assumption; [discriminate|]. apply dies_program; try reflexivity; try assumption; [own|].
    apply step_both; [reflexivity|]. apply step_sign; [split; discriminate|split; discriminate|reflexivity|].
    eapply step_skip; [reflexivity|apply sees_lit; discriminate|].
    assert (Hu : unsigned (b1 ++ tk ++ b2 ++ ta ++ w0)) by now apply (core_unsigned P Hsmall).
    apply step_both; [exact Hu|]. apply step_sign; [split; discriminate|split; discriminate|exact Hu|].
    eapply step_skip; [reflexivity|apply sees_wsn; [exact Hb1|now apply core_solid]|].
    destruct (Hr (b2 ++ ta ++ w0)) as (c & C1 & C2 & _).
    { specialize (Hsep [([], [])]). destruct k; cbn; auto; (destruct Hb2 as [|x b Hx _]; [now destruct Hsep|]); cbn.
      - now apply (blank_no_id P Hsmall).
      - unfold blank_char, code in Hx. apply not_true_is_false. unfold flag_char, rng, ch.
        rewrite !orb_true_iff, !N.eqb_eq. cbn. lia. }
    eapply (tree_step _ _ _ _ c); [reflexivity|exact C1| |].
    { rewrite C2. destruct Hst as (x & u & -> & _). shorter. }
    rewrite C2. eapply step_skip; [reflexivity|apply sees_wsn; [exact Hb2|now apply open_attrs_solid]|].
    apply wk_fatal. now apply attrs_die.
  Qed.
  Lemma bare_core o i b1 t : blank b1 -> core_dies t -> def_dies (sign_text o ++ lit "<" ++ sign_text i ++ b1 ++ t).
  Proof.
    intros Hb1 (Hst & Hnd & Hc). split.
    { exists o. eexists. split; [reflexivity|]. rewrite <- !app_assoc. apply no_dash_head; [exact Hb1|now apply core_app|now apply dash_app]. }
    rewrite <- !app_assoc. apply dies_map; try assumption; [discriminate|]. apply dies_program; try reflexivity; try assumption; [own|].
    apply step_both; [reflexivity|]. apply step_sign; [split; discriminate|split; discriminate|reflexivity|].
    eapply step_skip; [reflexivity|apply sees_lit; discriminate|].
    assert (Hu : unsigned (b1 ++ t ++ w0)) by now apply (core_unsigned P Hsmall).
    apply step_both; [exact Hu|]. apply step_sign; [split; discriminate|split; discriminate|exact Hu|].
    eapply step_skip; [reflexivity|apply sees_wsn; [exact Hb1|now apply core_solid]|].
    apply wk_fatal. exact Hc.
  Qed.
  Lemma dies_alts n alts w : own_ok B true n (SwitchN n alts) -> fatal_pick alts w e -> dies (SwitchN n alts) w e.
  Proof. intros Ho Hp. unfold SwitchN, Switch_. cbn [m_set_name pi_iter pi_stop]. apply dies_switch; auto. Qed.
  Lemma dies_alts0 alts w : fatal_pick alts w e -> dies (Switch_ alts) w e.
  Proof. intros Hp. apply dies_switch; auto. own. Qed.
  Lemma def_pat_start t : (exists o u, t = sign_text o ++ lit "<" ++ u /\ ~ has_prefix (lit "<!-") (t ++ w0)) -> pat_start t.
  Proof.
    intros (o & u & -> & _). destruct (def_start o u) as (x & v & Hx & Hin). exists x, v. split; [congruence|]. cbn in *. tauto.
  Qed.
  Lemma pat_plain t : def_dies t -> pat_dies t.
  Proof.
    intros [Ho Hd]. split; [now apply def_pat_start|]. destruct Ho as (o & u & Ht & Hn). split; [exact Hn|].
    apply dies_alts; [own|]. apply fp_fail; [|now apply fp_here].
    eapply sees_prog_fail; [own|]. apply wk_fail. apply sees_lit_not. rewrite Ht, <- !app_assoc.
    destruct o; cbn [sign_text app]; now apply no_prefix_char.
  Qed.
  Lemma pat_captured b1 t : blank b1 -> def_dies t -> pat_dies (lit "(" ++ b1 ++ t).
  Proof.
    intros Hb [Ho Hd]. pose proof (def_pat_start _ Ho) as Hst. split; [do 2 eexists; split; [reflexivity|]; cbn; auto|].
    split; [now apply no_prefix_char|]. rewrite <- !app_assoc.
    apply dies_alts; [own|]. apply fp_here. apply dies_program; try reflexivity; try assumption; [own|].
    eapply step_skip; [reflexivity|apply sees_lit; discriminate|].
    eapply step_skip; [reflexivity|apply sees_wsn; [exact Hb|now apply pat_solid]|].
    eapply wk_stay.
    { apply opt_not. destruct Ho as (o & u & -> & _). rewrite <- !app_assoc. destruct o; cbn [sign_text app]; (eapply sees_prog_fail; [own|]).
      - apply wk_fail. now apply sees_lit_not, no_prefix_char.
      - eapply step_skip; [reflexivity|apply (sees_lit (lit "?")); discriminate|].
        apply wk_fail. apply (SyntaxProofs.sees_string_not E P s Hascii Hsmall); [split; discriminate|now apply no_prefix_char].
      - apply wk_fail. now apply sees_lit_not, no_prefix_char. }
    eapply step_skip; [reflexivity|apply (sees_wsn []); [constructor|now apply pat_solid]|].
    apply wk_fatal. exact Hd.
  Qed.
  Lemma pat_named n tn b1 b2 t : string_text n tn -> blank b1 -> blank b2 -> def_dies t ->
    pat_dies (lit "(" ++ b1 ++ lit "?" ++ tn ++ b2 ++ t).
  Proof.
    intros (raw & Hraw & ->) Hb1 Hb2 [Ho Hd]. pose proof (def_pat_start _ Ho) as Hst. split; [do 2 eexists; split; [reflexivity|]; cbn; auto|].
    split; [now apply no_prefix_char|]. rewrite <- !app_assoc.
    apply dies_alts; [own|]. apply fp_here. apply dies_program; try reflexivity; try assumption; [own|].
    eapply step_skip; [reflexivity|apply sees_lit; discriminate|].
    eapply step_skip; [reflexivity|apply sees_wsn; [exact Hb1|vis]|].
    set (w1 := t ++ w0) in *.
    set (nm := Tr "MatcherName" no_attrs [Tr "Name" (leaf n raw (lit "'" ++ raw ++ lit "'" ++ b2 ++ w1)) [] (b2 ++ w1)] (b2 ++ w1)).
    eapply (tree_step _ _ _ _ nm); [reflexivity| | |].
    { apply opt. apply (sees_prog _ _ _ _ (b2 ++ w1) (b2 ++ w1)); [own| |discriminate].
      eapply step_skip; [reflexivity|apply sees_lit; discriminate|].
      eapply step_tree; [reflexivity|apply sees_string; [split; discriminate|exact Hraw]|shorter|apply wk_nil]. }
    { cbn [t_rest nm]. shorter. }
    cbn [t_rest nm].
    eapply step_skip; [reflexivity|apply sees_wsn; [exact Hb2|now apply pat_solid]|].
    apply wk_fatal. exact Hd.
  Qed.
  Lemma ref_dies (name : String.string) m x w : In (lit name, VMatcher m) B -> dies m (x :: w) e ->
    In x (lit "[{") ->
    (name = "SwitchMatcher"%string \/ name = "ProgramMatcher"%string /\ sees (Ref_ "SwitchMatcher") (x :: w) None) ->
    dies (ScriptMatcher E) (x :: w) e.
  Proof.
    intros Hin Hm Hw Hn.
    assert (Hx : (x <> "/" /\ x <> "=" /\ x <> "%")%char /\ id_start (N_of_ascii x) = false).
    { destruct Hw as [<-|[<-|[]]]; repeat split; discriminate. }
    destruct Hx as [(X1 & X2 & X3) X4].
    apply dies_alts; [own|]. apply fp_fail; [apply (sees_re_not E P s HE Hascii Hsmall); apply no_prefix_char; congruence|].
    apply fp_fail; [apply (sees_text_not E P s HE Hascii Hsmall); apply no_prefix_char; congruence|].
    apply fp_fail; [apply (sees_seq_not E P s HE Hascii Hsmall); cbn; apply ch_false; congruence|].
    apply fp_fail; [apply (sees_name_not E P s HE Hascii Hsmall); exact X4|].
    destruct Hn as [->|[-> Hs]].
    - apply fp_here. eapply dies_ref; try eassumption.
    - apply fp_fail; [exact Hs|]. apply fp_here. eapply dies_ref; try eassumption.
  Qed.
  Lemma loop_dies name (start : String.string) pats t : lit start <> [] ->
    own_ok B true name (ProgramN name [MDiscard (Equals_ start); Proxy_ (Loop_ pats)]) -> falls pats [] t e ->
    dies (ProgramN name [MDiscard (Equals_ start); Proxy_ (Loop_ pats)]) (lit start ++ t) e.
  Proof.
    intros Hs Ho Hf. apply dies_program; try reflexivity; try assumption.
    eapply step_skip; [reflexivity|apply sees_lit; exact Hs|]. apply wk_fatal.
    eapply dies_proxy; try assumption. apply (dies_loop E P s HE Hsmall B pats _ 0); try reflexivity; [own|exact Hf].
  Qed.
  Lemma core_switch t : alts_die t -> core_dies (lit "[" ++ t).
  Proof.
    intros H. split; [do 2 eexists; split; [reflexivity|]; repeat split; discriminate|]. split; [do 2 eexists; split; [reflexivity|discriminate]|].
    apply (ref_dies "SwitchMatcher" (ScriptSwitchMatcher E)); [now left| |cbn; auto|now left].
    apply (loop_dies _ "[" (switch_pats E) (t ++ w0)); [discriminate|own|apply H].
  Qed.
  Lemma core_program t : seq_dies t -> core_dies (lit "{" ++ t).
  Proof.
    intros (b & t0 & -> & Hb & _ & H). split; [do 2 eexists; split; [reflexivity|]; repeat split; discriminate|].
    split; [do 2 eexists; split; [reflexivity|discriminate]|]. rewrite <- !app_assoc.
    apply (ref_dies "ProgramMatcher" (ScriptProgramMatcher E)); [right; now left| |cbn; auto|right; split; [reflexivity|]].
    - apply (loop_dies _ "{" (program_pats E) (b ++ t0 ++ w0)); [discriminate|own|now apply H].
    - eapply sees_ref; try eassumption; [now left|]. eapply sees_prog_fail; [own|]. apply wk_fail.
      now apply sees_lit_not, no_prefix_char.
  Qed.
  Lemma alts_here b1 t : blank b1 -> pat_dies t -> alts_die (b1 ++ t).
  Proof.
    intros Hb (Hst & _ & Hd) ts. rewrite <- app_assoc. apply fa_now.
    eapply step_skip; [reflexivity|apply sees_wsn; [exact Hb|now apply pat_solid]|]. apply wk_fatal.
    apply dies_alts0. apply fp_fail; [|now apply fp_here]. apply sees_discard_fail; try assumption.
    apply (closes_not E P s HE Hascii Hsmall). apply start_not; [exact Hst|]. cbn. intros H. repeat destruct H as [H|H]; try discriminate; contradiction.
  Qed.
  Lemma alts_after b1 p tp b2 t : blank b1 -> writes E p tp -> blank b2 -> alts_die t -> alts_die (b1 ++ tp ++ b2 ++ lit "|" ++ t).
  Proof.
    intros H1 Hp H2 Ht ts. rewrite <- !app_assoc. apply (proj1 written_patterns) in Hp.
    destruct (alt_walk E P s HE Hascii Hsmall p tp b1 b2 (lit "|" ++ t ++ w0) ts Hp H1 H2 ltac:(vis) ltac:(now apply char_ends)) as (k & K1 & K2 & K3).
    eapply fa_next; [apply K3; eapply step_skip; [reflexivity|apply (bar_gone E P s HE Hascii Hsmall)|apply wk_nil]| |apply Ht]. shorter.
  Qed.
  Lemma start_ends t r : pat_start t -> def_ends (t ++ r).
  Proof.
    intros (x & v & -> & Hx). cbn [app]. cbn in Hx.
    apply char_ends; intros ->; repeat destruct Hx as [Hx|Hx]; try discriminate; contradiction.
  Qed.
  Lemma seq_here b1 t : blank b1 -> pat_dies t -> seq_dies (b1 ++ t).
  Proof.
    intros Hb (Hst & _ & Hd). exists b1, t. split; [reflexivity|]. split; [exact Hb|]. split; [exact Hst|]. intros b' ts Hb'.
    apply fa_now. eapply step_skip; [reflexivity|apply sees_wsn; [exact Hb'|now apply pat_solid]|]. now apply wk_fatal.
  Qed.
  Lemma seq_after b1 p tp t : blank b1 -> writes E p tp -> seq_dies t -> seq_dies (b1 ++ tp ++ t).
  Proof.
    intros Hb Hp (b & t0 & -> & Hb0 & Ht0 & Hf). apply (proj1 written_patterns) in Hp as [Hst Hp].
    exists b1, (tp ++ b ++ t0). split; [reflexivity|]. split; [exact Hb|].
    split; [destruct Hst as (x & v & -> & Hx); exists x, (v ++ b ++ t0); auto|]. intros b' ts Hb'. rewrite <- !app_assoc.
    destruct (Hp (b ++ t0 ++ w0)) as (k & K1 & K2 & _).
    { apply blank_ends; [exact Hb0|]. now apply start_ends. }
    eapply fa_next; [| |apply (Hf [] (ts ++ [k])); constructor].
    - eapply step_skip; [reflexivity|apply sees_wsn; [exact Hb'|now apply pat_solid]|].
      eapply (tree_step _ _ _ _ k); [reflexivity|exact K1|now apply tree_moves|]. rewrite K2.
      eapply step_skip; [reflexivity|apply sees_wsn; [exact Hb0|now apply pat_solid]|].
      eapply wk_stay; [apply (no_brace E P s HE Hascii Hsmall)|apply wk_nil]. apply start_not; [exact Ht0|].
      cbn. intros H. repeat destruct H as [H|H]; try discriminate; contradiction.
    - destruct Hst as (x & v & -> & _). shorter.
  Qed.
  Theorem open_patterns :
    (forall t, open_pattern E t -> pat_dies t) /\ (forall t, open_bare E t -> def_dies t) /\ (forall t, open_core E t -> core_dies t) /\
    (forall t, open_alternatives E t -> alts_die t) /\ (forall t, open_sequence E t -> seq_dies t).
  Proof.
    apply (open_mutind E pat_dies def_dies core_dies alts_die seq_dies); intros.
    - now apply pat_plain.
    - now apply pat_captured.
    - eapply pat_named; eassumption.
    - eapply bare_attrs; eassumption.
    - now apply bare_core.
    - now apply core_switch.
    - now apply core_program.
    - now apply alts_here.
    - eapply alts_after; eassumption.
    - now apply seq_here.
    - eapply seq_after; eassumption.
  Qed.

  (* ---------- patterns of a script ---------- *)

  Lemma open_first t : open_body E t -> exists lead u, t = lead ++ u /\ lead_text lead /\ open_body E u /\
    pat_start u /\ ~ has_prefix (lit "<!-") (u ++ w0).
  Proof.
    induction 1 as [b t Hb Ht|b c t Hb Hc Hu Hbody IH|b p tp t Hb Hp Hbody _].
    - destruct (proj1 open_patterns t Ht) as (Hst & Hn & _). exists b, t. split; [reflexivity|]. split; [now constructor|].
      split; [apply (oy_here E [] t); [constructor|exact Ht]|auto].
    - destruct IH as (lead & v & -> & L & B1 & B2 & B3). exists (b ++ c ++ lead), v. rewrite <- !app_assoc.
      split; [reflexivity|]. split; [|auto]. apply ld_comment; auto.
      destruct lead as [|x lead]; [|exact Hu]. exfalso. cbn [app] in Hu. destruct B2 as (y & u & -> & Hy).
      cbn in Hu, Hy. unfold line_end, code in Hu. repeat destruct Hy as [<-|Hy]; try contradiction; cbn in Hu; lia.
    - exists b, (tp ++ t). split; [reflexivity|]. split; [now constructor|].
      split; [apply (oy_after E [] p tp t); [constructor|exact Hp|exact Hbody]|].
      destruct (proj1 written_patterns _ _ Hp) as [(x & u & Hx & Hin) _]. split; [exists x, (u ++ t); subst tp; auto|].
      rewrite <- app_assoc. eapply (pattern_no_head E P s HE Hascii Hsmall (fun _ s => Ret (ScriptErr []) s)). exact Hp.
  Qed.
  Lemma open_ends t : open_body E t -> def_ends (t ++ w0).
  Proof.
    intros [b u Hb Hu|b c u Hb (c' & -> & _) _ _|b p tp u Hb Hp _]; rewrite <- !app_assoc; (apply blank_ends; [exact Hb|]).
    - apply start_ends. now apply (proj1 open_patterns).
    - now apply char_ends.
    - destruct (proj1 written_patterns _ _ Hp) as [Hst _]. now apply start_ends.
  Qed.
  Lemma no_comment t r : pat_start t -> sees ScriptComment (t ++ r) None.
  Proof.
    intros Hst. apply (sees_comment_not E P s Hascii Hsmall). apply start_not; [exact Hst|].
    cbn. intros H. repeat destruct H as [H|H]; try discriminate; contradiction.
  Qed.
  Lemma body_falls t : open_body E t -> forall ts, falls (body_pats E) ts (t ++ w0) e.
  Proof.
    induction 1 as [b t Hb Ht|b c t Hb Hc Hu Hbody IH|b p tp t Hb Hp Hbody IH]; intros ts; rewrite <- !app_assoc.
    - destruct (proj1 open_patterns t Ht) as (Hst & _ & Hd). apply fa_now.
      eapply step_skip; [reflexivity|apply sees_wsn; [exact Hb|now apply pat_solid]|]. apply wk_fatal. apply dies_alts0.
      apply fp_fail; [now apply no_comment|now apply fp_here].
    - set (k := Tr "Comment" (leaf c c (c ++ t ++ w0)) [] (t ++ w0)).
      eapply fa_next; [| |apply (IH (ts ++ [k]))].
      + eapply step_skip; [reflexivity|apply sees_wsn; [exact Hb|now apply comment_solid]|].
        eapply (tree_step _ _ _ _ k); [reflexivity| |now apply (comment_len P Hsmall)|apply wk_nil].
        apply sees_alts0. apply pk_tree. apply (sees_comment E P s Hascii Hsmall); [exact Hc|].
        destruct t as [|x t]; [contradiction|]. now apply line_stops in Hu.
      + pose proof (comment_len P Hsmall c (t ++ w0) Hc) as Hlen. rewrite !slen_app in Hlen. shorter.
    - destruct (proj1 written_patterns _ _ Hp) as [Hst Hr]. destruct (Hr (t ++ w0) (open_ends t Hbody)) as (k & K1 & K2 & _).
      eapply fa_next; [| |apply (IH (ts ++ [k]))].
      + eapply step_skip; [reflexivity|apply sees_wsn; [exact Hb|now apply pat_solid]|].
        eapply (tree_step _ _ _ _ k); [reflexivity| |now apply tree_moves|rewrite K2; apply wk_nil].
        apply sees_alts0. apply pk_fail; [now apply no_comment|now apply pk_tree].
      + destruct Hst as (x & v & -> & _). shorter.
  Qed.
  Lemma body_dies t : open_body E t -> dies (ScriptPatternScope E) (t ++ w0) e.
  Proof.
    intros H. apply dies_map; try assumption; [discriminate|].
    apply (dies_loop E P s HE Hsmall B (body_pats E) _ 1); try reflexivity; [own|]. now apply body_falls.
  Qed.

  (* ---------- the head of a script ---------- *)

  Lemma open_some t : open_statements E t -> t <> [].
  Proof.
    intros [b x b1 b2 u _ Hx _ _ _|b c u _ (c' & -> & _) _ _|b d td u _ Hd _ _]; intros He; apply app_eq_nil in He as [_ He].
    - apply app_eq_nil in He as [He _]. subst x. destruct Hx as (? & ? & ? & _). discriminate.
    - discriminate.
    - apply app_eq_nil in He as [He _]. subst td.
      destruct (statement_read E P s HE Hascii Hsmall (mkFs (fun _ _ => None) (fun _ => None) (fun _ => None)) (fun _ s => Ret (ScriptErr []) s) 0%nat None d [] Hd) as [(? & ? & ? & _) _].
      discriminate.
  Qed.
  Lemma statements_fall t : open_statements E t -> forall ts, left_over (t ++ w0) -> falls (scope_pats E) ts (t ++ w0) e.
  Proof.
    induction 1 as [b x b1 b2 t Hb Hx H1 H2 Ht|b c t Hb Hc Hu Hst IH|b d td t Hb Hd He Hst IH]; intros ts Hl; rewrite <- !app_assoc in *.
    - destruct (proj1 (proj2 open_patterns) t Ht) as [Ho Hd]. pose proof (def_pat_start _ Ho) as Hst.
      pose proof (slen_pos _ (identifier_some _ Hx)).
      apply fa_now. eapply step_skip; [reflexivity|apply sees_wsn; [exact Hb|]|].
      { destruct Hx as (z & u & -> & Hz & _). now apply (id_solid P Hsmall (fun _ s => Ret (ScriptErr []) s)). }
      apply wk_fatal. apply dies_alts0. apply fp_fail.
      { apply (sees_comment_not E P s Hascii Hsmall). destruct Hx as (y & u & -> & Hy & _). apply no_prefix_char. apply (id_no_hash P Hsmall) in Hy as [Hy _]. congruence. }
      apply fp_fail; [now apply (no_import E P s HE Hascii Hsmall)|]. apply fp_here.
      apply dies_program; try reflexivity; try assumption; [own|].
      eapply step_tree; [reflexivity|apply sees_identifier; [split; discriminate|exact Hx|]|shorter|].
      { apply blank_starts; [exact (blank_no_id P Hsmall)|exact H1|reflexivity]. }
      eapply step_skip; [reflexivity|apply sees_wsn; [exact H1|vis]|].
      eapply step_skip; [reflexivity|apply sees_lit; discriminate|].
      eapply step_skip; [reflexivity|apply sees_wsn; [exact H2|now apply pat_solid]|].
      apply wk_fatal. apply dies_alts0. apply fp_fail; [|now apply fp_here].
      apply sees_identifier_not; [split; discriminate|]. destruct Ho as (o & u & -> & _). rewrite <- !app_assoc. destruct o; reflexivity.
    - set (k := Tr "Comment" (leaf c c (c ++ t ++ w0)) [] (t ++ w0)).
      eapply fa_next; [| |apply (IH (ts ++ [k]))].
      + eapply step_skip; [reflexivity|apply sees_wsn; [exact Hb|now apply comment_solid]|].
        eapply (tree_step _ _ _ _ k); [reflexivity| |now apply (comment_len P Hsmall)|apply wk_nil].
        apply sees_alts0. apply pk_tree. apply (sees_comment E P s Hascii Hsmall); [exact Hc|].
        destruct t as [|x t]; [contradiction|]. now apply line_stops in Hu.
      + pose proof (comment_len P Hsmall c (t ++ w0) Hc) as Hlen. rewrite !slen_app in Hlen. shorter.
      + eapply left_follows; [exact Hl|]. exists (b ++ c). now rewrite <- !app_assoc.
    - destruct (statement_read E P s HE Hascii Hsmall (mkFs (fun _ _ => None) (fun _ => None) (fun _ => None)) (fun _ s => Ret (ScriptErr []) s) 0%nat None d td Hd) as [(y & u & -> & Hy) Hr].
      destruct (Hr (t ++ w0)) as (k & K1 & K2 & _).
      { pose proof (open_some t Hst) as Hne. destruct t as [|z t]; [congruence|exact He]. }
      { eapply left_follows; [exact Hl|]. now exists b. }
      eapply fa_next; [| |apply (IH (ts ++ [k]))].
      + eapply step_skip; [reflexivity|apply sees_wsn; [exact Hb|now apply (id_solid P Hsmall (fun _ s => Ret (ScriptErr []) s))]|].
        eapply (tree_step _ _ _ _ k); [reflexivity|apply sees_alts0; exact K1|rewrite K2; shorter|rewrite K2; apply wk_nil].
      + shorter.
      + eapply left_follows; [exact Hl|]. exists (b ++ y :: u). now rewrite <- !app_assoc.
  Qed.
  Lemma step_scope b r ms ts x : blank_line b -> starts_not (line_space E) r -> walk ms ts r x ->
    walk (MDiscard (Matches_ re_scope_start) :: ScriptWS0 E :: ms) ts (lit "<!--[adextopa" ++ b ++ r) x.
  Proof.
    intros Hb Hr Hx. eapply step_skip; [reflexivity|apply sees_gone; [|own]; intros _; apply alt_one; reflexivity|].
    eapply step_skip; [reflexivity|apply (sees_ws E P s Hascii Hsmall); [exact Hb|exact Hr]|]. exact Hx.
  Qed.
  Lemma head_attrs_die b ta : blank_line b -> open_attrs ta -> dies (ScriptAdextopaScope E) (lit "<!--[adextopa" ++ b ++ ta ++ w0) e.
  Proof.
    intros Hb Ha. apply dies_map; try assumption; [discriminate|]. apply dies_program; try reflexivity; try assumption; [own|].
    apply step_scope; [exact Hb|now apply solid_line, open_attrs_solid|]. apply wk_fatal. now apply attrs_die.
  Qed.
  Lemma head_statements_die b l l' ta t : blank_line b -> attrs_text l l' ta -> open_statements E t -> left_over (t ++ w0) ->
    dies (ScriptAdextopaScope E) (lit "<!--[adextopa" ++ b ++ ta ++ lit "]" ++ t ++ w0) e.
  Proof.
    intros Hb Ha Ht Hl. apply dies_map; try assumption; [discriminate|]. apply dies_program; try reflexivity; try assumption; [own|].
    destruct (step_attrs l l' ta (lit "]" ++ t ++ w0) Ha ltac:(reflexivity) ltac:(vis) ltac:(left; eexists; reflexivity)) as (ak & _ & Sak).
    apply step_scope; [exact Hb| |].
    { destruct Ha as [|m v0 raw c1 c2 c3 l0 l0' t0 Hm]; [reflexivity|]. apply solid_line. rewrite <- app_assoc. now apply attr_solid. }
    apply Sak. eapply step_skip; [reflexivity|apply sees_lit; discriminate|].
    eapply wk_look; [apply (sees_mark E P s Hsmall); split; discriminate|]. apply wk_fatal. apply dies_optional; try assumption.
    apply (dies_loop E P s HE Hsmall B (scope_pats E) _ 0); try reflexivity; [own|]. now apply statements_fall.
  Qed.
  Theorem script_dies t : open_script E t -> left_over (t ++ w0) -> dies (Script_ E) (t ++ w0) e.
  Proof.
    intros Ht Hl. apply dies_map; try assumption; [discriminate|]. apply dies_program; try reflexivity; try assumption; [own|].
    set (nc := fun (_ : str) (s : state) => Ret (ScriptErr []) s).
    destruct Ht as [t Hb|lead b ta Hlead Hb Ha|lead b l l' ta t Hlead Hb Ha Ht|lead b l l' v n ta ss th t Hlead Hb Ha Hv Hn Hss Hth Ht].
    - destruct (open_first t Hb) as (lead & u & -> & L & B1 & B2 & B3). rewrite <- app_assoc.
      destruct (step_lead E P s HE Hascii Hsmall nc lead (u ++ w0) L) as (pk & _ & Pw).
      { now apply pat_solid. } { apply start_not; [exact B2|]. cbn. intros H. repeat destruct H as [H|H]; try discriminate; contradiction. }
      apply Pw. eapply wk_stay; [apply opt_not; now apply (no_head E P s HE Hascii Hsmall)|]. apply wk_fatal.
      apply dies_optional; try assumption. now apply body_dies.
    - rewrite <- !app_assoc. destruct (step_lead E P s HE Hascii Hsmall nc lead (lit "<!--[adextopa" ++ b ++ ta ++ w0) Hlead) as (pk & _ & Pw); [vis|now apply no_prefix_char|].
      apply Pw. apply wk_fatal. apply dies_optional; try assumption. now apply head_attrs_die.
    - rewrite <- !app_assoc in *. destruct (step_lead E P s HE Hascii Hsmall nc lead (lit "<!--[adextopa" ++ b ++ ta ++ lit "]" ++ t ++ w0) Hlead) as (pk & _ & Pw); [vis|now apply no_prefix_char|].
      apply Pw. apply wk_fatal. apply dies_optional; try assumption. eapply head_statements_die; try eassumption.
      eapply left_follows; [exact Hl|]. exists (lead ++ lit "<!--[adextopa" ++ b ++ ta ++ lit "]"). now rewrite <- !app_assoc.
    - rewrite <- !app_assoc in *.
      destruct (step_lead E P s HE Hascii Hsmall nc lead (lit "<!--[adextopa" ++ b ++ ta ++ lit "]" ++ th ++ lit "-->" ++ t ++ w0) Hlead) as (pk & _ & Pw); [vis|now apply no_prefix_char|].
      destruct (sees_head E P s HE Hascii Hsmall (mkFs (fun _ _ => None) (fun _ => None) (fun _ => None)) nc 0%nat None b l l' ta v n ss th (t ++ w0) Hb Ha Hv Hn Hss Hth) as (ak & sk & H1 & _).
      { eapply left_follows; [exact Hl|]. now exists lead. }
      apply Pw. eapply step_tree; [reflexivity|apply opt; exact H1|shorter|]. apply wk_fatal.
      apply dies_optional; try assumption. now apply body_dies.
  Qed.
  End Open.
End Fatal.

Section Refused.
  Variables (E : env) (P : parser) (F : fs) (compile : str -> state -> res script_res) (name : str) (ff : option str).
  Hypothesis HE : tame E.
  Hypothesis Hascii : ascii_only (p_src P).
  Hypothesis Hsmall : slen (p_src P) < isize_bound.

  Theorem unquoted_fatal t v r st : open_script E t -> unquoted v r -> p_src P = t ++ v ++ r ->
    let place := mkR (slen t) (slen t + slen v) in
    exists fuel text st', error_text P msg_malformed place text /\
      compile_with fuel E F compile P name ff false st = Ret (ScriptErr [mkPE text (Some place)]) st'.
  Proof.
    intros Ht Hu Hsrc place.
    assert (Hl : left_over P (v ++ r)) by (now exists t).
    destruct (value_dies E P (next_sid st) Hascii Hsmall v r Hu Hl) as (text & T1 & T2).
    assert (Hp : value_range P v r = place).
    { unfold value_range, place, SeesProofs.pos. rewrite Hsrc, !slen_app. f_equal; lia. }
    rewrite Hp in *.
    destruct (unquoted_in E P Hsmall v r (left_ascii P Hascii _ Hl) Hu) as (_ & _ & Hline & _).
    assert (Hw : left_over P (t ++ v ++ r)) by (rewrite <- Hsrc; now exists []).
    destruct (script_dies E P (next_sid st) HE Hascii Hsmall (v ++ r) _ T2 Hline t Ht Hw (script_ctx P name st) (script_start E P name st) eq_refl)
      as (st' & D).
    { rewrite <- Hsrc, start_offset. unfold SeesProofs.pos. f_equal. lia. }
    { apply script_known_start. }
    { exact Hw. }
    apply (tokenize_err E P (script_ctx P name st)) in D as [fuel D]. exists fuel, text, st'. split; [exact T1|].
    rewrite compile_start, D. reflexivity.
  Qed.
End Refused.
