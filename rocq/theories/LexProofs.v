(* Regular expressions, characters and strings of written scripts. *)
From Verif Require Export SeesProofs SpecSyntax SpecScript ScriptGrammar.
Open Scope string_scope.
Open Scope list_scope.
Open Scope N_scope.

(* ---------- regular expressions on ASCII text ---------- *)

Definition chars (w : str) : list (N * N) := map (fun a => (N_of_ascii a, 1)) w.
Lemma decode_ascii w : ascii_only w -> decode w = chars w.
Proof.
  induction w as [|x w IH]; intros H; [reflexivity|]. cbn [decode chars map].
  assert (Hx : N_of_ascii x < 128) by (apply H; now left).
  destruct (N.ltb_spec (N_of_ascii x) 192) as [_|Hn]; [|lia].
  rewrite IH; [reflexivity|]. intros y Hy. apply H. now right.
Qed.

(* [w] does not start with one of the characters [c] *)
Definition starts_not (c : N -> bool) (w : str) : Prop := match w with x :: _ => c (N_of_ascii x) = false | [] => True end.
Definition all_in (c : N -> bool) (w : str) : Prop := Forall (fun x => c (N_of_ascii x) = true) w.

Lemma star_run c k x w n : all_in c x -> starts_not c w -> k (chars w) = Some n ->
  star c k (chars (x ++ w)) = Some (slen x + n).
Proof.
  intros Hx Hw Hk. induction Hx as [|a x Ha _ IH].
  - cbn [app slen List.length]. destruct w as [|y w]; [exact Hk|]. cbn [chars map star]. cbn [starts_not] in Hw.
    rewrite Hw. exact Hk.
  - cbn [app chars map star]. rewrite Ha. fold (chars (x ++ w)). rewrite IH. rewrite slen_cons. f_equal. lia.
Qed.
Lemma find_here r w n : ascii_only w -> match_alts r (chars w) = Some n -> re_find r w = Some (0, n).
Proof.
  intros Ha H. unfold re_find. rewrite decode_ascii by exact Ha. destruct w as [|x w]; cbn [chars map find_from] in *; rewrite H; reflexivity.
Qed.
Lemma find_later r w : forall p, 1 <= p -> forall n, find_from r p (chars w) <> Some (0, n).
Proof.
  induction w as [|x w IH]; intros p Hp n; cbn [chars map find_from].
  - destruct (match_alts r []); [intros H; injection H; lia|discriminate].
  - destruct (match_alts r _); [intros H; injection H; lia|]. fold (chars w). apply IH. lia.
Qed.
Lemma find_not r w : ascii_only w -> match_alts r (chars w) = None -> forall n, re_find r w <> Some (0, n).
Proof.
  intros Ha H n. unfold re_find. rewrite decode_ascii by exact Ha. destruct w as [|x w]; cbn [chars map find_from] in *; rewrite H.
  - discriminate.
  - fold (chars w). apply find_later. lia.
Qed.

Lemma one_ok c r x w n : c (N_of_ascii x) = true -> match_items r (chars w) = Some n ->
  match_items (One c :: r) (chars (x :: w)) = Some (1 + n).
Proof. intros H1 H2. cbn [match_items chars map]. rewrite H1. fold (chars w). now rewrite H2. Qed.
Lemma one_not c r w : starts_not c w -> match_items (One c :: r) (chars w) = None.
Proof. destruct w as [|x w]; cbn; [reflexivity|]. now intros ->. Qed.
Lemma star_end c x w : all_in c x -> starts_not c w -> match_items [Star c] (chars (x ++ w)) = Some (slen x).
Proof. intros H1 H2. cbn [match_items]. rewrite (star_run c _ x w 0); auto. f_equal. lia. Qed.
Lemma star_then c r x w n : all_in c x -> starts_not c w -> match_items r (chars w) = Some n ->
  match_items (Star c :: r) (chars (x ++ w)) = Some (slen x + n).
Proof. intros H1 H2 H3. cbn [match_items]. now apply star_run. Qed.
Lemma alt_one i s n : match_items i s = Some n -> match_alts [i] s = Some n.
Proof. intros H. cbn. now rewrite H. Qed.
Lemma alt_none i s : match_items i s = None -> match_alts [i] s = None.
Proof. intros H. cbn. now rewrite H. Qed.

Lemma all_in_of (c : N -> bool) (Q : ascii -> Prop) x : (forall a, Q a -> c (N_of_ascii a) = true) -> Forall Q x -> all_in c x.
Proof. intros H F. eapply Forall_impl; [|exact F]. auto. Qed.

(* ---------- characters ---------- *)

Lemma blank_space E a : blank_char a -> cspace E (N_of_ascii a) = true.
Proof.
  unfold blank_char, code, cspace. intros H. destruct (N.ltb_spec (N_of_ascii a) 128); [|lia].
  destruct H as [->|H]; [reflexivity|]. apply orb_true_iff. right. apply andb_true_iff. split; apply N.leb_le; lia.
Qed.
Lemma all_blank E b : blank b -> all_in (cspace E) b.
Proof. apply all_in_of. apply blank_space. Qed.
Definition line_space (E : env) (x : N) : bool := cspace E x && negb (x =? 10) && negb (x =? 13).
Lemma all_line E b : blank_line b -> all_in (line_space E) b.
Proof.
  apply all_in_of. intros a (H1 & H2 & H3). unfold line_space. rewrite (blank_space E a H1). unfold code in *.
  destruct (N.eqb_spec (N_of_ascii a) 10); [congruence|]. destruct (N.eqb_spec (N_of_ascii a) 13); [congruence|]. reflexivity.
Qed.
Lemma rng_true a b x : N_of_ascii a <= x <= N_of_ascii b -> rng a b x = true.
Proof. intros H. unfold rng. apply andb_true_iff. split; apply N.leb_le; lia. Qed.
Lemma ch_true a : ch a (N_of_ascii a) = true.
Proof. apply N.eqb_refl. Qed.
Lemma ch_false a b : a <> b -> ch a (N_of_ascii b) = false.
Proof.
  intros H. apply N.eqb_neq. intros He. apply H. rewrite <- (ascii_N_embedding a), <- (ascii_N_embedding b). now rewrite He.
Qed.
Lemma id_first_in x : id_first x -> id_start (N_of_ascii x) = true.
Proof.
  unfold id_first, letter, id_start, code. intros [[H|H]|[->| ->]]; try reflexivity.
  - now rewrite (rng_true "a" "z" _ H).
  - rewrite (rng_true "A" "Z" _ H). now rewrite orb_true_r.
Qed.
Definition id_char (x : N) : bool := id_start x || rng "0" "9" x.
Lemma id_char_in x : id_first x \/ digit_char x -> id_char (N_of_ascii x) = true.
Proof.
  unfold id_char. intros [H|H]; [now rewrite (id_first_in _ H)|]. rewrite (rng_true "0" "9" (N_of_ascii x) H). apply orb_true_r.
Qed.
Lemma digit_small x : digit_char x -> N_of_ascii x < 128.
Proof. unfold digit_char, code. change (N_of_ascii "9") with 57. lia. Qed.
Lemma letter_small x : letter x -> N_of_ascii x < 128.
Proof. unfold letter, code. change (N_of_ascii "z") with 122. change (N_of_ascii "Z") with 90. lia. Qed.
Lemma digit_in E x : digit_char x -> cdigit E (N_of_ascii x) = true.
Proof.
  intros H. unfold cdigit. pose proof (digit_small x H). destruct (N.ltb_spec (N_of_ascii x) 128); [|lia]. now apply rng_true.
Qed.
Lemma attr_char_in E y : letter y \/ digit_char y \/ y = "+"%char \/ y = "_"%char -> attr_char E (N_of_ascii y) = true.
Proof.
  unfold attr_char, cword. intros [H|[H|[->| ->]]]; try reflexivity.
  - pose proof (letter_small y H). destruct (N.ltb_spec (N_of_ascii y) 128); [|lia].
    destruct H as [H|H]; [rewrite (rng_true "a" "z" (N_of_ascii y) H)|rewrite (rng_true "A" "Z" (N_of_ascii y) H)]; rewrite ?orb_true_r; reflexivity.
  - pose proof (digit_small y H). destruct (N.ltb_spec (N_of_ascii y) 128); [|lia]. rewrite (rng_true "0" "9" (N_of_ascii y) H). reflexivity.
Qed.

(* ---------- strings ---------- *)

Lemma literal_scans close v raw r : close <> "\"%char -> literal_text close v raw ->
  scans [close] (lit "\") (raw ++ [close] ++ r) raw v.
Proof.
  intros Hc H. induction H as [|x v t H1 H2 _ IH|x v t _ IH].
  - apply (scan_end [close] (lit "\") r).
  - cbn [app]. apply scan_byte; [| |exact IH].
    + intros [u Hu]. cbn in Hu. congruence.
    + intros _ [u Hu]. cbn in Hu. congruence.
  - cbn [app]. apply (scan_escape [close] (lit "\") x _ t v); [|discriminate|exact IH].
    intros [u Hu]. cbn in Hu. congruence.
Qed.

(* [w] is empty or starts with a visible ASCII character *)
Definition solid (w : str) : Prop := match w with x :: _ => 33 <= N_of_ascii x < 128 | [] => True end.
Lemma solid_space E w : solid w -> starts_not (cspace E) w.
Proof.
  destruct w as [|x w]; [exact (fun H => H)|]. cbn. intros H. unfold cspace. destruct (N.ltb_spec (N_of_ascii x) 128); [|lia].
  apply orb_false_iff. split; [apply N.eqb_neq; lia|]. apply andb_false_iff. right. apply N.leb_gt. lia.
Qed.
Lemma solid_line E w : solid w -> starts_not (line_space E) w.
Proof.
  intros H. apply (solid_space E) in H. destruct w as [|x w]; [exact Logic.I|]. cbn in *. unfold line_space. now rewrite H.
Qed.
Lemma id_first_solid x w : id_first x -> solid (x :: w).
Proof.
  cbn. unfold id_first, letter, code. intros [[H|H]|[->| ->]]; try (cbn; lia).
  - change (N_of_ascii "a") with 97 in H. change (N_of_ascii "z") with 122 in H. lia.
  - change (N_of_ascii "A") with 65 in H. change (N_of_ascii "Z") with 90 in H. lia.
Qed.
Lemma identifier_solid id r : identifier id -> solid (id ++ r).
Proof. intros (x & t & -> & H & _). now apply id_first_solid. Qed.
Lemma identifier_some id : identifier id -> id <> [].
Proof. intros (x & t & -> & _). discriminate. Qed.

(* the first character decides *)
Lemma no_prefix_char x p y w : x <> y -> ~ has_prefix (x :: p) (y :: w).
Proof. intros H [t Ht]. cbn in Ht. congruence. Qed.
Lemma no_prefix_nil x p : ~ has_prefix (x :: p) [].
Proof. intros [t Ht]. discriminate. Qed.

Definition script_known (E : env) : list (str * variable) :=
  [(lit "SwitchMatcher", VMatcher (ScriptSwitchMatcher E)); (lit "ProgramMatcher", VMatcher (ScriptProgramMatcher E))].
Definition fresh (n : str) : Prop := n <> lit "SwitchMatcher" /\ n <> lit "ProgramMatcher".

Ltac own := first [ intros Hown; discriminate Hown
                  | let H := fresh "H" in intros _ ? [H|[H|[]]]; first [discriminate H | injection H as <-; reflexivity] ].


(* ---------- a program that remembers where it started ---------- *)

Lemma pass_app E P c name s pt ms1 ms2 done off st d o st1 w :
  pass E P c name s pt ms1 done off st (AllDone d o st1) -> pass E P c name s pt ms2 d o st1 w ->
  pass E P c name s pt (ms1 ++ ms2) done off st w.
Proof.
  intros H Hw. remember (AllDone d o st1) as y eqn:Hy.
  induction H; inversion Hy; subst; cbn [app]; [exact Hw| |].
  - eapply ps_next; eauto.
  - eapply ps_lookahead; eauto.
Qed.

Section Stored.
  Variables (E : env) (P : parser) (s : sid).
  Hypothesis HE : tame E.
  Hypothesis Hascii : ascii_only (p_src P).
  Hypothesis Hsmall : slen (p_src P) < isize_bound.
  Variable B : list (str * variable).

  Lemma sees_stored var name pats pn m w ts e :
    no_dot var -> var <> pn -> (forall v, ~ In (var, v) B) -> (forall v, ~ In (pn, v) B) -> ts <> [] ->
    own_ok B true name (ProgramN name (StoreM var Pin_ :: pats ++ [PinNOM pn (FFetch (var ++ lit "." ++ lit "range")) m])) ->
    (forall a, walk E P s ((var, VToken a) :: B) pats [] w (WDone ts e e)) ->
    sees E P s B m w (Some (FSkip w)) ->
    sees E P s B (ProgramN name (StoreM var Pin_ :: pats ++ [PinNOM pn (FFetch (var ++ lit "." ++ lit "range")) m])) w
      (Some (FTree (Tr name no_attrs ts e))).
  Proof.
    intros Hdot Hne Hvar Hpn Hts Ho Hw Hm c st Hd Hc Hk Hl.
    set (last := PinNOM pn (FFetch (var ++ lit "." ++ lit "range")) m) in *.
    set (all := StoreM var Pin_ :: pats ++ [last]) in *. set (i := mkPI name None false true).
    change (ProgramN name all) with (MProgram all i) in *.
    set (pt := List.length (st_heap st)). set (st0 := program_start P all i s st).
    assert (Hrs : rs (c_off c) = pos P w) by now rewrite Hc.
    assert (Hsz : heap_size st0 = S pt) by apply program_start_size.
    assert (K0 : known s B st0) by now apply known_start.
    set (c1 := pattern_ctx c name pt (pos P w)).
    assert (Hc1 : c_off c1 = mkR (pos P w) (slen (p_src P))) by (cbn; now rewrite Hc).
    (* the pin *)
    set (stm := sc_set st0 s var (VMatcher (StoreM var Pin_))).
    assert (Hd0 : pins (c_off c1) [] (c_off c1)).
    { destruct (c_off c1) as [x y]. apply (pin_start (mkR x y) [] x). apply of_same. now left. }
    destruct (pin_alone E P (FStr []) "Pin" false (clone_with_name c1 var) s stm [] (c_off c1) (says_text _ _ _) Hd0) as (t & D1 & T).
    cbn [scopes_after st_scopes] in D1.
    assert (Ha : List.length (st_heap stm) = S pt) by (exact Hsz).
    rewrite Ha in D1. set (stp := mkSt (st_heap stm ++ [t]) (st_scopes stm)) in *.
    pose proof (store_token E P Pin_ var c1 s st0 (S pt) stp D1) as D2. cbn zeta in D2.
    set (st1 := sc_set stp s var (VToken (S pt))) in *.
    assert (Hvs : valid_scope st0 s) by apply K0.
    assert (Hvp : valid_scope stp s).
    { assert (Q : valid_scope stm s) by (now apply valid_set). exact Q. }
    assert (K1 : known s ((var, VToken (S pt)) :: B) st1).
    { split; [now apply valid_set|]. intros x v [H|H].
      - injection H as <- <-. now apply get_set_same.
      - assert (var <> x) by (intros ->; now apply (Hvar v)).
        unfold st1. rewrite get_set_other by auto.
        change (sc_get stm s x = Some v). unfold stm. rewrite get_set_other by auto. now apply K0. }
    assert (Hsz1 : heap_size st1 = S (S pt)).
    { change (heap_size st1) with (List.length (st_heap stm ++ [t])). rewrite app_length, Ha. cbn. lia. }
    assert (Ht1 : tok st1 (S pt) = t).
    { change (tok st1 (S pt)) with (nth (S pt) (st_heap stm ++ [t]) dead_token). rewrite app_nth2 by lia. rewrite Ha, Nat.sub_diag. reflexivity. }
    assert (Hpt1 : tok st1 pt = std_token P name (mkR 0 0)).
    { unfold st1, stp. change (tok (mkSt (st_heap stm ++ [t]) (st_scopes stm)) pt = std_token P name (mkR 0 0)).
      unfold tok. cbn [st_heap]. rewrite app_nth1 by lia. exact (program_start_tok P all i s st). }
    destruct T as (T1 & T2 & T3 & T4 & _).
    (* the middle *)
    destruct (walk_pass E P s HE Hsmall ((var, VToken (S pt)) :: B) pats [] w _ (Hw (S pt)) c name pt (S (S pt)) [] st1 Hd) as (y & G1 & G2); auto.
    { now rewrite Hc. } { rewrite Hrs. now apply pos_lt. } { lia. } { apply holds_nil. }
    destruct y as [d off st2|z d off st2|d st2|e0 st2|q|]; try contradiction.
    destruct G2 as (-> & G2 & G3 & G4 & [G5 G6]).
    assert (Kb : known s B st2) by (apply (known_sub s ((var, VToken (S pt)) :: B)); [intros x Hx; now right|exact G4]).
    assert (Htp : tok st2 (S pt) = t) by (rewrite G6 by lia; exact Ht1).
    (* the last pattern *)
    set (c2 := pattern_ctx c name pt (pos P e)).
    assert (Hlt : pos P w < usize_max) by now apply pos_lt.
    pose proof (pin_stored E P m var pn true c2 s st2 (S pt) Hdot Hne) as Hs. rewrite Htp, T4, Hc1 in Hs. cbn [rs re] in Hs.
    specialize (Hs ltac:(lia) ltac:(unfold isize_bound, usize_max in *; lia)).
    assert (Hgv : sc_get st2 s var = Some (VToken (S pt))) by (apply G4; now left).
    specialize (Hs Hgv).
    set (st3 := mkSt (st_heap st2) (scopes_after st2 s true pn (MPin (Some m) (FFetch (var ++ lit "." ++ lit "range")) pn true))) in Hs.
    assert (K3 : known s B st3).
    { apply known_after; [exact Kb|]. intros _ v Hv. now destruct (Hpn v). }
    destruct (Hm (mkCtx (c_debug c2) (c_scope c2) (c_stack c2) (mkR (pos P w) (slen (p_src P))) pn) st3) as (x & st4 & D4 & K4 & O4); auto.
    destruct x as [x|[|]]; cbn in O4; try contradiction. inversion O4 as [| |r0 Hf| | |]; subst r0 x.
    apply (Hs (Done _ _)) in D4. change (Runs E P (MPin (Some m) (FFetch (var ++ lit "." ++ lit "range")) pn true) c2 s st2 (Ok (SSkip (Z.of_N (pos P w) - Z.of_N (pos P w)))) st4) in D4.
    pose proof (frame_looks E P s HE Hsmall _ _ _ _ _ D4 (S (S pt))) as L1.
    pose proof (run_preserved E P s HE _ _ _ _ _ (S (S pt)) D4 ltac:(lia)) as L2.
    assert (Hpass : pass E P c name s pt all [] (pos P w) st0 (AllDone d (pos P e) st4)).
    { unfold all. eapply ps_lookahead; [left; exact D2|now rewrite Ht1|].
      eapply pass_app; [exact G1|]. eapply ps_next; [exact D4| |apply ps_done]. now apply ct_no_skip. }
    assert (Hh : holds P (S pt) d st4 ts e).
    { destruct (holds_same P Hsmall (S (S pt)) d _ _ _ _ L1 G2) as [(Q1 & Q2 & Q3) Q4]. split; [split; [|auto]|exact Q4].
      apply (shows_lower P Hsmall (S (S pt))); [lia|exact Q1]. }
    destruct L2 as [L3 L4].
    assert (Hp4 : tok st4 pt = std_token P name (mkR 0 0)) by (rewrite L4, G6 by lia; exact Hpt1).
    pose proof (holds_closes P Hsmall pt d st4 ts e name ltac:(lia) (left_follows P _ _ Hl G3) Hp4 Hh) as Hcl.
    destruct ts as [|t0 ts]; [congruence|]. destruct Hcl as (st' & C1 & C2 & C3 & C4).
    exists (Ok (SToken pt)), st'. split.
    - assert (G : Does E P (MProgram all i) c s st (Done (Ok (SToken pt)) st')); [|exact G].
      rewrite <- Hrs in Hpass. eapply (program_does E P c i s st all); eauto. apply lt_all. exact C1.
    - split; [now apply (known_scopes s B st4)|]. constructor; [exact C2|exact G3].
  Qed.

  (* leaves *)
  Lemma left_is_ascii w : left_over P w -> ascii_only w.
  Proof. intros [pre H] x Hx. apply Hascii. rewrite H. apply in_or_app. now right. Qed.
  Lemma raw_left m w r : (left_over P w -> sees E P s B m w r) -> sees E P s B m w r.
  Proof. intros H c st Hd Hc Hk Hl. now apply H. Qed.
  Lemma raw_regex r name custom x w : match_alts r (chars (x ++ w)) = Some (slen x) -> x <> [] ->
    own_ok B custom name (MMatches (re_find r) name custom) ->
    sees E P s B (MMatches (re_find r) name custom) (x ++ w) (Some (FTree (Tr name (leaf x x (x ++ w)) [] w))).
  Proof.
    intros H Hx Ho. apply raw_left. intros Hl. apply sees_matches; auto. apply find_here; auto using left_is_ascii.
  Qed.
  Lemma raw_regex_not r name custom w : match_alts r (chars w) = None ->
    own_ok B custom name (MMatches (re_find r) name custom) -> sees E P s B (MMatches (re_find r) name custom) w None.
  Proof.
    intros H Ho. apply raw_left. intros Hl. apply sees_matches_not; auto. apply find_not; auto using left_is_ascii.
  Qed.
  Lemma raw_discard m w n i k r : sees E P s B m w (Some (FTree (Tr n i k r))) -> sees E P s B (MDiscard m) w (Some (FSkip r)).
  Proof.
    intros H. eapply sees_discard; try assumption; [|exact H]. left. exists (Tr n i k r). split; [now left|reflexivity].
  Qed.
  Lemma raw_gone r name custom x w : match_alts r (chars (x ++ w)) = Some (slen x) ->
    own_ok B custom name (MMatches (re_find r) name custom) ->
    sees E P s B (MDiscard (MMatches (re_find r) name custom)) (x ++ w) (Some (FSkip w)).
  Proof.
    intros H Ho. destruct x as [|a x].
    - eapply sees_discard with (p := FSkip w); try assumption; [right; eauto|]. apply raw_left. intros Hl.
      apply sees_matches_empty; auto. apply find_here; auto using left_is_ascii.
    - eapply raw_discard. apply (raw_regex r name custom (a :: x) w); auto. discriminate.
  Qed.
  Lemma raw_lit v r : v <> [] -> own_ok B false "Equals" (Equals_ v) -> sees E P s B (MDiscard (Equals_ v)) (v ++ r) (Some (FSkip r)).
  Proof. intros Hv Ho. eapply raw_discard. apply sees_equals; auto. Qed.
  Lemma raw_string n v raw r : own_ok B true n (ScriptStringN n) -> literal_text "'" v raw ->
    sees E P s B (ScriptStringN n) (lit "'" ++ raw ++ lit "'" ++ r)
      (Some (FTree (Tr n (leaf v raw (lit "'" ++ raw ++ lit "'" ++ r)) [] r))).
  Proof.
    intros Hn Hv. apply sees_sequence; auto; try discriminate.
    apply (literal_scans "'" v raw r); [discriminate|exact Hv].
  Qed.
End Stored.
