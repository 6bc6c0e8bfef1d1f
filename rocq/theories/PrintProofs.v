(* The printed text of tokens (C71). *)
From Verif Require Export SpecPrint Basics.
Open Scope string_scope.
Open Scope list_scope.
Open Scope N_scope.

(* ---------- lines ---------- *)

Lemma lines_some s : exists l ls, lines s = l :: ls.
Proof.
  destruct s as [|c s]; cbn [lines]; [eauto|]. destruct (Ascii.eqb c LF); [eauto|].
  destruct (lines s); eauto.
Qed.
Lemma unlines_lines s : unlines (lines s) = s.
Proof.
  induction s as [|c s IH]; [reflexivity|]. cbn [lines]. destruct (lines_some s) as (l & ls & E). rewrite E in *.
  destruct (Ascii.eqb_spec c LF) as [->|Hn].
  - change (unlines ([] :: l :: ls)) with ([] ++ LF :: unlines (l :: ls)). now rewrite IH.
  - destruct ls; cbn [unlines app] in *; now rewrite IH.
Qed.
Lemma lines_inj s t : lines s = lines t -> s = t.
Proof. intros H. rewrite <- (unlines_lines s), H. apply unlines_lines. Qed.
Lemma lines_app s t : lines (s ++ LF :: t) = lines s ++ lines t.
Proof.
  induction s as [|c s IH]; [reflexivity|]. cbn [app lines]. rewrite IH.
  destruct (Ascii.eqb c LF); [reflexivity|]. destruct (lines_some s) as (l & ls & ->). reflexivity.
Qed.
Lemma lines_one s : one_line s -> lines s = [s].
Proof.
  unfold one_line. induction s as [|c s IH]; intros H; [reflexivity|]. cbn [lines].
  destruct (Ascii.eqb_spec c LF) as [->|Hn]; [exfalso; apply H; now left|].
  rewrite IH; [reflexivity|]. intros Hin. apply H. now right.
Qed.
Lemma lines_front p s : one_line p -> lines (p ++ s) =
  match lines s with l :: ls => (p ++ l) :: ls | [] => [] end.
Proof.
  unfold one_line. induction p as [|c p IH]; intros H; cbn [app].
  - destruct (lines_some s) as (l & ls & ->). reflexivity.
  - cbn [lines]. destruct (Ascii.eqb_spec c LF) as [->|Hn]; [exfalso; apply H; now left|].
    rewrite IH by (intros Hin; apply H; now right). destruct (lines_some s) as (l & ls & ->). reflexivity.
Qed.
(* what is added to the end goes to the last line *)
Lemma lines_back s x l t : lines s = x ++ [l] -> one_line t -> lines (s ++ t) = x ++ [l ++ t].
Proof.
  intros H Ht. revert x l H. induction s as [|c s IH]; intros x l H.
  - cbn in H. destruct x as [|y x]; [|destruct x; discriminate]. injection H as <-. cbn. now apply lines_one.
  - cbn [app lines] in *. destruct (lines_some s) as (m & ms & E). rewrite E in *.
    destruct (Ascii.eqb c LF).
    + destruct x as [|y x]; [discriminate|]. cbn [app] in H. injection H as <- H. rewrite (IH x l H). reflexivity.
    + destruct x as [|y x]; cbn [app] in H.
      * injection H as <- ->. rewrite (IH [] m eq_refl). reflexivity.
      * injection H as <- H. rewrite (IH (m :: x) l); [reflexivity|]. cbn [app]. now rewrite H.
Qed.

Lemma spaces_line n : one_line (spaces n).
Proof. unfold one_line, spaces. intros H. apply repeat_spec in H. discriminate. Qed.
Lemma spaces_add a b : spaces a ++ spaces b = spaces (a + b).
Proof. unfold spaces. symmetry. apply repeat_app. Qed.
Lemma spaces_skip n : skipn 2 (spaces (2 + n)) = spaces n.
Proof. reflexivity. Qed.
Lemma spaces_app a b s : spaces a ++ spaces b ++ s = spaces (a + b) ++ s.
Proof. now rewrite app_assoc, spaces_add. Qed.

Lemma indent_lines_lines s : lines (indent_lines s) =
  match lines s with l :: ls => l :: map (app tab) ls | [] => [] end.
Proof.
  induction s as [|c s IH]; [reflexivity|]. cbn [indent_lines lines].
  destruct (lines_some s) as (l & ls & E). rewrite E in *.
  destruct (Ascii.eqb_spec c LF) as [->|Hn].
  - change (lines (LF :: tab ++ indent_lines s)) with ([] :: lines (tab ++ indent_lines s)).
    rewrite lines_front by apply (spaces_line 2). rewrite IH. reflexivity.
  - cbn [lines]. apply Ascii.eqb_neq in Hn. rewrite Hn, IH. reflexivity.
Qed.
Lemma child_lines s : lines (tab ++ indent_lines s) = map (app tab) (lines s).
Proof.
  rewrite lines_front by apply (spaces_line 2). rewrite indent_lines_lines.
  destruct (lines_some s) as (l & ls & ->). reflexivity.
Qed.

(* moving all lines to the right *)
Definition shift (d : nat) : list str -> list str := map (app (spaces (2 * d))).
Lemma shift_app d x y : shift d (x ++ y) = shift d x ++ shift d y.
Proof. apply map_app. Qed.
Lemma shift_one d l : shift d [l] = [spaces (2 * d) ++ l].
Proof. reflexivity. Qed.
Lemma shift_tab d x : shift d (map (app tab) x) = shift (S d) x.
Proof.
  unfold shift. rewrite map_map. apply map_ext. intros l. change tab with (spaces 2). rewrite spaces_app.
  f_equal. f_equal. lia.
Qed.
Lemma shift_none x : shift 0 x = x.
Proof. unfold shift. cbn. now rewrite map_id. Qed.
Lemma shift_placed d k x : shift d (lines (spaces k ++ x)) = placed (k + 2 * d) (2 * d) x.
Proof.
  rewrite lines_front by apply spaces_line. unfold placed. destruct (lines_some x) as (l & ls & ->).
  unfold shift. cbn [map]. now rewrite spaces_app, (Nat.add_comm k).
Qed.

(* ---------- tabs ---------- *)

Lemma parent_tabs_ancestors f st : forall a s,
  option_map (fun x => x) (parent_tabs f st (tk_parent (tok st a))) = Some s ->
  exists n, ancestors st a n /\ s = spaces (2 * n).
Proof.
  induction f as [|f IH]; intros a s H.
  - destruct (tk_parent (tok st a)) as [p|] eqn:Ep; cbn in H; [discriminate|]. injection H as <-.
    exists 0%nat. split; [now constructor|reflexivity].
  - destruct (tk_parent (tok st a)) as [p|] eqn:Ep; cbn [parent_tabs option_map] in H.
    + destruct (parent_tabs f st (tk_parent (tok st p))) as [s'|] eqn:Et; [|discriminate].
      cbn in H. injection H as <-. destruct (IH p s') as (n & Hn & ->); [now rewrite Et|].
      exists (S n). split; [econstructor; eauto|].
      replace (2 * S n)%nat with (2 + 2 * n)%nat by lia. reflexivity.
    + injection H as <-. exists 0%nat. split; [now constructor|reflexivity].
Qed.
Lemma tab_depth_ancestors f st a s : tab_depth f st (tok st a) = Some s ->
  exists n, ancestors st a n /\ s = spaces (2 + 2 * n).
Proof.
  unfold tab_depth. intros H. destruct (parent_tabs f st (tk_parent (tok st a))) as [s'|] eqn:Et; [|discriminate].
  cbn [option_map] in H. cbv beta in H. injection H as <-.
  destruct (parent_tabs_ancestors f st a s') as (n & Hn & ->); [now rewrite Et|]. exists n. auto.
Qed.
Lemma ancestors_tab_depth st a n : ancestors st a n -> forall f, (n <= f)%nat ->
  tab_depth f st (tok st a) = Some (spaces (2 + 2 * n)).
Proof.
  intros H f Hf. unfold tab_depth.
  enough (Ht : parent_tabs f st (tk_parent (tok st a)) = Some (spaces (2 * n))) by (rewrite Ht; reflexivity).
  revert f Hf. induction H as [a H|a p n Hp Ha IH]; intros f Hf.
  - rewrite H. destruct f; reflexivity.
  - rewrite Hp. destruct f as [|f]; [lia|]. cbn [parent_tabs]. rewrite IH by lia. cbn [option_map].
    replace (2 * S n)%nat with (2 + 2 * n)%nat by lia. reflexivity.
Qed.
Lemma ancestors_det st a n k : ancestors st a n -> ancestors st a k -> n = k.
Proof.
  intros H. revert k. induction H as [a H|a p n Hp Ha IH]; intros k Hk; inversion Hk; subst; try congruence.
  f_equal. apply IH. congruence.
Qed.

Lemma lines_eight x1 x2 x3 x4 x5 x6 x7 x8 :
  lines (x1 ++ LF :: x2 ++ LF :: x3 ++ LF :: x4 ++ LF :: x5 ++ LF :: x6 ++ LF :: x7 ++ LF :: x8)
  = (lines x1 ++ lines x2 ++ lines x3 ++ lines x4 ++ lines x5 ++ lines x6 ++ lines x7) ++ lines x8.
Proof. rewrite !lines_app. now rewrite <- !app_assoc. Qed.

Section Text.
  Variables (attrs : list (str * str) -> str) (st : state).

  (* ---------- from the text to the lines ---------- *)

  Lemma head_lines n a : exists x,
    lines (token_head attrs st (spaces (2 + 2 * n)) (tok st a)) = x ++ [spaces (2 + 2 * n) ++ lit "Children ["] /\
    forall d, shift d x = entry attrs st n d (tok st a).
  Proof.
    unfold entry, pair_text. set (t := tok st a). set (w := (2 + 2 * n)%nat).
    assert (Hh : token_head attrs st (spaces w) t =
      (spaces (2 * n) ++ tk_name t ++ lit "(") ++ LF ::
      (spaces w ++ lit "ValueRange" ++ lit "(" ++ dec (rs (tk_cr t)) ++ lit ", " ++ dec (re (tk_cr t)) ++ lit "),") ++ LF ::
      (spaces w ++ lit "RawRange" ++ lit "(" ++ dec (rs (tk_mr t)) ++ lit ", " ++ dec (re (tk_mr t)) ++ lit "),") ++ LF ::
      (spaces w ++ lit "Value(" ++ get_value t ++ lit "),") ++ LF ::
      (spaces w ++ lit "RawValue(" ++ get_mvalue t ++ lit "),") ++ LF ::
      (spaces w ++ lit "Parent(" ++ parent_name st t ++ lit "),") ++ LF ::
      (spaces w ++ lit "Attributes " ++ attrs (tk_attrs t)) ++ LF ::
      (spaces w ++ lit "Children [")).
    { unfold token_head. unfold w at 1. rewrite spaces_skip. repeat rewrite <- app_assoc. reflexivity. }
    rewrite Hh, lines_eight. eexists. split.
    - f_equal. rewrite lines_front by apply spaces_line. reflexivity.
    - intros d. rewrite !shift_app, !shift_placed.
      replace (2 * n + 2 * d + 2)%nat with (w + 2 * d)%nat by (unfold w; lia). reflexivity.
  Qed.

  Definition kid_text (tabs child : str) : str :=
    indent_lines (LF :: child) ++ [LF] ++ (tabs ++ tab) ++ lit ")," ++ [LF] ++ tabs.
  Lemma kid_lines s w child : lines (s ++ kid_text (spaces w) child) =
    lines s ++ map (app tab) (lines child) ++ [spaces (w + 2) ++ lit "),"; spaces w].
  Proof.
    unfold kid_text. change (indent_lines (LF :: child)) with (LF :: tab ++ indent_lines child).
    change tab with (spaces 2) at 2. rewrite spaces_add.
    assert (Hx : s ++ (LF :: tab ++ indent_lines child) ++ [LF] ++ spaces (w + 2) ++ lit ")," ++ [LF] ++ spaces w
      = s ++ LF :: (tab ++ indent_lines child) ++ LF :: (spaces (w + 2) ++ lit "),") ++ LF :: spaces w).
    { cbn [app]. repeat rewrite <- app_assoc. reflexivity. }
    rewrite Hx, !lines_app, child_lines. do 2 f_equal.
    rewrite (lines_one (spaces w)) by apply spaces_line.
    rewrite lines_front by apply spaces_line. reflexivity.
  Qed.

  Definition add_kid (f : nat) (tabs : str) (o : option str) (k : addr) : option str :=
    match o, show_token f attrs st k with
    | Some s, Some child => Some (s ++ kid_text tabs child)
    | _, _ => None
    end.
  Lemma add_kid_none f tabs kids : fold_left (add_kid f tabs) kids None = None.
  Proof. induction kids as [|k kids IH]; [reflexivity|]. exact IH. Qed.

  Lemma show_step f a : show_token (S f) attrs st a =
    match tab_depth f st (tok st a) with
    | None => None
    | Some tabs => option_map (fun s => s ++ lit "],")
        (fold_left (add_kid f tabs) (tk_kids (tok st a)) (Some (token_head attrs st tabs (tok st a))))
    end.
  Proof. reflexivity. Qed.

  Lemma kids_lines f n d kids :
    (forall k s, show_token f attrs st k = Some s -> printed attrs st (S d) k (shift (S d) (lines s))) ->
    kids <> [] -> forall s s',
    fold_left (add_kid f (spaces (2 + 2 * n))) kids (Some s) = Some s' ->
    exists body, lines (s' ++ lit "],") = lines s ++ body /\
      printed_kids attrs st (2 * n + 2 * d) (S d) kids (shift d body).
  Proof.
    intros Hk. induction kids as [|k kids IH]; intros Hn s s' H; [contradiction|].
    cbn [fold_left] in H. unfold add_kid at 2 in H.
    destruct (show_token f attrs st k) as [child|] eqn:Ec; [|now rewrite add_kid_none in H].
    specialize (Hk k child Ec). rewrite <- shift_tab in Hk.
    set (w := (2 + 2 * n)%nat) in *.
    pose proof (kid_lines s w child) as Hl.
    assert (Hw : forall x, spaces (2 * d) ++ spaces w ++ x = spaces (2 * n + 2 * d + 2) ++ x).
    { intros x. rewrite spaces_app. f_equal. f_equal. unfold w. lia. }
    assert (Hw2 : forall x, spaces (2 * d) ++ spaces (w + 2) ++ x = spaces (2 * n + 2 * d + 4) ++ x).
    { intros x. rewrite spaces_app. f_equal. f_equal. unfold w. lia. }
    destruct kids as [|k' kids].
    - cbn [fold_left] in H. injection H as <-.
      exists (map (app tab) (lines child) ++ [spaces (w + 2) ++ lit "),"; spaces w ++ lit "],"]). split.
      + change [spaces (w + 2) ++ lit "),"; spaces w] with ([spaces (w + 2) ++ lit "),"] ++ [spaces w]) in Hl.
        rewrite !app_assoc in Hl. rewrite (lines_back _ _ _ _ Hl).
        * repeat rewrite <- app_assoc. reflexivity.
        * intros [Hx|[Hx|[]]]; discriminate.
      + rewrite shift_app. unfold shift at 2. cbn [map]. rewrite Hw, Hw2. now constructor.
    - destruct (IH ltac:(discriminate) _ _ H) as (body & Hb & Hp).
      exists (map (app tab) (lines child) ++ [spaces (w + 2) ++ lit "),"; spaces w] ++ body). split.
      + rewrite Hb, Hl. repeat rewrite <- app_assoc. reflexivity.
      + rewrite !shift_app. unfold shift at 2. cbn [map]. rewrite Hw2.
        rewrite spaces_add. replace (2 * d + w)%nat with (2 * n + 2 * d + 2)%nat by (unfold w; lia).
        constructor; [exact Hk|discriminate|exact Hp].
  Qed.

  Lemma show_lines f : forall a d s, show_token f attrs st a = Some s ->
    printed attrs st d a (shift d (lines s)).
  Proof.
    induction f as [|f IH]; intros a d s H; [discriminate|]. rewrite show_step in H.
    destruct (tab_depth f st (tok st a)) as [tabs|] eqn:Et; [|discriminate].
    apply tab_depth_ancestors in Et as (n & Hn & ->).
    destruct (fold_left _ _ _) as [s'|] eqn:Ef; [|discriminate]. cbn [option_map] in H. cbv beta in H. injection H as <-.
    destruct (head_lines n a) as (x & Hx & Hh). set (head := token_head _ _ _ _) in *.
    assert (Hw : forall y, spaces (2 * d) ++ spaces (2 + 2 * n) ++ y = spaces (2 * n + 2 * d + 2) ++ y).
    { intros y. rewrite spaces_app. f_equal. f_equal. lia. }
    destruct (tk_kids (tok st a)) as [|k kids] eqn:Ek.
    - cbn [fold_left] in Ef. injection Ef as <-.
      rewrite (lines_back _ _ _ _ Hx) by (intros [Hy|[Hy|[]]]; discriminate).
      rewrite shift_app, Hh, shift_one, <- app_assoc, Hw. now apply pr_leaf.
    - destruct (kids_lines f n d (k :: kids)) with (s := head) (s' := s') as (body & Hb & Hp);
        [intros k0 s0 H0; now apply IH|discriminate|exact Ef|].
      change (printed attrs st d a (shift d (lines (s' ++ lit "],")))); rewrite Hb, shift_app, Hx, shift_app, Hh, shift_one, Hw, <- app_assoc. apply pr_node; [exact Hn|now rewrite Ek].
  Qed.

  (* ---------- from the lines to the text ---------- *)

  Lemma show_more f : forall a s, show_token f attrs st a = Some s -> forall g, (f <= g)%nat ->
    show_token g attrs st a = Some s.
  Proof.
    induction f as [|f IH]; intros a s H g Hg; [discriminate|]. destruct g as [|g]; [lia|].
    rewrite show_step in *. destruct (tab_depth f st (tok st a)) as [tabs|] eqn:Et; [|discriminate].
    assert (Et2 : tab_depth g st (tok st a) = Some tabs).
    { pose proof Et as Et'. apply tab_depth_ancestors in Et' as (n & Hn & ->).
      clear - Hn Hg Et. revert Et. unfold tab_depth. generalize (spaces (2 + 2 * n)). intros tabs.
      revert g Hg. assert (Hm : forall f g p s, (f <= g)%nat -> parent_tabs f st p = Some s -> parent_tabs g st p = Some s).
      { induction f0 as [|f0 IH]; intros g p s Hg H; destruct p as [p|]; try discriminate; destruct g; try lia; try exact H.
        cbn [parent_tabs] in *. destruct (parent_tabs f0 st _) as [s1|] eqn:E1; [|discriminate].
        rewrite (IH g _ s1); [exact H|lia|exact E1]. }
      intros g Hg H. destruct (parent_tabs f st (tk_parent (tok st a))) as [s1|] eqn:E1; [|discriminate].
      rewrite (Hm f g _ s1); [exact H|lia|exact E1]. }
    rewrite Et2.
    destruct (fold_left _ _ _) as [s'|] eqn:Ef in H; [|discriminate].
    enough (Hf : fold_left (add_kid g tabs) (tk_kids (tok st a)) (Some (token_head attrs st tabs (tok st a))) = Some s')
      by now rewrite Hf.
    clear H Et Et2. revert Ef. generalize (token_head attrs st tabs (tok st a)).
    induction (tk_kids (tok st a)) as [|k kids IHk]; intros s0 Ef; [exact Ef|]. cbn [fold_left] in *.
    unfold add_kid at 2 in Ef. unfold add_kid at 2.
    destruct (show_token f attrs st k) as [child|] eqn:Ec; [|now rewrite add_kid_none in Ef].
    rewrite (IH _ _ Ec) by lia. now apply IHk.
  Qed.

  Scheme printed_mind := Induction for printed Sort Prop
    with printed_kids_mind := Induction for printed_kids Sort Prop.

  Lemma printed_show d a ls : printed attrs st d a ls -> exists f s, show_token f attrs st a = Some s.
  Proof.
    intros H. induction H as [d a n Hn Hk|d a n ls Hn Hk IH|col d k ls Hp IH|col d k kids ls more Hp IH Hne Hk IHk]
      using printed_mind with
      (P0 := fun col d kids ls _ => exists f, forall g, (f <= g)%nat -> forall tabs s,
                exists s', fold_left (add_kid g tabs) kids (Some s) = Some s').
    - exists (S n). rewrite show_step, Hk. rewrite (ancestors_tab_depth _ _ _ Hn) by lia. cbn. eauto.
    - destruct IH as [f Hf]. exists (S (n + f)%nat). rewrite show_step.
      rewrite (ancestors_tab_depth _ _ _ Hn) by lia.
      destruct (Hf (n + f)%nat ltac:(lia) (spaces (2 + 2 * n)) (token_head attrs st (spaces (2 + 2 * n)) (tok st a))) as [s' Hs'].
      rewrite Hs'. cbn. eauto.
    - destruct IH as (f & s & Hs). exists f. intros g Hg tabs s0. cbn [fold_left]. unfold add_kid.
      rewrite (show_more _ _ _ Hs) by lia. eauto.
    - destruct IH as (f & s & Hs), IHk as (f2 & Hf2). exists (f + f2)%nat. intros g Hg tabs s0. cbn [fold_left].
      unfold add_kid at 2. rewrite (show_more _ _ _ Hs) by lia. apply Hf2. lia.
  Qed.

  Lemma printed_det d a l1 : printed attrs st d a l1 -> forall l2, printed attrs st d a l2 -> l1 = l2.
  Proof.
    intros H. induction H as [d a n Hn Hk|d a n ls Hn Hk IH|col d k ls Hp IH|col d k kids ls more Hp IH Hne Hk IHk]
      using printed_mind with
      (P0 := fun col d kids l1 _ => forall l2, printed_kids attrs st col d kids l2 -> l1 = l2); intros l2 H2.
    - inversion H2 as [d' a' n' Hn' Hk'|d' a' n' ls' Hn' Hk']; subst.
      + now rewrite (ancestors_det _ _ _ _ Hn Hn').
      + rewrite Hk in Hk'. inversion Hk'.
    - inversion H2 as [d' a' n' Hn' Hk'|d' a' n' ls' Hn' Hk']; subst.
      + rewrite Hk' in Hk. inversion Hk.
      + rewrite (ancestors_det _ _ _ _ Hn Hn') in *. now rewrite (IH _ Hk').
    - inversion H2 as [c' d' k' ls' Hp'|c' d' k' kids' ls' more' Hp' Hne' Hk']; subst; [|contradiction].
      now rewrite (IH _ Hp').
    - inversion H2 as [c' d' k' ls' Hp'|c' d' k' kids' ls' more' Hp' Hne' Hk']; subst; [contradiction|].
      now rewrite (IH _ Hp'), (IHk _ Hk').
  Qed.

  Lemma prints_lines a s : Prints attrs st a s <-> printed attrs st 0 a (lines s).
  Proof.
    split.
    - intros [f H]. apply show_lines with (d := 0%nat) in H. now rewrite shift_none in H.
    - intros H. destruct (printed_show _ _ _ H) as (f & s' & Hs). exists f.
      pose proof (show_lines _ _ 0 _ Hs) as H'. rewrite shift_none in H'.
      rewrite Hs. f_equal. apply lines_inj. now apply (printed_det _ _ _ H').
  Qed.

  (* ---------- printing comes to an end on trees ---------- *)

  Lemma kids_printed col d kids : kids <> [] -> (forall k, In k kids -> exists ls, printed attrs st d k ls) ->
    exists ls, printed_kids attrs st col d kids ls.
  Proof.
    induction kids as [|k kids IH]; intros Hne Hk; [contradiction|].
    destruct (Hk k (or_introl eq_refl)) as [ls Hls].
    destruct kids as [|k' kids]; [eexists; econstructor; exact Hls|].
    destruct IH as [more Hm]; [discriminate|intros x Hx; apply Hk; now right|].
    eexists. apply pk_more; [exact Hls|discriminate|exact Hm].
  Qed.
  Lemma tree_printed roots l : preorder st roots l -> (forall x, In x l -> exists n, ancestors st x n) ->
    forall a, In a roots -> forall d, exists ls, printed attrs st d a ls.
  Proof.
    induction 1 as [|a roots l1 l2 H1 IH1 H2 IH2]; intros Hn b Hb d; [contradiction|].
    destruct Hb as [<-|Hb].
    - destruct (Hn a (or_introl eq_refl)) as [n Ha].
      destruct (tk_kids (tok st a)) as [|k kids] eqn:Ek.
      + eexists. apply pr_leaf; eauto.
      + destruct (kids_printed (2 * n + 2 * d) (S d) (tk_kids (tok st a))) as [ls Hls].
        * rewrite Ek. discriminate.
        * rewrite Ek. intros x Hx. apply IH1; [|exact Hx]. intros y Hy. apply Hn. right. apply in_or_app. now left.
        * eexists. apply pr_node; eauto.
    - apply IH2; [|exact Hb]. intros y Hy. apply Hn. right. apply in_or_app. now right.
  Qed.

  (* ---------- indentation ---------- *)

  Lemma depth_ancestors root n0 : ancestors st root n0 -> kin_known st root ->
    forall d a, at_depth st root d a -> ancestors st a (n0 + d).
  Proof.
    intros Hr Hk d a H. induction H as [|d a k Ha IH Hin].
    - now rewrite Nat.add_0_r.
    - rewrite Nat.add_succ_r. econstructor; [|exact IH]. eapply Hk; eauto.
  Qed.

  Lemma kids_block col d kids ls : printed_kids attrs st col d kids ls -> forall k, In k kids ->
    exists before lk after, printed attrs st d k lk /\ ls = before ++ lk ++ after.
  Proof.
    induction 1 as [col d k ls Hp|col d k kids ls more Hp Hne Hk IH]; intros x Hx.
    - destruct Hx as [<-|[]]. exists [], ls. eexists. split; [exact Hp|reflexivity].
    - destruct Hx as [<-|Hx].
      + exists [], ls. eexists. split; [exact Hp|]. reflexivity.
      + destruct (IH x Hx) as (before & lk & after & Hl & ->).
        exists (ls ++ [spaces (col + 4) ++ lit "),"; spaces (col + 2)] ++ before), lk, after.
        split; [exact Hl|]. now rewrite <- !app_assoc.
  Qed.
  Lemma depth_block root d a : at_depth st root d a -> forall d0 ls, printed attrs st d0 root ls ->
    exists before la after, printed attrs st (d0 + d) a la /\ ls = before ++ la ++ after.
  Proof.
    induction 1 as [|d a k Ha IH Hin]; intros d0 ls Hls.
    - exists [], ls, []. rewrite Nat.add_0_r, app_nil_r. auto.
    - destruct (IH d0 ls Hls) as (before & la & after & Hla & ->).
      inversion Hla as [d' a' n Hn Hk|d' a' n ls' Hn Hk]; subst.
      + rewrite Hk in Hin. contradiction.
      + destruct (kids_block _ _ _ _ Hk k Hin) as (b & lk & c & Hlk & ->).
        rewrite Nat.add_succ_r. match goal with |- context [_ ++ (?e ++ ?x ++ b ++ lk ++ c) ++ after] =>
          exists (before ++ e ++ x ++ b), lk, (c ++ after) end.
        split; [exact Hlk|]. now rewrite <- !app_assoc.
  Qed.
  Lemma block_header d a n ls : printed attrs st d a ls -> ancestors st a n -> one_line (tk_name (tok st a)) ->
    exists more, ls = (spaces (2 * n + 2 * d) ++ tk_name (tok st a) ++ lit "(") :: more.
  Proof.
    intros Hp Hn Ho.
    assert (Hl : placed (2 * n + 2 * d) (2 * d) (tk_name (tok st a) ++ lit "(")
      = [spaces (2 * n + 2 * d) ++ tk_name (tok st a) ++ lit "("]).
    { unfold placed. rewrite lines_one; [reflexivity|]. unfold one_line in *. intros Hx.
      apply in_app_or in Hx as [Hx|[Hx|[]]]; [contradiction|discriminate]. }
    inversion Hp as [d' a' n' Hn' Hk|d' a' n' ls' Hn' Hk]; subst; rewrite (ancestors_det _ _ _ _ Hn Hn') in *;
      unfold entry; rewrite Hl; eexists; reflexivity.
  Qed.

  Lemma header_line root d a text : Prints attrs st root text -> tk_parent (tok st root) = None ->
    kin_known st root -> at_depth st root d a -> one_line (tk_name (tok st a)) ->
    exists before block after,
      lines text = before ++ ((spaces (4 * d) ++ tk_name (tok st a) ++ lit "(") :: block) ++ after.
  Proof.
    intros Ht Hr Hk Ha Ho. apply prints_lines in Ht.
    destruct (depth_block _ _ _ Ha _ _ Ht) as (before & la & after & Hla & ->).
    pose proof (depth_ancestors root 0 (an_none _ _ Hr) Hk _ _ Ha) as Hn. cbn [Nat.add] in *.
    destruct (block_header _ _ _ _ Hla Hn Ho) as [more ->].
    exists before, more, after. replace (2 * d + 2 * d)%nat with (4 * d)%nat by lia. reflexivity.
  Qed.
End Text.

Lemma circle_never_prints attrs st a text : tk_parent (tok st a) = Some a -> ~ Prints attrs st a text.
Proof.
  intros Hp H. apply prints_lines in H.
  assert (Hn : forall n, ~ ancestors st a n).
  { induction n as [|n IH]; intros Hn; inversion Hn; subst; congruence. }
  inversion H; subst; eapply Hn; eauto.
Qed.
