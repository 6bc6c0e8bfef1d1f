(* The matchers of patterns do with a text what their patterns say. *)
From Verif Require Import SeesProofs ScriptBuild Spec SpecScript SpecSyntax CombProofs ScopeProofs SpecMatch.
Open Scope string_scope.
Open Scope list_scope.
Open Scope N_scope.
Local Transparent slen.


Lemma last_any {A} (x : A) l d d' : last (x :: l) d = last (x :: l) d'.
Proof. revert x. induction l as [|y l IH]; intros x; [reflexivity|exact (IH y)]. Qed.
Lemma last_step {A} (x : A) l d : last (x :: l) d = last l x.
Proof. destruct l as [|y l]; [reflexivity|]. exact (last_any y l d x). Qed.

Section Match.
  Variables (E : env) (P : parser).
  Hypothesis HE : tame E.
  Hypothesis Hascii : ascii_only (p_src P).
  Hypothesis Hsmall : slen (p_src P) < isize_bound.
  Notation source := (p_src P).
  Notation pos := (pos P).
  Notation left_over := (left_over P).

  Lemma start_pos w : start_of source w = pos w.
  Proof. reflexivity. Qed.

  (* ---------- texts ---------- *)

  Lemma between_window lo hi : lo <= hi -> hi <= slen source -> Spec.window source lo hi (between source lo hi).
  Proof.
    intros H1 H2. unfold between. exists (firstn (N.to_nat lo) source), (skipn (N.to_nat (hi - lo)) (skipn (N.to_nat lo) source)).
    split; [now rewrite !firstn_skipn|]. unfold slen in *.
    rewrite app_length, !firstn_length, skipn_length. split; lia.
  Qed.
  Lemma text_between r : rs r <= re r -> re r <= slen source -> range_text P r = between source (rs r) (re r).
  Proof. intros H1 H2. apply range_text_ascii; [exact Hascii|]. now apply between_window. Qed.

  (* ---------- trees ---------- *)

  (* the token [a] is [n]; its tree is in the heap from [lo] to [hi] *)
  Inductive rnd (st : state) : nat -> nat -> option addr -> addr -> node -> Prop :=
  | rnd_node lo hi top a name mr cr raw attrs kids :
      (lo <= a < hi)%nat -> tk_kind (tok st a) = KStandard -> tk_flags (tok st a) = 0 ->
      tk_parent (tok st a) = top -> tk_value (tok st a) = None ->
      tk_name (tok st a) = name -> tk_mr (tok st a) = mr -> tk_cr (tok st a) = cr -> tk_cvalue (tok st a) = raw ->
      tk_mvalue (tok st a) = between source (rs mr) (re mr) ->
      (forall x, get_attr x (tok st a) = first_of x attrs) ->
      rnd_all st (S a) hi (Some a) (tk_kids (tok st a)) kids ->
      rnd st lo hi top a (Node name mr cr raw attrs kids)
  with rnd_all (st : state) : nat -> nat -> option addr -> list addr -> list node -> Prop :=
  | rna_nil lo hi top : rnd_all st lo hi top [] []
  | rna_cons lo mid hi top a l n ns : (lo <= mid <= hi)%nat -> rnd st lo mid top a n -> rnd_all st mid hi top l ns ->
      rnd_all st lo hi top (a :: l) (n :: ns).
  Scheme rnd_ind2 := Minimality for rnd Sort Prop
    with rnd_all_ind2 := Minimality for rnd_all Sort Prop.
  Combined Scheme rnd_mind from rnd_ind2, rnd_all_ind2.

  Lemma rnd_same st st' :
    (forall lo hi top a n, rnd st lo hi top a n -> (forall x, (lo <= x < hi)%nat -> tok st' x = tok st x) -> rnd st' lo hi top a n) /\
    (forall lo hi top l ns, rnd_all st lo hi top l ns -> (forall x, (lo <= x < hi)%nat -> tok st' x = tok st x) -> rnd_all st' lo hi top l ns).
  Proof.
    apply rnd_mind.
    - intros lo hi top a name mr cr raw attrs kids H1 H2 H3 H4 H5 H6 H7 H8 H9 H10 H11 _ IH H.
      constructor; rewrite ?(H a H1); auto. apply IH. intros x Hx. apply H. lia.
    - constructor.
    - intros lo mid hi top a l n ns Hm _ IH1 _ IH2 H. apply (rna_cons st' lo mid hi); [exact Hm| |].
      + apply IH1. intros x Hx. apply H. lia.
      + apply IH2. intros x Hx. apply H. lia.
  Qed.
  Lemma rnd_wide st :
    (forall lo hi top a n, rnd st lo hi top a n -> forall lo' hi', (lo' <= lo)%nat -> (hi <= hi')%nat -> rnd st lo' hi' top a n) /\
    (forall lo hi top l ns, rnd_all st lo hi top l ns -> forall lo' hi', (lo' <= lo)%nat -> (hi <= hi')%nat -> rnd_all st lo' hi' top l ns).
  Proof.
    apply rnd_mind.
    - intros lo hi top a name mr cr raw attrs kids H1 H2 H3 H4 H5 H6 H7 H8 H9 H10 H11 _ IH lo' hi' Hl Hh.
      constructor; [lia|auto ..|]. apply IH; lia.
    - constructor.
    - intros lo mid hi top a l n ns Hm _ IH1 _ IH2 lo' hi' Hl Hh. apply (rna_cons st lo' mid hi'); [lia| |]; [apply IH1|apply IH2]; lia.
  Qed.
  Lemma rnd_all_app st lo mid hi top l ns l' ns' : (lo <= mid <= hi)%nat -> rnd_all st lo mid top l ns -> rnd_all st mid hi top l' ns' ->
    rnd_all st lo hi top (l ++ l') (ns ++ ns').
  Proof.
    intros Hm H. revert Hm. induction H as [lo mid top|lo m1 mid top a l n ns Hm1 Ha Hl IH]; intros Hm H'; cbn [app].
    - apply (proj2 (rnd_wide st) mid hi); [exact H'|lia|lia].
    - apply (rna_cons st lo m1 hi); [lia|exact Ha|]. apply IH; [lia|exact H'].
  Qed.
  Lemma rnd_all_some st lo hi top l n ns : rnd_all st lo hi top l (n :: ns) -> l <> [].
  Proof. inversion 1; discriminate. Qed.
  Lemma rnd_all_none st lo hi top l : rnd_all st lo hi top l [] -> l = [].
  Proof. inversion 1; reflexivity. Qed.
  Lemma rnd_clean st :
    (forall lo hi top a n, rnd st lo hi top a n -> errors_below st a []) /\
    (forall lo hi top l ns, rnd_all st lo hi top l ns -> exists all, preorder st l all /\ [] = filter (fun x => is_error (tok st x)) all).
  Proof.
    apply rnd_mind.
    - intros lo hi top a name mr cr raw attrs kids H1 H2 H3 H4 H5 H6 H7 H8 H9 H10 H11 _ (all & IH1 & IH2).
      exists (a :: all). split; [now apply preorder_one|]. cbn [filter]. unfold is_error at 1. rewrite H3. exact IH2.
    - exists []. split; [constructor|reflexivity].
    - intros lo mid hi top a l t ts Hm Ha (all & H1 & H2) Hl (all' & H3 & H4).
      inversion H1 as [|a0 roots l1 l2 Hk Hn]; subst. inversion Hn; subst. rewrite app_nil_r in *.
      exists (a :: l1 ++ all'). split; [now constructor|].
      cbn [filter] in *. rewrite filter_app. destruct (is_error (tok st a)); [discriminate|]. now rewrite <- H2, <- H4.
  Qed.
  Lemma rnd_renders st :
    (forall lo hi top a n, rnd st lo hi top a n -> (hi <= heap_size st)%nat -> renders source st top a n) /\
    (forall lo hi top l ns, rnd_all st lo hi top l ns -> (hi <= heap_size st)%nat -> renders_all source st top l ns).
  Proof.
    apply rnd_mind.
    - intros lo hi top a name mr cr raw attrs kids H1 H2 H3 H4 H5 H6 H7 H8 H9 H10 H11 _ IH Hh.
      constructor; [lia|assumption ..| | | |assumption|now apply IH].
      + unfold get_cvalue. now rewrite H2.
      + unfold get_mvalue. now rewrite H2.
      + unfold get_value, n_value, n_attrs, n_raw. rewrite H11, H5. unfold get_cvalue. now rewrite H2, H9.
    - constructor.
    - intros lo mid hi top a l n ns Hm _ IH1 _ IH2 Hh. constructor; [apply IH1; lia|now apply IH2].
  Qed.

  (* ---------- ranges ---------- *)

  Definition n_mr (n : node) : range := let (_, mr, _, _, _, _) := n in mr.
  Definition n_kids (n : node) : list node := let (_, _, _, _, _, kids) := n in kids.
  Definition sits (lo hi : N) (n : node) : Prop :=
    lo <= rs (n_mr n) /\ rs (n_mr n) <= rs (n_cr n) /\ rs (n_cr n) <= re (n_cr n) /\ re (n_cr n) <= re (n_mr n) /\ re (n_mr n) <= hi.
  Inductive ordered : N -> N -> list node -> Prop :=
  | or_nil lo hi : lo <= hi -> ordered lo hi []
  | or_cons lo mid hi n ns : sits lo mid n -> ordered mid hi ns -> ordered lo hi (n :: ns).
  Lemma ordered_le lo hi l : ordered lo hi l -> lo <= hi.
  Proof. induction 1 as [lo hi H|lo mid hi n ns H _ IH]; [exact H|]. unfold sits in H. lia. Qed.
  Lemma ordered_snoc lo mid hi l n : ordered lo mid l -> sits mid hi n -> ordered lo hi (l ++ [n]).
  Proof.
    induction 1 as [lo mid H|lo m1 mid x ns Hs _ IH]; intros Hn; cbn [app].
    - apply (or_cons lo hi hi); [unfold sits in *; lia|]. constructor. lia.
    - apply (or_cons lo m1 hi); auto.
  Qed.
  Lemma ordered_up lo hi hi' l : ordered lo hi l -> hi <= hi' -> ordered lo hi' l.
  Proof.
    induction 1 as [lo hi H|lo mid hi n ns H _ IH]; intros Hh; [constructor; lia|]. apply (or_cons lo mid hi'); auto.
  Qed.
  Lemma ordered_hull lo hi k l : ordered lo hi (k :: l) -> hi < usize_max ->
    hull (map n_cr (k :: l)) = mkR (rs (n_cr k)) (re (n_cr (last l k))) /\
    lo <= rs (n_cr k) /\ rs (n_cr k) <= re (n_cr (last l k)) /\ re (n_cr (last l k)) <= hi.
  Proof.
    revert lo k. induction l as [|k' l IH]; intros lo k H Hh.
    - inversion H as [|lo0 mid hi0 n ns Hs Ho]; subst. apply ordered_le in Ho. unfold sits in Hs.
      cbn [map last]. unfold hull. cbn [lowest highest fold_right]. destruct (n_cr k) as [a b]. cbn [rs re] in *.
      split; [f_equal; lia|lia].
    - inversion H as [|lo0 mid hi0 n ns Hs Ho]; subst. destruct (IH mid k' Ho Hh) as (I1 & I2 & I3 & I4).
      assert (L : last (k' :: l) k = last l k') by apply last_step.
      rewrite L. pose proof (f_equal rs I1 : lowest (map n_cr (k' :: l)) = rs (n_cr k')) as J1.
      pose proof (f_equal re I1 : highest (map n_cr (k' :: l)) = re (n_cr (last l k'))) as J2. unfold sits in Hs.
      split; [|lia]. unfold hull.
      change (lowest (map n_cr (k :: k' :: l))) with (N.min (rs (n_cr k)) (lowest (map n_cr (k' :: l)))).
      change (highest (map n_cr (k :: k' :: l))) with (N.max (re (n_cr k)) (highest (map n_cr (k' :: l)))).
      rewrite J1, J2. f_equal; lia.
  Qed.
  Lemma ordered_mr lo hi l : ordered lo hi l -> forall r, In r (map n_mr l) -> lo <= rs r /\ re r <= hi.
  Proof.
    induction 1 as [lo hi H|lo mid hi n ns H Ho IH]; intros r Hin; [contradiction|].
    pose proof (ordered_le _ _ _ Ho). unfold sits in H. destruct Hin as [<-|Hin]; [lia|]. apply IH in Hin. lia.
  Qed.

  (* ---------- results ---------- *)

  Variable V : sid -> Prop.
  Notation entry_in := (within V).
  Notation fits := (kept V).

  Lemma fits_scopes D st st' : st_scopes st' = st_scopes st -> fits D st -> fits D st'.
  Proof. intros H (H1 & H2 & H3). unfold kept, valid_scope, sc_get, stack_of in *. rewrite H. auto. Qed.
  Lemma fits_put D st s x e : V s -> entry_in e -> fits D st -> fits (put D s x e) (sc_set st s x (VMatcher (entry_matcher e))).
  Proof.
    intros Hs He (H1 & H2 & H3). split; [|split].
    - intros s' Hs'. apply valid_set. auto.
    - intros s' y Hs'. unfold put. destruct (Nat.eqb_spec s s') as [<-|Hne]; cbn [andb].
      + destruct (str_eqb x y) eqn:Exy.
        * apply str_eqb_eq in Exy as <-. rewrite get_set_same by auto. reflexivity.
        * rewrite get_set_other; [now apply H2|]. right. intros ->. now rewrite str_eqb_refl in Exy.
      + rewrite get_set_other by auto. now apply H2.
    - intros s' y e' Hs' Hp. unfold put in Hp. destruct (Nat.eqb s s' && str_eqb x y); [now injection Hp as <-|eauto].
  Qed.
  Lemma fits_after D st h s custom name m e : V s -> entry_in e -> entry_matcher e = m -> fits D st ->
    fits (if custom : bool then put D s name e else D) (mkSt h (scopes_after st s custom name m)).
  Proof.
    intros Hs He Hm Hf. unfold scopes_after. destruct custom.
    - eapply fits_scopes; [|apply (fits_put D st s name e Hs He Hf)]. subst m. reflexivity.
    - eapply fits_scopes; [|exact Hf]. reflexivity.
  Qed.

  (* [w] was started at, [n] is what came out, [r] is what is left *)
  Definition proper (w : str) (n : node) (r : str) : Prop :=
    follows w r /\ slen r < slen w /\ n_mr n = mkR (pos w) (pos r) /\ sits (pos w) (pos r) n /\ ordered (pos w) (pos r) (n_kids n).
  Notation unknown_error id := (Err (unknown_failure id)).
  Inductive yields (h : nat) (st : state) (w : str) : reading -> mres -> Prop :=
  | yl_took a n r : rnd st h (heap_size st) None a n -> proper w n r -> yields h st w (Took n r) (Ok (SToken a))
  | yl_passed r : follows w r -> yields h st w (Passed r) (Ok (SSkip (Z.of_N (pos r) - Z.of_N (pos w))))
  | yl_missed : yields h st w Missed (Err FFail)
  | yl_unknown id : yields h st w (Unknown id) (unknown_error id).

  Definition gets (D : book) (s : sid) (m : matcher) (w : str) (x : reading) (D' : book) : Prop :=
    forall c st, c_debug c = 0 -> c_off c = mkR (pos w) (slen source) -> fits D st -> left_over w -> V s ->
    exists y st', Runs E P m c s st y st' /\ fits D' st' /\ yields (heap_size st) st' w x y.

  Lemma runs_size m c s st r st' : Runs E P m c s st r st' -> (heap_size st <= heap_size st')%nat.
  Proof. intros D. apply (runs_frame E P _ _ _ _ _ _ HE) in D. destruct D as [[D _] _]. exact D. Qed.
  Lemma runs_same m c s st r st' : Runs E P m c s st r st' -> forall x, (x < heap_size st)%nat -> tok st' x = tok st x.
  Proof. intros D. apply (runs_frame E P _ _ _ _ _ _ HE) in D. destruct D as [[_ D] _]. exact D. Qed.

  Lemma yields_lower h h' st w x y : (h' <= h)%nat -> yields h st w x y -> yields h' st w x y.
  Proof. intros Hh H. destruct H; constructor; auto. eapply rnd_wide; eauto. Qed.
  Lemma pos_add w x r : left_over w -> w = x ++ r -> pos r = pos w + slen x.
  Proof. intros Hl ->. apply (left_len P Hsmall) in Hl. unfold SeesProofs.pos. rewrite slen_app in *. lia. Qed.
  Lemma passed_here h st w : yields h st w (Passed w) (Ok (SSkip 0)).
  Proof. replace 0%Z with (Z.of_N (pos w) - Z.of_N (pos w))%Z by lia. constructor. apply follows_refl. Qed.
  Lemma passed_zero w r : left_over w -> follows w r -> (Z.of_N (pos r) - Z.of_N (pos w))%Z = 0%Z -> r = w.
  Proof.
    intros Hl [x ->] H. apply (left_len P Hsmall) in Hl. unfold SeesProofs.pos in H. rewrite slen_app in *.
    assert (slen x = 0) by lia. destruct x; [reflexivity|]. exfalso. unfold slen in *. cbn in *. lia.
  Qed.

  (* ---------- leaves ---------- *)

  Lemma leaf_renders st t sc name w b raw a r attrs :
    left_over w -> w = b ++ raw ++ a ++ r ->
    tk_kind t = KStandard -> tk_flags t = 0 -> tk_parent t = None -> tk_value t = None -> tk_name t = name ->
    tk_mr t = mkR (pos w) (pos w + slen (b ++ raw ++ a)) ->
    tk_cr t = mkR (pos w + slen b) (pos w + slen b + slen raw) -> tk_cvalue t = raw -> tk_mvalue t = b ++ raw ++ a ->
    tk_attrs t = attrs -> tk_kids t = [] -> b ++ raw ++ a <> [] ->
    yields (heap_size st) (mkSt (st_heap st ++ [t]) sc) w (Took (leaf_node source name w b raw a attrs) r)
      (Ok (SToken (List.length (st_heap st)))).
  Proof.
    intros Hl Hw T1 T2 T3 T4 T5 T6 T7 T8 T9 T10 T11 Hne.
    assert (Ht : tok (mkSt (st_heap st ++ [t]) sc) (List.length (st_heap st)) = t).
    { unfold tok. cbn. rewrite app_nth2 by lia. now rewrite Nat.sub_diag. }
    assert (Hp : pos r = pos w + slen (b ++ raw ++ a)).
    { apply pos_add; [exact Hl|]. now rewrite <- !app_assoc. }
    constructor.
    - unfold leaf_node. constructor; rewrite ?Ht; auto.
      + unfold heap_size. cbn. rewrite app_length. cbn. lia.
      + rewrite T9. cbn [rs re]. destruct Hl as [pre Hl]. symmetry. unfold between.
        change (start_of source w) with (pos w).
        assert (Hpre : pos w = slen pre) by (unfold SeesProofs.pos; rewrite Hl, slen_app; lia).
        rewrite Hpre. rewrite Hl, Hw. unfold slen.
        replace (N.to_nat (N.of_nat (List.length pre) + N.of_nat (List.length (b ++ raw ++ a)) - N.of_nat (List.length pre)))
          with (List.length (b ++ raw ++ a)) by lia.
        rewrite Nnat.Nat2N.id. rewrite skipn_app, skipn_all, Nat.sub_diag. cbn [skipn app].
        replace (b ++ raw ++ a ++ r) with ((b ++ raw ++ a) ++ r) by now rewrite <- !app_assoc.
        rewrite firstn_app, firstn_all, Nat.sub_diag. cbn [firstn]. now rewrite app_nil_r.
      + intros x. unfold get_attr. rewrite T10. clear. induction attrs as [|[y v] l IH]; [reflexivity|].
        cbn [assoc_get first_of]. destruct (str_eqb y x) eqn:E1, (str_eqb x y) eqn:E2; auto.
        * apply str_eqb_eq in E1 as ->. now rewrite str_eqb_refl in E2.
        * apply str_eqb_eq in E2 as ->. now rewrite str_eqb_refl in E1.
      + rewrite T11. constructor.
    - unfold proper, leaf_node, sits. cbn [n_mr n_cr rs re]. change (start_of source w) with (pos w).
      apply slen_pos in Hne. rewrite !slen_app in *.
      split; [exists (b ++ raw ++ a); now rewrite <- !app_assoc|]. split; [rewrite Hw, !slen_app; lia|].
      split; [f_equal; lia|]. split; [lia|]. constructor. lia.
  Qed.

  Definition makes_known (name : str) (k : core pat) : bool :=
    match k with
    | KText _ => own_name "Equals" name
    | KSequence _ _ _ => own_name "Sequence" name
    | KRegex _ _ _ => own_name "Matches" name
    | _ => is_given name
    end.
  Lemma custom_own name d : negb (str_eqb (given name d) d) = own_name d name.
  Proof. unfold own_name. destruct name; cbn [given is_given andb]; [now rewrite str_eqb_refl|reflexivity]. Qed.
  Lemma own_given name d : own_name d name = true -> given name d = name.
  Proof. destruct name; [discriminate|reflexivity]. Qed.
  Lemma is_given_given name d : is_given name = true -> given name d = name.
  Proof. destruct name; [discriminate|reflexivity]. Qed.
  Lemma fits_noted D st h s name k custom nm : V s -> fits D st -> custom = makes_known name k -> (custom = true -> nm = name) ->
    fits (noted D s name k) (mkSt h (scopes_after st s custom nm (core_matcher meaning name k))).
  Proof.
    intros Hs Hf Hc Hn. change (noted D s name k) with (if makes_known name k then put D s name (Own name Unsigned Unsigned k [] Once) else D).
    rewrite <- Hc. destruct custom; [|now apply (fits_after D st h s false nm _ (Own name Unsigned Unsigned k [] Once))].
    rewrite (Hn eq_refl). now apply (fits_after D st h s true name).
  Qed.

  Definition obtains (D : book) (s : sid) (m : matcher) (w : str) (x : reading) (D' : book) : Prop :=
    m_consuming m = true /\ gets D s m w x D'.

  Lemma text_found D s name v r : v <> [] ->
    obtains D s (core_matcher meaning name (KText v)) (v ++ r)
      (Took (leaf_node source (given name "Equals") (v ++ r) [] v [] []) r) (noted D s name (KText v)).
  Proof.
    intros Hv. split; [reflexivity|]. intros c st Hd Hc Hf Hl Hs.
    pose proof (left_window P Hsmall _ Hl) as W. pose proof (left_sliceable P Hascii Hsmall _ Hl) as Sl.
    rewrite <- Hc in Sl.
    replace (pos (v ++ r)) with (rs (c_off c)) in W by now rewrite Hc.
    replace (slen source) with (re (c_off c)) in W by now rewrite Hc.
    destruct (equals_found E P v (given name "Equals") (negb (str_eqb (given name "Equals") "Equals")) c s st r Hd Sl Hv W)
      as (t & D1 & (T1 & T2 & T3 & T4 & T5 & T6 & T7 & T8 & T9) & D3).
    destruct (D3 Hascii) as (D4 & D5). rewrite Hc in T3, T4. cbn [rs] in T3, T4.
    eexists _, _. split; [exact D1|]. split.
    - apply (fits_noted D st _ s name (KText v)); [assumption|assumption|apply custom_own|].
      intros H. rewrite custom_own in H. now apply own_given.
    - apply (leaf_renders st t _ (given name "Equals") (v ++ r) [] v [] r []); auto; cbn [app]; try rewrite app_nil_r; auto.
      rewrite T3. f_equal; cbn; lia.
  Qed.

  Lemma text_missed D s name v w : v <> [] -> ~ has_prefix v w ->
    obtains D s (core_matcher meaning name (KText v)) w Missed (noted D s name (KText v)).
  Proof.
    intros Hv Hn. split; [reflexivity|]. intros c st Hd Hc Hf Hl Hs.
    pose proof (left_window P Hsmall _ Hl) as W. pose proof (left_sliceable P Hascii Hsmall _ Hl) as Sl.
    rewrite <- Hc in Sl. eexists _, _. split; [|split].
    - apply equals_not_found; [exact Hd|exact Sl|]. right. intros [rest Hr]. apply Hn. exists rest. rewrite Hc in Hr. cbn [rs re] in Hr.
      exact (window_unique _ _ _ _ _ W Hr).
    - apply (fits_noted D st _ s name (KText v)); [assumption|assumption|apply custom_own|].
      intros H. rewrite custom_own in H. now apply own_given.
    - constructor.
  Qed.

  Lemma sequence_done D s name a b x raw v r : a <> [] -> b <> [] -> scans b x (raw ++ b ++ r) raw v ->
    obtains D s (core_matcher meaning name (KSequence a b x)) (a ++ raw ++ b ++ r)
      (Took (leaf_node source (given name "Sequence") (a ++ raw ++ b ++ r) a raw b [(lit "__value", v)]) r)
      (noted D s name (KSequence a b x)).
  Proof.
    intros Ha Hb Hsc. split; [reflexivity|]. intros c st Hd Hc Hf Hl Hs.
    pose proof (left_window P Hsmall _ Hl) as W.
    replace (pos (a ++ raw ++ b ++ r)) with (rs (c_off c)) in W by now rewrite Hc.
    replace (slen source) with (re (c_off c)) in W by now rewrite Hc.
    destruct (sequence_token E P a b x (given name "Sequence") (negb (str_eqb (given name "Sequence") "Sequence")) c s st _ raw v
      Hascii Hd Ha Hb W Hsc) as (t & D1 & T1 & T2 & T3 & T4 & T5 & T6 & T7).
    rewrite Hc in T2, T3. cbn [rs] in T2, T3.
    eexists _, _. split; [exact D1|]. split.
    - apply (fits_noted D st _ s name (KSequence a b x)); [assumption|assumption|apply custom_own|].
      intros H. rewrite custom_own in H. now apply own_given.
    - apply (leaf_renders st t _ (given name "Sequence") _ a raw b r [(lit "__value", v)]); auto; try tauto.
      + rewrite T2. rewrite !slen_app. f_equal; lia.
      + intros H0. apply app_eq_nil in H0. tauto.
  Qed.
  Lemma sequence_missed D s name a b x w : a <> [] -> b <> [] ->
    (forall text raw v, w = a ++ text -> ~ scans b x text raw v) ->
    obtains D s (core_matcher meaning name (KSequence a b x)) w Missed (noted D s name (KSequence a b x)).
  Proof.
    intros Ha Hb Hn. split; [reflexivity|]. intros c st Hd Hc Hf Hl Hs.
    pose proof (left_window P Hsmall _ Hl) as W.
    replace (pos w) with (rs (c_off c)) in W by now rewrite Hc.
    replace (slen source) with (re (c_off c)) in W by now rewrite Hc.
    eexists _, _. split; [|split].
    - now apply (sequence_not_found E P a b x) with (w := w).
    - apply (fits_noted D st _ s name (KSequence a b x)); [assumption|assumption|apply custom_own|].
      intros H. rewrite custom_own in H. now apply own_given.
    - constructor.
  Qed.

  Lemma regex_found D s name body flags f u r : f (u ++ r) = Some (0, slen u) -> u <> [] ->
    obtains D s (core_matcher meaning name (KRegex body flags (Some f))) (u ++ r)
      (Took (leaf_node source (given name "Matches") (u ++ r) [] u [] []) r) (noted D s name (KRegex body flags (Some f))).
  Proof.
    intros Hu Hne. split; [reflexivity|]. intros c st Hd Hc Hf Hl Hs.
    pose proof (left_window P Hsmall _ Hl) as W. pose proof (left_sliceable P Hascii Hsmall _ Hl) as Sl.
    rewrite <- Hc in Sl.
    replace (pos (u ++ r)) with (rs (c_off c)) in W by now rewrite Hc.
    replace (slen source) with (re (c_off c)) in W by now rewrite Hc.
    apply slen_pos in Hne as Hpos.
    destruct (matches_found E P f (given name "Matches") (negb (str_eqb (given name "Matches") "Matches")) c s st _ (slen u) Sl W Hu ltac:(lia))
      as (t & D1 & (T1 & T2 & T3 & T4 & T5 & T6 & T7 & T8 & T9) & D3).
    destruct (D3 Hascii) as (rest & D4 & D5 & D6); [rewrite slen_app; lia|]. rewrite Hc in T3, T4. cbn [rs] in T3, T4.
    assert (tk_cvalue t = u) as Hcv by (symmetry; exact (proj1 (app_inj_len _ _ _ _ D4 (eq_sym D5)))).
    eexists _, _. split; [exact D1|]. split.
    - apply (fits_noted D st _ s name (KRegex body flags (Some f))); [assumption|assumption|apply custom_own|].
      intros H. rewrite custom_own in H. now apply own_given.
    - apply (leaf_renders st t _ (given name "Matches") (u ++ r) [] u [] r []); auto; cbn [app]; try rewrite app_nil_r; auto.
      + rewrite T3. f_equal; cbn; lia.
      + congruence.
  Qed.
  Lemma regex_nothing D s name body flags f w : f w = Some (0, 0) ->
    obtains D s (core_matcher meaning name (KRegex body flags (Some f))) w (Passed w) (noted D s name (KRegex body flags (Some f))).
  Proof.
    intros Hu. split; [reflexivity|]. intros c st Hd Hc Hf Hl Hs.
    pose proof (left_window P Hsmall _ Hl) as W. pose proof (left_sliceable P Hascii Hsmall _ Hl) as Sl.
    rewrite <- Hc in Sl.
    replace (pos w) with (rs (c_off c)) in W by now rewrite Hc.
    replace (slen source) with (re (c_off c)) in W by now rewrite Hc.
    eexists _, _. split; [|split].
    - now apply (matches_empty E P f) with (w := w).
    - apply (fits_noted D st _ s name (KRegex body flags (Some f))); [assumption|assumption|apply custom_own|].
      intros H. rewrite custom_own in H. now apply own_given.
    - apply passed_here.
  Qed.
  Lemma regex_missed D s name body flags f w : (forall n, f w <> Some (0, n)) ->
    obtains D s (core_matcher meaning name (KRegex body flags (Some f))) w Missed (noted D s name (KRegex body flags (Some f))).
  Proof.
    intros Hu. split; [reflexivity|]. intros c st Hd Hc Hf Hl Hs.
    pose proof (left_window P Hsmall _ Hl) as W. pose proof (left_sliceable P Hascii Hsmall _ Hl) as Sl.
    rewrite <- Hc in Sl.
    replace (pos w) with (rs (c_off c)) in W by now rewrite Hc.
    replace (slen source) with (re (c_off c)) in W by now rewrite Hc.
    eexists _, _. split; [|split].
    - now apply (matches_not_found E P f) with (w := w).
    - apply (fits_noted D st _ s name (KRegex body flags (Some f))); [assumption|assumption|apply custom_own|].
      intros H. rewrite custom_own in H. now apply own_given.
    - constructor.
  Qed.

  (* ---------- layers ---------- *)

  Lemma rnd_change st lo hi top a name mr cr raw attrs kids t' top' name' attrs' :
    rnd st lo hi top a (Node name mr cr raw attrs kids) -> (hi <= heap_size st)%nat ->
    tk_kind t' = tk_kind (tok st a) -> tk_flags t' = tk_flags (tok st a) -> tk_value t' = tk_value (tok st a) ->
    tk_mr t' = tk_mr (tok st a) -> tk_cr t' = tk_cr (tok st a) -> tk_cvalue t' = tk_cvalue (tok st a) ->
    tk_mvalue t' = tk_mvalue (tok st a) -> tk_kids t' = tk_kids (tok st a) ->
    tk_parent t' = top' -> tk_name t' = name' -> (forall x, get_attr x t' = first_of x attrs') ->
    rnd (set_tok st a t') lo hi top' a (Node name' mr cr raw attrs' kids).
  Proof.
    intros H Hh. inversion H as [lo0 hi0 top0 a0 n0 mr0 cr0 raw0 at0 ks0 H1 H2 H3 H4 H5 H6 H7 H8 H9 H10 H11 H12]; subst.
    intros K1 K2 K3 K4 K5 K6 K7 K8 K9 K10 K11.
    assert (Ht : tok (set_tok st a t') a = t') by (apply tok_set_same; unfold heap_size in *; lia).
    constructor; rewrite ?Ht; try congruence; try assumption.
    rewrite K8. eapply rnd_same; [exact H12|]. intros x Hx. apply tok_set_other. lia.
  Qed.

  Lemma first_of_app x l l' : first_of x (l ++ l') = match first_of x l with Some v => Some v | None => first_of x l' end.
  Proof. induction l as [|[y v] l IH]; [reflexivity|]. cbn [app first_of]. now destruct (str_eqb y x). Qed.
  Lemma first_of_filter x y (l : list (str * str)) : str_eqb y x = false ->
    first_of x (filter (fun q => negb (str_eqb y (fst q))) l) = first_of x l.
  Proof.
    intros Hne. induction l as [|[z v] l IH]; [reflexivity|]. cbn [filter fst first_of].
    destruct (str_eqb y z) eqn:E1; cbn [negb].
    - apply str_eqb_eq in E1 as <-. now rewrite Hne.
    - cbn [first_of]. now rewrite IH.
  Qed.
  Lemma first_of_latest x l : first_of x (latest l) = first_of x (rev l).
  Proof.
    unfold latest. rewrite <- (app_nil_r (rev l)). generalize (@nil (str * str)) as acc.
    induction l as [|p l IH]; intros acc; cbn [fold_left rev app]; [reflexivity|].
    rewrite IH, <- app_assoc, !first_of_app. destruct (first_of x (rev l)); [reflexivity|].
    destruct p as [y v]. cbn [app first_of fst]. destruct (str_eqb y x) eqn:E1; [reflexivity|]. now apply first_of_filter.
  Qed.
  Lemma str_eqb_sym x y : str_eqb x y = str_eqb y x.
  Proof.
    destruct (str_eqb x y) eqn:E1, (str_eqb y x) eqn:E2; auto.
    - apply str_eqb_eq in E1 as ->. now rewrite str_eqb_refl in E2.
    - apply str_eqb_eq in E2 as ->. now rewrite str_eqb_refl in E1.
  Qed.
  Lemma get_missing l : forall t x, get_attr x (add_missing_attrs l t)
    = match get_attr x t with Some v => Some v | None => first_of x l end.
  Proof.
    unfold add_missing_attrs. induction l as [|[y v] l IH]; intros t x; cbn [fold_left first_of fst snd].
    - now destruct (get_attr x t).
    - rewrite IH. destruct (get_attr y t) eqn:Ey.
      + destruct (get_attr x t) eqn:Ex; [reflexivity|]. destruct (str_eqb y x) eqn:E1; [|reflexivity].
        apply str_eqb_eq in E1 as ->. congruence.
      + destruct (str_eqb y x) eqn:E1.
        * apply str_eqb_eq in E1 as ->. rewrite Ey. unfold get_attr, set_attr. cbn [tk_attrs]. now rewrite assoc_get_set_same.
        * replace (get_attr x (set_attr y v t)) with (get_attr x t); [reflexivity|].
          unfold get_attr, set_attr. cbn [tk_attrs]. rewrite assoc_get_set_other; [reflexivity|]. intros ->. now rewrite str_eqb_refl in E1.
  Qed.
  Lemma missing_same l : forall t,
    tk_kind (add_missing_attrs l t) = tk_kind t /\ tk_flags (add_missing_attrs l t) = tk_flags t /\
    tk_value (add_missing_attrs l t) = tk_value t /\ tk_mr (add_missing_attrs l t) = tk_mr t /\
    tk_cr (add_missing_attrs l t) = tk_cr t /\ tk_cvalue (add_missing_attrs l t) = tk_cvalue t /\
    tk_mvalue (add_missing_attrs l t) = tk_mvalue t /\ tk_kids (add_missing_attrs l t) = tk_kids t /\
    tk_parent (add_missing_attrs l t) = tk_parent t /\ tk_name (add_missing_attrs l t) = tk_name t.
  Proof.
    unfold add_missing_attrs. induction l as [|[y v] l IH]; intros t; cbn [fold_left]; [auto 20|].
    destruct (IH (match get_attr (fst (y, v)) t with Some _ => t | None => set_attr (fst (y, v)) (snd (y, v)) t end))
      as (H1 & H2 & H3 & H4 & H5 & H6 & H7 & H8 & H9 & H10).
    rewrite H1, H2, H3, H4, H5, H6, H7, H8, H9, H10. clear. cbn [fst snd]. destruct (get_attr y t); auto 20.
  Qed.

  Lemma under_name D s m w x D' c name : gets D s m w x D' -> forall st, c_debug c = 0 -> c_off c = mkR (pos w) (slen source) ->
    fits D st -> left_over w -> V s ->
    exists y st', Runs E P m (renamed c name) s st y st' /\ fits D' st' /\ yields (heap_size st) st' w x y.
  Proof. intros H st Hd Hc Hf Hl Hs. exact (H (renamed c name) st Hd Hc Hf Hl Hs). Qed.

  Lemma labelled_gets D s m w x D' l : obtains D s m w x D' -> obtains D s (attributed l m) w (labelled l x) D'.
  Proof.
    intros [Hm H]. destruct l as [|p l'].
    { replace (labelled [] x) with x; [now split|]. destruct x as [[n mr cr raw at_ kids] r|r| |id]; cbn; rewrite ?app_nil_r; reflexivity. }
    split; [reflexivity|]. cbn [attributed]. set (l := p :: l'). intros c st Hd Hc Hf Hl Hs.
    destruct (under_name D s m w x D' c "Map" H st Hd Hc Hf Hl Hs) as (y & st1 & R & F & Y).
    destruct Y as [a n r Ha Hp|r Hr| |id].
    - eexists _, _. split; [eapply map_runs; [exact R|reflexivity]|]. split; [eapply fits_scopes; [|exact F]; reflexivity|].
      destruct n as [name mr cr raw attrs kids]. cbn [labelled]. constructor; [|exact Hp].
      unfold modify. rewrite heap_size_set.
      destruct (missing_same (latest l) (tok st1 a)) as (H1 & H2 & H3 & H4 & H5 & H6 & H7 & H8 & H9 & H10).
      inversion Ha as [lo0 hi0 top0 a0 n0 mr0 cr0 raw0 at0 ks0 G1 G2 G3 G4 G5 G6 G7 G8 G9 G10 G11 G12]; subst.
      eapply rnd_change; [exact Ha|lia|assumption ..|congruence|congruence|].
      intros z. rewrite get_missing, G11, first_of_app, first_of_latest. reflexivity.
    - eexists _, _. split; [eapply map_runs; [exact R|reflexivity]|]. split; [exact F|]. now constructor.
    - eexists _, _. split; [eapply map_runs; [exact R|reflexivity]|]. split; [exact F|]. constructor.
    - eexists _, _. split; [eapply map_runs; [exact R|reflexivity]|]. split; [exact F|]. constructor.
  Qed.
  Lemma renamed_gets D s m w x D' name : obtains D s m w x D' -> obtains D s (MMap m (MapRename name)) w (renamed_as name x) D'.
  Proof.
    intros [Hm H]. split; [reflexivity|]. intros c st Hd Hc Hf Hl Hs.
    destruct (under_name D s m w x D' c "Map" H st Hd Hc Hf Hl Hs) as (y & st1 & R & F & Y).
    destruct Y as [a n r Ha Hp|r Hr| |id].
    - eexists _, _. split; [eapply map_runs; [exact R|reflexivity]|]. split; [eapply fits_scopes; [|exact F]; reflexivity|].
      destruct n as [name0 mr cr raw attrs kids]. cbn [renamed_as]. constructor; [|exact Hp].
      unfold modify. rewrite heap_size_set.
      inversion Ha as [lo0 hi0 top0 a0 n0 mr0 cr0 raw0 at0 ks0 G1 G2 G3 G4 G5 G6 G7 G8 G9 G10 G11 G12]; subst.
      eapply rnd_change; [exact Ha|lia|reflexivity ..|exact G4|reflexivity|exact G11].
    - eexists _, _. split; [eapply map_runs; [exact R|reflexivity]|]. split; [exact F|]. now constructor.
    - eexists _, _. split; [eapply map_runs; [exact R|reflexivity]|]. split; [exact F|]. constructor.
    - eexists _, _. split; [eapply map_runs; [exact R|reflexivity]|]. split; [exact F|]. constructor.
  Qed.
  Lemma scoped_gets D s s1 m w x D' : V s1 -> obtains D s1 m w x D' -> obtains D s (MSetScope (Some s1) m) w x D'.
  Proof.
    intros Hv [Hm H]. split; [reflexivity|]. intros c st Hd Hc Hf Hl Hs.
    destruct (under_name D s1 m w x D' c "SetScope" H st Hd Hc Hf Hl Hv) as (y & st1 & R & F & Y).
    exists y, st1. split; [|now split]. apply (set_scope_given E P s1 m c s st (Done y st1)). exact R.
  Qed.
  Lemma signed_gets D s m w x D' o : obtains D s m w x D' -> obtains D s (signed o m) w (under o w x) D'.
  Proof.
    intros [Hm H]. destruct o; cbn [signed].
    - replace (under Unsigned w x) with x by (now destruct x). now split.
    - split; [reflexivity|]. intros c st Hd Hc Hf Hl Hs.
      destruct (under_name D s m w x D' c "Optional" H st Hd Hc Hf Hl Hs) as (y & st1 & R & F & Y).
      destruct Y as [a n r Ha Hp|r Hr| |id].
      + eexists _, _. split; [apply optional_runs; right; split; [|exact R]; discriminate|]. split; [exact F|]. now constructor.
      + eexists _, _. split; [apply optional_runs; right; split; [|exact R]; discriminate|]. split; [exact F|]. now constructor.
      + eexists _, _. split; [apply optional_runs; left; split; [reflexivity|exact R]|]. split; [exact F|]. apply passed_here.
      + eexists _, _. split; [apply optional_runs; right; split; [|exact R]; unfold unknown_failure; discriminate|]. split; [exact F|]. constructor.
    - split; [reflexivity|]. intros c st Hd Hc Hf Hl Hs.
      destruct (under_name D s m w x D' c "Not" H st Hd Hc Hf Hl Hs) as (y & st1 & R & F & Y).
      destruct Y as [a n r Ha Hp|r Hr| |id].
      + exists (Err FFail), st1. split; [apply not_runs; eexists; split; [exact R|reflexivity]|]. split; [exact F|]. constructor.
      + cbn [under]. destruct (N.eqb_spec (slen r) (slen w)) as [He|He].
        * exists (Ok (SSkip 0)), st1. split; [apply not_runs; eexists; split; [exact R|]|split; [exact F|apply passed_here]].
          cbn beta iota. left. split; [|reflexivity]. unfold SeesProofs.pos. rewrite He. lia.
        * exists (Err FFail), st1. split; [apply not_runs; eexists; split; [exact R|]|split; [exact F|constructor]].
          cbn beta iota. right. split; [|reflexivity]. intros H0. apply passed_zero in H0; [|assumption|assumption]. now subst.
      + exists (Ok (SSkip 0)), st1. split; [apply not_runs; eexists; split; [exact R|reflexivity]|]. split; [exact F|]. apply passed_here.
      + exists (unknown_error id), st1. split; [apply not_runs; eexists; split; [exact R|reflexivity]|]. split; [exact F|]. constructor.
  Qed.
  Lemma dropped_gets D s m w x D' : obtains D s m w x D' -> obtains D s (MDiscard m) w (dropped x) D'.
  Proof.
    intros [Hm H]. split; [reflexivity|]. intros c st Hd Hc Hf Hl Hs.
    destruct (under_name D s m w x D' c "Discard" H st Hd Hc Hf Hl Hs) as (y & st1 & R & F & Y).
    destruct Y as [a n r Ha Hp|r Hr| |id].
    - destruct (discard_token_result E P m c s st (SToken a) a (fun y => y) st1 [] ltac:(left; auto) R (proj1 (rnd_clean st1) _ _ _ _ _ Ha))
        as (t & _ & _ & Hr). 
      destruct Hp as (P1 & P2 & P3 & P4).
      assert (Hm1 : tk_mr (tok st1 a) = mkR (pos w) (pos r)).
      { inversion Ha; subst. cbn [n_mr] in P3. congruence. }
      assert (Hoff : rs (c_off c) = pos w) by now rewrite Hc.
      rewrite Hm1, Hoff in Hr. cbn [re] in Hr.
      eexists _, _. split; [apply Hr; [reflexivity|apply pos_small, Hsmall|apply pos_small, Hsmall]|].
      split; [eapply fits_scopes; [|exact F]; reflexivity|]. now constructor.
    - eexists _, _. split; [apply discard_other; [|exact R]; exact I|]. split; [exact F|]. now constructor.
    - eexists _, _. split; [apply discard_other; [|exact R]; exact I|]. split; [exact F|]. constructor.
    - eexists _, _. split; [apply discard_other; [|exact R]; exact I|]. split; [exact F|]. constructor.
  Qed.

  (* ---------- references ---------- *)

  Lemma name_gets D s name id e w x D' : noted D s name (KName id) s id = Some e ->
    (entry_in e -> obtains (noted D s name (KName id)) s (entry_matcher e) w x D') ->
    obtains D s (core_matcher meaning name (KName id)) w x D'.
  Proof.
    intros He H0. split; [reflexivity|]. intros c st Hd Hc Hf Hl Hs.
    assert (F0 : fits (noted D s name (KName id))
      (mkSt (st_heap st) (scopes_after st s (is_given name) (given name "Ref") (core_matcher meaning name (KName id))))).
    { apply fits_noted; [assumption|assumption|reflexivity|]. apply is_given_given. }
    destruct (H0 (proj2 (proj2 F0) s id e Hs He)) as [_ H].
    destruct (under_name _ s _ w x D' c (given name "Ref") H _ Hd Hc F0 Hl Hs) as (y & st1 & R & F & Y).
    exists y, st1. split; [|now split].
    apply (ref_resolves E P id (given name "Ref") (is_given name) c s st (entry_matcher e)) with (o := Done y st1); [|exact R].
    destruct F0 as (_ & F0 & _). pose proof (F0 s id Hs) as G. rewrite He in G. exact G.
  Qed.
  Lemma unknown_gets D s name id w : noted D s name (KName id) s id = None ->
    obtains D s (core_matcher meaning name (KName id)) w (Unknown id) (noted D s name (KName id)).
  Proof.
    intros He. split; [reflexivity|]. intros c st Hd Hc Hf Hl Hs.
    assert (F0 : fits (noted D s name (KName id))
      (mkSt (st_heap st) (scopes_after st s (is_given name) (given name "Ref") (core_matcher meaning name (KName id))))).
    { apply fits_noted; [assumption|assumption|reflexivity|]. apply is_given_given. }
    eexists _, _. split; [apply ref_unknown|split; [exact F0|constructor]].
    intros m. destruct F0 as (_ & F0 & _). pose proof (F0 s id Hs) as G. rewrite He in G. cbn [option_map core_matcher] in G.
    intros H0. rewrite H0 in G. discriminate.
  Qed.

  (* ---------- what a program has gathered ---------- *)

  (* the program [pt] started at [w0], is at [w], and has [kids] *)
  Record holding (pt : addr) (w0 : str) (done : list piece) (kids : list node) (w : str) (st : state) : Prop := {
    ho_kids : rnd_all st (S pt) (heap_size st) (Some pt) (all_kids done) kids;
    ho_order : ordered (pos w0) (pos w) kids;
    ho_mr : (all_mr done = [] /\ w = w0 /\ kids = []) \/ (lowest (all_mr done) = pos w0 /\ highest (all_mr done) = pos w);
    ho_cr : hull (all_cr done) = hull (map n_cr kids);
    ho_follows : follows w0 w;
    ho_moved : kids <> [] -> slen w < slen w0
  }.
  Definition waiting (pt : addr) (name : str) (st : state) : Prop :=
    (pt < heap_size st)%nat /\ tok st pt = std_token P name (mkR 0 0).

  Lemma holding_nothing pt w0 st : holding pt w0 [] [] w0 st.
  Proof.
    split; [constructor|constructor; lia|left; auto|reflexivity|apply follows_refl|congruence].
  Qed.

  Lemma holding_same pt w0 done kids w st st' :
    (forall x, (x < heap_size st)%nat -> tok st' x = tok st x) -> (heap_size st <= heap_size st')%nat ->
    holding pt w0 done kids w st -> holding pt w0 done kids w st'.
  Proof.
    intros Ht Hh [H1 H2 H3 H4 H5 H6]. split; auto. eapply rnd_wide; [eapply rnd_same; [exact H1|]| |exact Hh]; [|lia].
    intros x Hx. apply Ht. lia.
  Qed.
  Lemma waiting_same pt name st st' :
    (forall x, (x < heap_size st)%nat -> tok st' x = tok st x) -> (heap_size st <= heap_size st')%nat ->
    waiting pt name st -> waiting pt name st'.
  Proof. intros Ht Hh [H1 H2]. split; [lia|]. now rewrite Ht. Qed.

  Lemma rnd_adopted st lo hi top a n pt low : rnd st lo hi top a n -> adopted P pt low (tok st a) = set_parent (Some pt) (tok st a).
  Proof. intros H. inversion H; subst. unfold adopted, is_error. match goal with H : tk_flags _ = 0 |- _ => rewrite H end. reflexivity. Qed.
  Lemma rnd_mr st lo hi top a n : rnd st lo hi top a n -> tk_mr (tok st a) = n_mr n.
  Proof. intros H. inversion H; subst. reflexivity. Qed.
  Lemma rnd_cr st lo hi top a n : rnd st lo hi top a n -> tk_cr (tok st a) = n_cr n.
  Proof. intros H. inversion H; subst. reflexivity. Qed.
  Lemma rnd_kind st lo hi top a n : rnd st lo hi top a n -> tk_kind (tok st a) = KStandard.
  Proof. intros H. inversion H; subst. assumption. Qed.
  Lemma rnd_at st lo hi top a n : rnd st lo hi top a n -> (lo <= a < hi)%nat.
  Proof. intros H. inversion H; subst. assumption. Qed.
  Lemma rnd_parent st lo hi top a n top' : rnd st lo hi top a n -> (hi <= heap_size st)%nat ->
    rnd (set_tok st a (set_parent top' (tok st a))) lo hi top' a n.
  Proof.
    intros H Hh. destruct n as [name mr cr raw attrs kids].
    inversion H as [lo0 hi0 top0 a0 n0 mr0 cr0 raw0 at0 ks0 G1 G2 G3 G4 G5 G6 G7 G8 G9 G10 G11 G12]; subst.
    eapply rnd_change; [exact H|exact Hh|reflexivity ..|exact G11].
  Qed.

  Lemma holding_took pt w0 done kids w st st1 a n r :
    (forall x, (x < heap_size st)%nat -> tok st1 x = tok st x) -> (heap_size st <= heap_size st1)%nat ->
    (pt < heap_size st)%nat -> left_over w ->
    holding pt w0 done kids w st -> rnd st1 (heap_size st) (heap_size st1) None a n -> proper w n r ->
    let t := set_parent (Some pt) (tok st1 a) in
    holding pt w0 (done ++ [token_piece a true t]) (kids ++ [n]) r (set_tok st1 a t) /\
    (forall x, (x < heap_size st)%nat -> tok (set_tok st1 a t) x = tok st x).
  Proof.
    intros Ht Hh Hpt Hl H Ha (P1 & P2 & P3 & P4 & _) t. pose proof (rnd_at _ _ _ _ _ _ Ha) as Hat.
    assert (Hsame : forall x, (x < heap_size st)%nat -> tok (set_tok st1 a t) x = tok st x).
    { intros x Hx. rewrite tok_set_other by lia. now apply Ht. }
    split; [|exact Hsame]. destruct H as [H1 H2 H3 H4 H5 H6].
    pose proof (pos_follows P Hsmall _ _ Hl P1) as Hle.
    pose proof (rnd_mr _ _ _ _ _ _ Ha) as Hmr. pose proof (rnd_cr _ _ _ _ _ _ Ha) as Hcr.
    pose proof (pos_lt P Hsmall w) as Hlt. pose proof (pos_lt P Hsmall r) as Hlt'.
    split.
    - rewrite all_kids_app, heap_size_set. apply (rnd_all_app _ (S pt) (heap_size st)); [lia| |].
      + eapply rnd_same; [exact H1|]. intros x Hx. apply Hsame. lia.
      + cbn. apply rna_cons with (mid := heap_size st1); [lia| |constructor]. apply (rnd_parent _ _ _ None); [exact Ha|lia].
    - eapply ordered_snoc; eauto.
    - right. rewrite all_mr_app, lowest_app, highest_app. cbn [all_mr flat_map token_piece pc_mr app].
      change (tk_mr t) with (tk_mr (tok st1 a)). rewrite Hmr, P3. cbn [lowest highest fold_right rs re].
      apply ordered_le in H2. destruct H3 as [(E1 & -> & _)|(E1 & E2)].
      + rewrite E1. cbn. split; lia.
      + rewrite E1, E2. split; lia.
    - rewrite all_cr_app, map_app. unfold hull in *. rewrite !lowest_app, !highest_app.
      injection H4 as E1 E2. rewrite E1, E2. cbn [all_cr flat_map token_piece pc_cr app map].
      change (tk_cr t) with (tk_cr (tok st1 a)). now rewrite Hcr.
    - eapply follows_trans; eauto.
    - intros _. apply (follows_len P Hsmall) in H5. lia.
  Qed.
  Lemma holding_passed pt w0 done kids w st r :
    left_over w -> holding pt w0 done kids w st -> follows w r ->
    holding pt w0 (done ++ [mkPiece [] [] [mkR (pos w0) (pos r)]]) kids r st.
  Proof.
    intros Hl [H1 H2 H3 H4 H5 H6] Hr. pose proof (pos_follows P Hsmall _ _ Hl Hr) as Hle.
    pose proof (pos_lt P Hsmall w0) as Hlt. pose proof (pos_lt P Hsmall r) as Hlt'.
    split.
    - rewrite all_kids_app. cbn. now rewrite app_nil_r.
    - eapply ordered_up; eauto.
    - right. rewrite all_mr_app, lowest_app, highest_app. cbn [all_mr flat_map pc_mr app lowest highest fold_right rs re].
      apply ordered_le in H2. destruct H3 as [(E1 & -> & _)|(E1 & E2)].
      + rewrite E1. cbn. split; lia.
      + rewrite E1, E2. split; lia.
    - rewrite all_cr_app. cbn. now rewrite app_nil_r.
    - eapply follows_trans; eauto.
    - intros Hk. apply H6 in Hk. apply (follows_len P Hsmall) in Hr. lia.
  Qed.

  Lemma branch_rnd st pt name done kids w0 w :
    rnd_all st (S pt) (heap_size st) (Some pt) (all_kids done) kids -> kids <> [] ->
    hull (all_cr done) = hull (map n_cr kids) -> hull (all_mr done) = mkR (pos w0) (pos w) ->
    ordered (pos w0) (pos w) kids -> waiting pt name st -> left_over w -> left_over w0 ->
    follows w0 w -> slen w < slen w0 ->
    let st' := set_tok st pt (filled P done (tok st pt)) in
    rnd st' pt (heap_size st') None pt (branch source name w0 kids w) /\ proper w0 (branch source name w0 kids w) w.
  Proof.
    intros H1 Hne H2 H3 H4 [W1 W2] Hl Hl0 Hf Hlt st'.
    destruct kids as [|k l]; [congruence|].
    destruct (ordered_hull _ _ _ _ H4 (pos_lt P Hsmall w)) as (U1 & U2 & U3 & U4).
    assert (Hw : pos w <= slen source) by (unfold SeesProofs.pos; lia).
    split.
    - unfold st'. rewrite heap_size_set. unfold branch.
      assert (Ht : tok (set_tok st pt (filled P done (tok st pt))) pt = filled P done (tok st pt)) by (apply tok_set_same; exact W1).
      constructor; rewrite ?Ht; unfold filled; rewrite ?W2; try reflexivity; cbn [tk_mr tk_cr tk_cvalue tk_mvalue set_mr set_cr set_kids std_token tk_kind tk_kids].
      + lia.
      + rewrite H3. reflexivity.
      + rewrite H2, U1. reflexivity.
      + rewrite H2, U1, text_between; cbn [rs re]; [reflexivity|lia|lia].
      + rewrite H3, text_between; cbn [rs re]; [reflexivity| |exact Hw]. apply ordered_le in H4. exact H4.
      + eapply rnd_same; [exact H1|]. intros x Hx. apply tok_set_other. lia.
    - unfold proper, branch, sits. cbn [n_mr n_cr rs re].
      change (start_of source w0) with (pos w0). change (start_of source w) with (pos w).
      split; [exact Hf|]. split; [exact Hlt|]. split; [reflexivity|]. split; [lia|exact H4].
  Qed.

  Lemma program_closes pt w0 done kids w st name : holding pt w0 done kids w st -> waiting pt name st -> left_over w0 ->
    exists y st', closes P pt done st y st' /\ st_scopes st' = st_scopes st /\
      yields pt st' w0 (gathered source name w0 kids w) y.
  Proof.
    intros [H1 H2 H3 H4 H5 H6] Hw Hl0. pose proof (left_follows P _ _ Hl0 H5) as Hl. destruct kids as [|k l].
    - exists (Err FFail), st. split; [|split; [reflexivity|constructor]]. apply cl_fail. intros [C _].
      apply C. eapply rnd_all_none; eauto.
    - destruct H3 as [(_ & _ & C)|(M1 & M2)]; [discriminate|].
      destruct (ordered_hull _ _ _ _ H2 (pos_lt P Hsmall w)) as (U1 & U2 & U3 & U4).
      pose proof (pos_lt P Hsmall w0). pose proof (pos_lt P Hsmall w).
      assert (Hne : k :: l <> []) by discriminate.
      destruct (branch_rnd st pt name done (k :: l) w0 w H1 Hne H4) as (B1 & B2); auto.
      { unfold hull. now rewrite M1, M2. }
      eexists _, _. split; [apply cl_token|split; [reflexivity|]].
      + split; [eapply rnd_all_some; eauto|]. assert (L : lowest (all_cr done) = rs (n_cr k)) by (rewrite U1 in H4; exact (f_equal rs H4)).
        rewrite L, M1. split; lia.
      + cbn [gathered]. constructor; [exact B1|exact B2].
  Qed.

  (* ---------- programs, loops, switches ---------- *)

  Definition walks_like (D : book) (s : sid) (ms : list matcher) (w0 : str) (kids : list node) (w : str) (x : reading) (D' : book) : Prop :=
    forall c st pt nm name done, c_debug c = 0 -> c_off c = mkR (pos w0) (slen source) -> fits D st -> left_over w0 -> V s ->
    holding pt w0 done kids w st -> waiting pt name st ->
    exists e y st', pass E P c nm s pt ms done (pos w) st e /\ leads_to E P pt (pos w0) e (Done y st') /\
      fits D' st' /\ yields pt st' w0 (renamed_as name x) y.

  (* one pattern of a program *)
  Inductive steps (D' : book) (c : ctx) (nm : str) (s : sid) (pt : addr) (m : matcher) (w0 : str) (done : list piece) (kids : list node)
    (w : str) (name : str) (st : state) : reading -> Prop :=
  | st_goes x done' kids' r st' :
      (x = Took (last kids' (Node [] (mkR 0 0) (mkR 0 0) [] [] [])) r /\ kids' = kids ++ [last kids' (Node [] (mkR 0 0) (mkR 0 0) [] [] [])] \/
       x = Passed r /\ kids' = kids) ->
      (forall ms e, pass E P c nm s pt ms done' (pos r) st' e -> pass E P c nm s pt (m :: ms) done (pos w) st e) ->
      fits D' st' -> holding pt w0 done' kids' r st' -> waiting pt name st' ->
      steps D' c nm s pt m w0 done kids w name st x
  | st_missed st' : (forall ms, pass E P c nm s pt (m :: ms) done (pos w) st (NoMatch done st')) ->
      fits D' st' -> holding pt w0 done kids w st' -> waiting pt name st' ->
      steps D' c nm s pt m w0 done kids w name st Missed
  | st_unknown id e st' : (forall ms, pass E P c nm s pt (m :: ms) done (pos w) st (Fatal e st')) ->
      unknown_error id = Err (FError e) -> fits D' st' ->
      steps D' c nm s pt m w0 done kids w name st (Unknown id).

  Lemma one_step D s m w0 w x D' : obtains D s m w x D' -> forall c st pt nm name done kids,
    c_debug c = 0 -> c_off c = mkR (pos w0) (slen source) -> fits D st -> left_over w0 -> V s ->
    holding pt w0 done kids w st -> waiting pt name st ->
    steps D' c nm s pt m w0 done kids w name st x.
  Proof.
    intros [Hm H] c st pt nm name done kids Hd Hc Hf Hl0 Hs Hh Hw.
    pose proof (left_follows P _ _ Hl0 (ho_follows _ _ _ _ _ _ Hh)) as Hl.
    destruct (H (pattern_ctx c nm pt (pos w)) st) as (y & st1 & R & F & Y); auto.
    { cbn. now rewrite Hc. }
    pose proof (runs_size _ _ _ _ _ _ R) as Z. pose proof (runs_same _ _ _ _ _ _ R) as T.
    destruct Y as [a n r Ha Hp|r Hr| |id].
    - destruct (holding_took pt w0 done kids w st st1 a n r T Z (proj1 Hw) Hl Hh Ha Hp) as (G1 & G2).
      set (t := set_parent (Some pt) (tok st1 a)) in *.
      assert (Hmr : tk_mr (tok st1 a) = mkR (pos w) (pos r)).
      { rewrite (rnd_mr _ _ _ _ _ _ Ha). apply Hp. }
      apply st_goes with (done' := done ++ [token_piece a true t]) (kids' := kids ++ [n]) (r := r) (st' := set_tok st1 a t).
      + left. rewrite last_last. now split.
      + intros ms e He. eapply ps_next; [exact R| |exact He]. rewrite Hm.
        replace (pos r) with (if true then re (tk_mr t) else pos w) by (change (tk_mr t) with (tk_mr (tok st1 a)); now rewrite Hmr).
        apply ct_token; [eapply rnd_kind; eauto| |symmetry; eapply rnd_adopted; eauto].
        intros _ _. right. rewrite Hmr. cbn [re]. destruct Hp as (P1 & P2 & _).
        apply (left_len P Hsmall) in Hl. unfold SeesProofs.pos. lia.
      + eapply fits_scopes; [|exact F]. reflexivity.
      + exact G1.
      + apply (waiting_same pt name st); [exact G2|rewrite heap_size_set; exact Z|exact Hw].
    - eapply st_goes with (kids' := kids) (r := r).
      + now right.
      + intros ms e He. eapply ps_next; [exact R| |exact He]. rewrite Hm. apply ct_skip; [reflexivity|].
        now apply skips_pos.
      + exact F.
      + rewrite Hc. cbn [rs]. apply (holding_passed pt w0 done kids w st1 r Hl); [|exact Hr].
        eapply holding_same; eauto.
      + eapply waiting_same; eauto.
    - eapply st_missed; [intros ms; apply ps_fail; exact R|exact F|eapply holding_same; eauto|eapply waiting_same; eauto].
    - eapply st_unknown; [intros ms; apply ps_error; exact R|reflexivity|exact F].
  Qed.

  Lemma renamed_gathered nm name w0 kids w : renamed_as nm (gathered source name w0 kids w) = gathered source nm w0 kids w.
  Proof. destruct kids; reflexivity. Qed.

  Lemma walk_done D s name w0 kids w : walks_like D s [] w0 kids w (gathered source name w0 kids w) D.
  Proof.
    intros c st pt nm name' done Hd Hc Hf Hl0 Hs Hh Hw.
    destruct (program_closes _ _ _ _ _ _ _ Hh Hw Hl0) as (y & st' & C & S1 & Y).
    exists (AllDone done (pos w) st), y, st'. split; [constructor|]. split; [now constructor|].
    split; [eapply fits_scopes; eauto|]. now rewrite renamed_gathered.
  Qed.
  Lemma walk_took D s m ms w0 kids w n r x D1 D' : obtains D s m w (Took n r) D1 ->
    walks_like D1 s ms w0 (kids ++ [n]) r x D' -> walks_like D s (m :: ms) w0 kids w x D'.
  Proof.
    intros Hm IH c st pt nm name done Hd Hc Hf Hl0 Hs Hh Hw.
    pose proof (one_step _ _ _ w0 _ _ _ Hm c st pt nm name done kids Hd Hc Hf Hl0 Hs Hh Hw) as St.
    inversion St as [x0 done' kids' r' st' Hx Hp F H1 H2| |]; subst.
    destruct Hx as [(Hx & Hk)|(Hx & _)]; [|discriminate]. injection Hx as Hn <-. rewrite <- Hn in Hk. subst kids'.
    destruct (IH c st' pt nm name done') as (e & y & st2 & A1 & A2 & A3 & A4); auto.
    exists e, y, st2. split; [now apply Hp|]. now split.
  Qed.
  Lemma walk_passed D s m ms w0 kids w r x D1 D' : obtains D s m w (Passed r) D1 ->
    walks_like D1 s ms w0 kids r x D' -> walks_like D s (m :: ms) w0 kids w x D'.
  Proof.
    intros Hm IH c st pt nm name done Hd Hc Hf Hl0 Hs Hh Hw.
    pose proof (one_step _ _ _ w0 _ _ _ Hm c st pt nm name done kids Hd Hc Hf Hl0 Hs Hh Hw) as St.
    inversion St as [x0 done' kids' r' st' Hx Hp F H1 H2| |]; subst.
    destruct Hx as [(Hx & Hk)|(Hx & ->)]; [discriminate|]. injection Hx as <-.
    destruct (IH c st' pt nm name done') as (e & y & st2 & A1 & A2 & A3 & A4); auto.
    exists e, y, st2. split; [now apply Hp|]. now split.
  Qed.
  Lemma walk_missed D s m ms w0 kids w D' : obtains D s m w Missed D' -> walks_like D s (m :: ms) w0 kids w Missed D'.
  Proof.
    intros Hm c st pt nm name done Hd Hc Hf Hl0 Hs Hh Hw.
    pose proof (one_step _ _ _ w0 _ _ _ Hm c st pt nm name done kids Hd Hc Hf Hl0 Hs Hh Hw) as St.
    inversion St as [x0 done' kids' r' st' Hx _ _ _ _|st' Hp F H1 H2|]; subst; [destruct Hx as [(Hx & _)|(Hx & _)]; discriminate|].
    eexists _, _, st'. split; [apply Hp|]. split; [constructor|]. split; [exact F|constructor].
  Qed.
  Lemma walk_unknown D s m ms w0 kids w id D' : obtains D s m w (Unknown id) D' -> walks_like D s (m :: ms) w0 kids w (Unknown id) D'.
  Proof.
    intros Hm c st pt nm name done Hd Hc Hf Hl0 Hs Hh Hw.
    pose proof (one_step _ _ _ w0 _ _ _ Hm c st pt nm name done kids Hd Hc Hf Hl0 Hs Hh Hw) as St.
    inversion St as [x0 done' kids' r' st' Hx _ _ _ _| |id0 e st' Hp He F]; subst; [destruct Hx as [(Hx & _)|(Hx & _)]; discriminate|].
    eexists _, _, st'. split; [apply Hp|]. split; [constructor|]. split; [exact F|]. rewrite <- He. constructor.
  Qed.

  Lemma waiting_start pats i s st : waiting (List.length (st_heap st)) (pi_name i) (program_start P pats i s st).
  Proof.
    split; unfold heap_size, program_start, tok; cbn; [rewrite app_length; cbn; lia|].
    rewrite app_nth2 by lia. now rewrite Nat.sub_diag.
  Qed.

  Lemma program_gets D D1 s ms i w x D' : pi_stop i = false -> pi_iter i = None ->
    (forall st, V s -> fits D st -> fits D1 (program_start P ms i s st)) ->
    walks_like D1 s ms w [] w x D' -> obtains D s (MProgram ms i) w (renamed_as (pi_name i) x) D'.
  Proof.
    intros Hi1 Hi2 Hf1 Hw. split; [reflexivity|]. intros c st Hd Hc Hf Hl Hs.
    destruct (Hw c (program_start P ms i s st) (List.length (st_heap st)) (pi_name i) (pi_name i) [] Hd Hc (Hf1 _ Hs Hf) Hl Hs
      (holding_nothing _ _ _) (waiting_start _ _ _ _)) as (e & y & st' & A1 & A2 & A3 & A4).
    exists y, st'. split; [|now split]. apply (program_does E P c i s st ms Hd Hi1 Hi2 e (Done y st')); rewrite Hc; assumption.
  Qed.

  Definition rounds_like (D : book) (s : sid) (m : matcher) (lo : N) (w0 : str) (left count : N) (kids : list node) (w : str)
    (x : reading) (D' : book) : Prop :=
    forall c i st pt done, c_debug c = 0 -> c_off c = mkR (pos w0) (slen source) -> fits D st -> left_over w0 -> V s ->
    holding pt w0 done kids w st -> waiting pt "Loop" st ->
    exists y st', loops E P c i lo s pt [m] left count done (pos w) st (Done y st') /\ fits D' st' /\ yields pt st' w0 x y.

  Lemma holding_empty pt w0 done kids w st : holding pt w0 done kids w st -> (all_kids done = [] <-> kids = []).
  Proof.
    intros H. pose proof (ho_kids _ _ _ _ _ _ H) as K. inversion K; subst; [tauto|]. split; discriminate.
  Qed.

  Lemma rounds_gets D s m r lo hi w x D' : bounds r = Some (lo, hi) -> rounds_like D s m lo w (hi - lo) 0 [] w x D' ->
    obtains D s (repeated r m) w x D'.
  Proof.
    intros Hb H. unfold repeated. rewrite Hb. split; [reflexivity|]. intros c st Hd Hc Hf Hl Hs.
    set (i := mkPI "Loop" (Some (lo, hi)) false false).
    assert (F0 : fits D (program_start P [m] i s st)) by (eapply fits_scopes; [|exact Hf]; reflexivity).
    destruct (H c i (program_start P [m] i s st) (List.length (st_heap st)) [] Hd Hc F0 Hl Hs (holding_nothing _ _ _)
      (waiting_start [m] i s st)) as (y & st' & A1 & A2 & A3).
    exists y, st'. split; [|now split]. apply (loop_does E P c i s st [m] lo hi (Done y st') Hd); [reflexivity|reflexivity|].
    rewrite Hc. exact A1.
  Qed.

  Lemma round_none D s m w : rounds_like D s m 0 w 0 0 [] w (Passed w) D.
  Proof.
    intros c i st pt done Hd Hc Hf Hl Hs Hh Hw. eexists _, st. split; [apply lp_empty; auto; now apply (holding_empty _ _ _ _ _ _ Hh)|].
    split; [exact Hf|apply passed_here].
  Qed.
  Lemma round_short D s m lo w0 count kids w : count < lo -> rounds_like D s m lo w0 0 count kids w Missed D.
  Proof.
    intros Hlt c i st pt done Hd Hc Hf Hl Hs Hh Hw. eexists _, st. split; [now apply lp_short|]. split; [exact Hf|constructor].
  Qed.
  Lemma round_full D s m lo w0 count kids w : lo <= count -> 0 < lo \/ 0 < count \/ kids <> [] ->
    rounds_like D s m lo w0 0 count kids w (gathered source "Loop" w0 kids w) D.
  Proof.
    intros Hle Hne c i st pt done Hd Hc Hf Hl Hs Hh Hw.
    destruct (program_closes _ _ _ _ _ _ _ Hh Hw Hl) as (y & st' & C & S1 & Y).
    exists y, st'. split; [apply lp_end; [exact Hle| |exact C]|split; [eapply fits_scopes; eauto|exact Y]].
    intros (-> & -> & Hk). apply (holding_empty _ _ _ _ _ _ Hh) in Hk. destruct Hne as [?|[?|?]]; [lia|lia|contradiction].
  Qed.
  Lemma round_end D s m lo w0 left count kids w D' : 0 < left -> obtains D s m w Missed D' ->
    rounds_like D s m lo w0 left count kids w (gathered source "Loop" w0 kids w) D'.
  Proof.
    intros Hlt Hm c i st pt done Hd Hc Hf Hl Hs Hh Hw.
    pose proof (one_step _ _ _ w0 _ _ _ Hm c st pt (pi_name i) _ done kids Hd Hc Hf Hl Hs Hh Hw) as St.
    inversion St as [x0 done' kids' r' st' Hx _ _ _ _|st' Hp F H1 H2|]; subst; [destruct Hx as [(Hx & _)|(Hx & _)]; discriminate|].
    destruct (program_closes _ _ _ _ _ _ _ H1 H2 Hl) as (y & st2 & C & S1 & Y).
    exists y, st2. split; [eapply lp_fail; [exact Hlt|apply Hp|exact C]|]. split; [eapply fits_scopes; eauto|exact Y].
  Qed.
  Lemma round_unknown D s m lo w0 left count kids w id D' : 0 < left -> obtains D s m w (Unknown id) D' ->
    rounds_like D s m lo w0 left count kids w (Unknown id) D'.
  Proof.
    intros Hlt Hm c i st pt done Hd Hc Hf Hl Hs Hh Hw.
    pose proof (one_step _ _ _ w0 _ _ _ Hm c st pt (pi_name i) _ done kids Hd Hc Hf Hl Hs Hh Hw) as St.
    inversion St as [x0 done' kids' r' st' Hx _ _ _ _| |id0 e st' Hp He F]; subst; [destruct Hx as [(Hx & _)|(Hx & _)]; discriminate|].
    eexists _, st'. split; [eapply lp_error; [exact Hlt|apply Hp]|]. split; [exact F|]. rewrite <- He. constructor.
  Qed.
  Lemma round_took D s m lo w0 left count kids w n r y D1 D' : 0 < left -> obtains D s m w (Took n r) D1 ->
    rounds_like D1 s m lo w0 (left - 1) (count + 1) (kids ++ [n]) r y D' -> rounds_like D s m lo w0 left count kids w y D'.
  Proof.
    intros Hlt Hm IH c i st pt done Hd Hc Hf Hl Hs Hh Hw.
    pose proof (one_step _ _ _ w0 _ _ _ Hm c st pt (pi_name i) _ done kids Hd Hc Hf Hl Hs Hh Hw) as St.
    inversion St as [x0 done' kids' r' st' Hx Hp F H1 H2| |]; subst.
    destruct Hx as [(Hx & Hk)|(Hx & _)]; [|discriminate]. injection Hx as Hn <-. rewrite <- Hn in Hk. subst kids'.
    destruct (IH c i st' pt done') as (z & st2 & A1 & A2 & A3); auto.
    exists z, st2. split; [|now split]. eapply lp_next; [exact Hlt| |exact A1]. apply Hp. constructor.
  Qed.
  Lemma round_passed D s m lo w0 left count kids w r y D1 D' : 0 < left -> obtains D s m w (Passed r) D1 ->
    rounds_like D1 s m lo w0 (left - 1) (count + 1) kids r y D' -> rounds_like D s m lo w0 left count kids w y D'.
  Proof.
    intros Hlt Hm IH c i st pt done Hd Hc Hf Hl Hs Hh Hw.
    pose proof (one_step _ _ _ w0 _ _ _ Hm c st pt (pi_name i) _ done kids Hd Hc Hf Hl Hs Hh Hw) as St.
    inversion St as [x0 done' kids' r' st' Hx Hp F H1 H2| |]; subst.
    destruct Hx as [(Hx & Hk)|(Hx & ->)]; [discriminate|]. injection Hx as <-.
    destruct (IH c i st' pt done') as (z & st2 & A1 & A2 & A3); auto.
    exists z, st2. split; [|now split]. eapply lp_next; [exact Hlt| |exact A1]. apply Hp. constructor.
  Qed.

  Definition tries_like (D : book) (s : sid) (ms : list matcher) (w : str) (x : reading) (D' : book) : Prop :=
    forall c st, c_debug c = 0 -> c_off c = mkR (pos w) (slen source) -> fits D st -> left_over w -> V s ->
    exists y st', chooses E P c s ms st (Done y st') /\ fits D' st' /\ yields (heap_size st) st' w x y.

  Lemma try_none D s w : tries_like D s [] w Missed D.
  Proof. intros c st Hd Hc Hf Hl Hs. eexists _, st. split; [constructor|]. split; [exact Hf|constructor]. Qed.
  Lemma try_next D s m ms w x D1 y D' : obtains D s m w x D1 -> x = Missed \/ x = Passed w -> tries_like D1 s ms w y D' ->
    tries_like D s (m :: ms) w y D'.
  Proof.
    intros [_ Hm] Hx IH c st Hd Hc Hf Hl Hs. destruct (Hm c st Hd Hc Hf Hl Hs) as (z & st1 & R & F & Y).
    destruct (IH c st1 Hd Hc F Hl Hs) as (z' & st2 & A1 & A2 & A3). pose proof (runs_size _ _ _ _ _ _ R) as Z.
    exists z', st2. split; [|split; [exact A2|eapply yields_lower; eauto]].
    eapply ch_pass; [exact R| |exact A1]. destruct Hx as [-> | ->]; inversion Y; subst; [now left|].
    right. left. now rewrite Z.sub_diag.
  Qed.
  Lemma try_this D s m ms w x D' : obtains D s m w x D' -> x <> Missed -> x <> Passed w -> tries_like D s (m :: ms) w x D'.
  Proof.
    intros [_ Hm] Hx1 Hx2 c st Hd Hc Hf Hl Hs. destruct (Hm c st Hd Hc Hf Hl Hs) as (z & st1 & R & F & Y).
    exists z, st1. split; [|now split]. eapply ch_decide; [exact R|].
    destruct Y as [a n r Ha Hp|r Hr| |id]; [| |congruence|].
    - constructor. eapply rnd_kind; eauto.
    - constructor. destruct (Z.eq_dec (Z.of_N (pos r) - Z.of_N (pos w)) 0) as [H0|H0].
      + apply passed_zero in H0; [|assumption|assumption]. subst. congruence.
      + pose proof (pos_follows P Hsmall _ _ Hl Hr). lia.
    - apply dec_error.
  Qed.
  Lemma switch_gets D s name ps w x D' : tries_like (noted D s name (KSwitch ps)) s (map meaning ps) w x D' ->
    obtains D s (core_matcher meaning name (KSwitch ps)) w x D'.
  Proof.
    intros H. split; [reflexivity|]. intros c st Hd Hc Hf Hl Hs. cbn [core_matcher].
    set (i := mkPI (given name "Switch") None true (is_given name)).
    destruct (H (pattern_ctx c (pi_name i) (List.length (st_heap st)) (rs (c_off c))) (program_start P (map meaning ps) i s st) Hd)
      as (y & st' & A1 & A2 & A3); auto.
    { cbn. now rewrite Hc. }
    { apply (fits_noted D st _ s name (KSwitch ps)); [assumption|assumption|reflexivity|]. apply is_given_given. }
    exists y, st'. split; [|split; [exact A2|]].
    - apply (switch_does E P c i s st (map meaning ps) (Done y st') Hd); [reflexivity|reflexivity| |exact A1].
      rewrite Hc. cbn [rs]. pose proof (pos_lt P Hsmall w). lia.
    - eapply yields_lower; [|exact A3]. unfold heap_size, program_start. cbn. rewrite app_length. lia.
  Qed.

  (* ---------- scripts as a whole ---------- *)

  Lemma adopt_all pt self hi : forall l ns st lo done off,
    rnd_all st lo hi (Some self) l ns -> (hi <= heap_size st)%nat -> (self < lo)%nat ->
    exists done' off' st', adopts P pt self true l done off st done' off' st' /\
      rnd_all st' lo hi (Some pt) l ns /\ heap_size st' = heap_size st /\ st_scopes st' = st_scopes st /\
      (forall x, ~ (lo <= x < hi)%nat -> tok st' x = tok st x) /\
      all_kids done' = all_kids done ++ l /\ all_cr done' = all_cr done ++ map n_cr ns /\ all_mr done' = all_mr done ++ map n_mr ns.
  Proof.
    induction l as [|a l IH]; intros ns st lo done off H Hh Hs.
    - inversion H; subst. exists done, off, st. cbn [map]. rewrite !app_nil_r. split; [constructor|]. split; [constructor|]. auto 10.
    - inversion H as [|lo0 mid hi0 top0 a0 l0 n ns0 Hm Ha Hl]; subst.
      pose proof (rnd_at _ _ _ _ _ _ Ha) as Hat.
      set (t := set_parent (Some pt) (tok st a)). set (st1 := set_tok st a t).
      assert (Hl1 : rnd_all st1 mid hi (Some self) l ns0).
      { eapply rnd_same; [exact Hl|]. intros x Hx. apply tok_set_other. lia. }
      destruct (IH ns0 st1 mid (done ++ [token_piece a true t]) (re (tk_mr t)) Hl1) as (done' & off' & st' & A1 & A2 & A3 & A4 & A5 & A6 & A7 & A8).
      { unfold st1. rewrite heap_size_set. exact Hh. }
      { lia. }
      assert (Ha1 : rnd st1 lo mid (Some pt) a n) by (apply (rnd_parent _ _ _ (Some self)); [exact Ha|lia]).
      exists done', off', st'. split; [|split; [|split; [|split; [|split; [|split; [|split]]]]]].
      + eapply ad_token; [eapply rnd_kind; eauto|lia|symmetry; eapply rnd_adopted; eauto|exact A1].
      + apply rna_cons with (mid := mid); [lia| |exact A2]. eapply rnd_same; [exact Ha1|]. intros x Hx. apply A5. lia.
      + rewrite A3. apply heap_size_set.
      + rewrite A4. reflexivity.
      + intros x Hx. rewrite A5 by lia. apply tok_set_other. lia.
      + rewrite A6, all_kids_app. cbn. now rewrite <- app_assoc.
      + rewrite A7, all_cr_app. cbn [all_cr flat_map token_piece pc_cr app map]. rewrite <- app_assoc. cbn [app].
        change (tk_cr t) with (tk_cr (tok st a)). now rewrite (rnd_cr _ _ _ _ _ _ Ha).
      + rewrite A8, all_mr_app. cbn [all_mr flat_map token_piece pc_mr app map]. rewrite <- app_assoc. cbn [app].
        change (tk_mr t) with (tk_mr (tok st a)). now rewrite (rnd_mr _ _ _ _ _ _ Ha).
  Qed.
  Lemma hull_self l r : r = hull l -> rs r <= usize_max -> hull (r :: l) = r.
  Proof.
    intros -> H. unfold hull in *. cbn [rs re] in *. cbn [lowest highest fold_right rs re].
    change (fold_right (fun r n => N.min (rs r) n) usize_max l) with (lowest l).
    change (fold_right (fun r n => N.max (re r) n) 0 l) with (highest l). f_equal; lia.
  Qed.
  Lemma hull_within lo hi l : lo < usize_max -> (forall r, In r l -> lo <= rs r /\ re r <= hi) -> hull (mkR lo hi :: l) = mkR lo hi.
  Proof.
    intros Hlt H. unfold hull.
    assert (lo <= lowest l /\ highest l <= hi) as [H1 H2].
    { induction l as [|r l IH]; [cbn; split; lia|].
      destruct (H r) as [G1 G2]; [now left|]. destruct IH as [I1 I2]; [intros r' Hr'; apply H; now right|].
      change (lowest (r :: l)) with (N.min (rs r) (lowest l)). change (highest (r :: l)) with (N.max (re r) (highest l)). lia. }
    change (lowest (mkR lo hi :: l)) with (N.min lo (lowest l)). change (highest (mkR lo hi :: l)) with (N.max hi (highest l)). f_equal; lia.
  Qed.

  Lemma walks_shape D s name ps w0 kids w x D' : walks source D s name ps w0 kids w x D' ->
    x = Missed \/ (exists id, x = Unknown id) \/ exists ks r, ks <> [] /\ x = Took (branch source name w0 ks r) r.
  Proof.
    induction 1 as [D s name w0 kids w| | | |]; eauto.
    unfold gathered. destruct kids as [|k l]; [now left|]. right. right. exists (k :: l), w. split; [discriminate|reflexivity].
  Qed.
  Lemma shape_named name w0 x : (x = Missed \/ (exists id, x = Unknown id) \/ exists ks r, ks <> [] /\ x = Took (branch source name w0 ks r) r) ->
    renamed_as name x = x.
  Proof. intros [->|[[id ->]|(ks & r & _ & ->)]]; reflexivity. Qed.

  Lemma whole_gets D s s1 name ps w x D' : V s1 ->
    walks_like (put D s name (Whole name s1 ps)) s1 (map meaning ps) w [] w x D' ->
    (x = Missed \/ (exists id, x = Unknown id) \/ exists ks r, ks <> [] /\ x = Took (branch source name w ks r) r) ->
    obtains D s (entry_matcher (Whole name s1 ps)) w x D'.
  Proof.
    intros Hv Hw Hx. split; [reflexivity|]. intros c st Hd Hc Hf Hl Hs. cbn [entry_matcher].
    set (ip := mkPI "Program" None false false). set (inner := MProgram (map meaning ps) ip).
    set (m := MSetScope (Some s1) (MProxy inner "Flatten" false)). set (i := mkPI name None false true).
    set (Dp := put D s name (Whole name s1 ps)).
    assert (F0 : fits Dp (program_start P [m] i s st)).
    { apply (fits_after D st _ s true name _ (Whole name s1 ps)); auto. }
    assert (Hin : obtains Dp s1 inner w (renamed_as "Program" x) D').
    { apply (program_gets Dp Dp s1 (map meaning ps) ip); [reflexivity|reflexivity| |exact Hw].
      intros st0 _ Hst0. eapply fits_scopes; [|exact Hst0]. reflexivity. }
    set (pt := List.length (st_heap st)) in *. set (st0 := program_start P [m] i s st) in *.
    pose proof (waiting_start [m] i s st) as Hwait. fold pt st0 in Hwait.
    set (cc := renamed (renamed (pattern_ctx c name pt (pos w)) "SetScope") "Flatten").
    destruct (proj2 Hin cc st0) as (y & st1 & R & F & Y); auto.
    { cbn. now rewrite Hc. }
    pose proof (runs_size _ _ _ _ _ _ R) as Z. pose proof (runs_same _ _ _ _ _ _ R) as T.
    assert (Hm : forall o, Does E P inner cc s1 st0 (Done y st1) ->
              match Done y st1 with
              | Done (Ok (SToken a)) st1 => o = Done (Ok (SProxy a)) st1
              | o0 => o = o0
              end -> (forall b p, y <> Ok (SBreak b p) /\ y <> Ok (SContinue b p)) ->
              Does E P m (pattern_ctx c name pt (pos w)) s st0 o).
    { intros o Ho Hcase Hnb. apply (set_scope_given E P s1 (MProxy inner "Flatten" false) _ s st0 o).
      apply proxy_does. exists (Done y st1). split; [exact Ho|].
      destruct y as [[a|a|z|b p|b p| |]|e]; try exact Hcase; destruct (Hnb b p); congruence. }
    assert (Hfin : forall e o, pass E P c name s pt [m] [] (pos w) st0 e -> leads_to E P pt (pos w) e o ->
              Does E P (MProgram [m] i) c s st o).
    { intros e o He Ho. apply (program_does E P c i s st [m] Hd eq_refl eq_refl e o); rewrite Hc; assumption. }
    destruct Hx as [->|[[id ->]|(ks & r & Hne & ->)]].
    - inversion Y; subst. exists (Err FFail), st1. split; [|split; [exact F|constructor]].
      apply (Hfin (NoMatch [] st1) (Done (Err FFail) st1)); [|constructor].
      apply ps_fail. apply (Hm (Done (Err FFail) st1)); [exact R|reflexivity|split; discriminate].
    - inversion Y; subst. exists (unknown_error id), st1. split; [|split; [exact F|constructor]].
      eapply (Hfin (Fatal _ st1) (Done (unknown_error id) st1)); [|constructor].
      apply ps_error. apply (Hm (Done (unknown_error id) st1)); [exact R|reflexivity|split; discriminate].
    - cbn [renamed_as branch] in Y. inversion Y as [a n r0 Ha Hp| | |]; subst.
      set (n0 := Node (lit "Program") (mkR (start_of source w) (start_of source r))
             match ks with [] => mkR 0 0 | k :: l => mkR (rs (n_cr k)) (re (n_cr (last l k))) end
             (between source (rs match ks with [] => mkR 0 0 | k :: l => mkR (rs (n_cr k)) (re (n_cr (last l k))) end)
                (re match ks with [] => mkR 0 0 | k :: l => mkR (rs (n_cr k)) (re (n_cr (last l k))) end)) [] ks) in *.
      destruct Hp as (P1 & P2 & P3 & P4 & P5). cbn [n_kids n0] in P5.
      inversion Ha as [lo0 hi0 top0 a0 nn mr0 cr0 raw0 at0 ks0 G1 G2 G3 G4 G5 G6 G7 G8 G9 G10 G11 G12]; subst.
      destruct (adopt_all pt a (heap_size st1) (tk_kids (tok st1 a)) ks st1 (S a)
                  ([] ++ [mkPiece [] [tk_cr (tok st1 a)] [tk_mr (tok st1 a)]]) (re (tk_mr (tok st1 a))) G12)
        as (done' & off' & st2 & A1 & A2 & A3 & A4 & A5 & A6 & A7 & A8); [lia|lia|].
      destruct Hwait as [W1 W2].
      assert (Hlr : left_over r) by (eapply left_follows; eauto).
      assert (W' : waiting pt name st2).
      { split; [lia|]. rewrite A5 by lia. rewrite T by exact W1. exact W2. }
      destruct ks as [|k l]; [congruence|].
      destruct (ordered_hull _ _ _ _ P5 (pos_lt P Hsmall r)) as (U1 & U2 & U3 & U4).
      pose proof (pos_lt P Hsmall w) as Hlt. pose proof (pos_lt P Hsmall r) as Hlt'.
      assert (C1 : hull (all_cr done') = hull (map n_cr (k :: l))).
      { rewrite A7, G8. cbn [all_cr flat_map pc_cr app]. rewrite <- U1.
        rewrite hull_self; [reflexivity|reflexivity|]. rewrite U1. cbn [rs]. lia. }
      assert (C2 : hull (all_mr done') = mkR (pos w) (pos r)).
      { rewrite A8, G7. cbn [all_mr flat_map pc_mr app]. apply hull_within; [exact Hlt|]. now apply ordered_mr. }
      assert (C3 : rnd_all st2 (S pt) (heap_size st2) (Some pt) (all_kids done') (k :: l)).
      { rewrite A6. cbn [all_kids flat_map pc_kids app]. rewrite A3. eapply rnd_wide; [exact A2|lia|lia]. }
      destruct (branch_rnd st2 pt name done' (k :: l) w r C3 Hne C1 C2 P5 W' Hlr Hl P1 P2) as (B1 & B2).
      exists (Ok (SToken pt)), (set_tok st2 pt (filled P done' (tok st2 pt))). split; [|split].
      + apply (Hfin (AllDone done' off' st2) (Done (Ok (SToken pt)) (set_tok st2 pt (filled P done' (tok st2 pt))))).
        * eapply ps_next; [apply (Hm (Done (Ok (SProxy a)) st1)); [exact R|reflexivity|split; discriminate]| |apply ps_done].
          cbn [m_consuming m]. apply ct_proxy; [exact G2|exact A1].
        * apply lt_all. apply cl_token. split; [|split].
          -- rewrite A6. cbn [all_kids flat_map pc_kids app]. eapply rnd_all_some; eauto.
          -- assert (L : lowest (all_cr done') = rs (n_cr k)) by (rewrite U1 in C1; exact (f_equal rs C1)). lia.
          -- assert (L : lowest (all_mr done') = pos w) by exact (f_equal rs C2). lia.
      + eapply fits_scopes; [|exact F]. cbn. exact A4.
      + constructor; [exact B1|exact B2].
  Qed.

  (* ---------- all of them ---------- *)

  Theorem patterns_get :
    (forall D s p w x D', reads source D s p w x D' -> obtains D s (meaning p) w x D') /\
    (forall D s name o i k l r w x D', layers source D s name o i k l r w x D' -> obtains D s (defined name o i k l r) w x D') /\
    (forall D s name i k l lo w0 left count kids w x D', rounds source D s name i k l lo w0 left count kids w x D' ->
       rounds_like D s (signed i (attributed l (core_matcher meaning name k))) lo w0 left count kids w x D') /\
    (forall D s name k w x D', reads_core source D s name k w x D' -> obtains D s (core_matcher meaning name k) w x D') /\
    (forall D s ps w x D', tries source D s ps w x D' -> tries_like D s (map meaning ps) w x D') /\
    (forall D s name ps w0 kids w x D', walks source D s name ps w0 kids w x D' -> walks_like D s (map meaning ps) w0 kids w x D') /\
    (forall D s e w x D', enters_entry source D s e w x D' -> entry_in e -> obtains D s (entry_matcher e) w x D').
  Proof.
    apply reads_mutind.
    - intros D s o i k l r w x D' _ IH. cbn [meaning]. now apply dropped_gets.
    - intros D s c o i k l r w x D' Hc _ IH. destruct c; [congruence| |]; exact IH.
    - intros D s name o i k l w x D' _ IH. unfold defined. cbn [repeated bounds].
      apply signed_gets. unfold repeated. cbn [bounds]. apply signed_gets, labelled_gets, IH.
    - intros D s name o i k l r lo hi w x D' Hb _ IH. unfold defined. apply signed_gets. eapply rounds_gets; eauto.
    - intros D s name i k l w. apply round_none.
    - intros. now apply round_short.
    - intros. now apply round_full.
    - intros D s name i k l lo w0 left count kids w x D' Hlt _ IH Hx. apply round_end; [exact Hlt|]. rewrite <- Hx.
      now apply signed_gets, labelled_gets.
    - intros D s name i k l lo w0 left count kids w x D' id Hlt _ IH Hx. apply round_unknown; [exact Hlt|]. rewrite <- Hx.
      now apply signed_gets, labelled_gets.
    - intros D s name i k l lo w0 left count kids w x D1 n r y D' Hlt _ IH Hx _ IH2.
      eapply round_took; [exact Hlt| |exact IH2]. rewrite <- Hx. now apply signed_gets, labelled_gets.
    - intros D s name i k l lo w0 left count kids w x D1 r y D' Hlt _ IH Hx _ IH2.
      eapply round_passed; [exact Hlt| |exact IH2]. rewrite <- Hx. now apply signed_gets, labelled_gets.
    - intros. now apply text_found.
    - intros. now apply text_missed.
    - intros. now apply sequence_done.
    - intros. now apply sequence_missed.
    - intros. now apply regex_found.
    - intros. now apply regex_nothing.
    - intros. now apply regex_missed.
    - intros D s name id e w x D' He _ IH. eapply name_gets; eauto.
    - intros. now apply unknown_gets.
    - intros D s name ps w x D' _ IH. now apply switch_gets.
    - intros D s name ps w x D' Hw IH. rewrite <- (shape_named (given name "Program") w x (walks_shape _ _ _ _ _ _ _ _ _ Hw)).
      apply (program_gets D (noted D s name (KProgram ps)) s (map meaning ps) (mkPI (given name "Program") None false (is_given name)));
        [reflexivity|reflexivity| |exact IH].
      intros st Hs Hf. apply (fits_noted D st _ s name (KProgram ps)); [assumption|assumption|reflexivity|]. apply is_given_given.
    - intros. apply try_none.
    - intros D s p ps w x D1 y D' _ IH Hx _ IH2. eapply try_next; eauto.
    - intros D s p ps w x D' _ IH H1 H2. now apply try_this.
    - intros. apply walk_done.
    - intros. eapply walk_took; eauto.
    - intros. eapply walk_passed; eauto.
    - intros. now apply walk_missed.
    - intros. now apply walk_unknown.
    - intros D s name o i k l r w x D' _ IH _. exact IH.
    - intros D s s1 e name w x D' _ IH [Hv He]. cbn [entry_matcher]. apply scoped_gets; [exact Hv|]. apply renamed_gets. auto.
    - intros D s s1 name ps w x D' Hw IH Hv. apply whole_gets; [exact Hv|exact IH|]. eapply walks_shape; eauto.
  Qed.
End Match.
