(* What parsing a given text yields, as trees that do not mention addresses,
   and how it is composed from the parts of a grammar. *)
From Verif Require Export TextProofs ProgramProofs FrameProofs LoopProofs MapProofs FetchProofs WrapProofs.
Open Scope string_scope.
Open Scope list_scope.
Open Scope N_scope.

(* What is known of a token besides its name, children and end: its value, its
   captured text, the text it starts at, and its attributes (and then that no
   value was set by hand). *)
Record info := mkInfo {
  i_value : option str;
  i_cvalue : option str;
  i_from : option str;
  i_attrs : option (list (str * str))
}.
Definition no_info : info := mkInfo None None None None.
Definition no_attrs : info := mkInfo None None None (Some []).
Definition leaf (v cv w : str) : info := mkInfo (Some v) (Some cv) (Some w) None.

(* A token tree: its name, what is known of it, its children, and the text that
   follows it. *)
Inductive tree := Tr (name : str) (text : info) (kids : list tree) (rest : str).
Definition t_name (t : tree) : str := let (n, _, _, _) := t in n.
Definition t_text (t : tree) : info := let (_, x, _, _) := t in x.
Definition t_kids (t : tree) : list tree := let (_, _, k, _) := t in k.
Definition t_rest (t : tree) : str := let (_, _, _, r) := t in r.

(* results; a skip is given by the text that follows *)
Inductive found :=
| FTree (t : tree)
| FProxy (t : tree)
| FSkip (rest : str)
| FLook
| FNone
| FBreak (n : str) (p : found).

Section Sees.
  Variables (E : env) (P : parser) (s : sid).
  Hypothesis HE : tame E.
  Hypothesis Hascii : ascii_only (p_src P).
  Hypothesis Hsmall : slen (p_src P) < isize_bound.

  Definition pos (w : str) : N := slen (p_src P) - slen w.
  (* [w] is what is left of the source *)
  Definition left_over (w : str) : Prop := exists pre, p_src P = pre ++ w.
  (* [r] is what is left of [w] *)
  Definition follows (w r : str) : Prop := exists x, w = x ++ r.

  Lemma left_follows w r : left_over w -> follows w r -> left_over r.
  Proof. intros [pre H] [x ->]. exists (pre ++ x). now rewrite <- app_assoc. Qed.
  Lemma follows_len w r : follows w r -> slen r <= slen w.
  Proof. intros [x ->]. rewrite slen_app. lia. Qed.
  Lemma follows_refl w : follows w w.
  Proof. now exists []. Qed.
  Lemma follows_app w r : follows (w ++ r) r.
  Proof. now exists w. Qed.
  Lemma follows_trans a b d : follows a b -> follows b d -> follows a d.
  Proof. intros [x ->] [y ->]. exists (x ++ y). now rewrite app_assoc. Qed.
  Lemma left_len w : left_over w -> slen w <= slen (p_src P).
  Proof. intros [pre H]. rewrite H, slen_app. lia. Qed.
  Lemma left_window w : left_over w -> window (p_src P) (pos w) (slen (p_src P)) w.
  Proof.
    intros [pre H]. exists pre, []. rewrite app_nil_r. split; [exact H|]. unfold pos. rewrite H, slen_app. split; [lia|reflexivity].
  Qed.
  Lemma left_sliceable w : left_over w -> sliceable (p_src P) (mkR (pos w) (slen (p_src P))).
  Proof.
    intros H. apply left_len in H. unfold pos. split; [cbn; lia|]. split; [cbn; lia|]. cbn.
    split; apply ascii_boundary; auto; lia.
  Qed.
  Lemma pos_lt w : pos w < usize_max.
  Proof. pose proof Hsmall as H. unfold pos, isize_bound, usize_max in *. lia. Qed.
  Lemma pos_small w : pos w < isize_bound.
  Proof. pose proof Hsmall as H. unfold pos, isize_bound in *. lia. Qed.
  Lemma pos_inj w r : left_over w -> left_over r -> pos w = pos r -> slen w = slen r.
  Proof. intros H1 H2. apply left_len in H1, H2. unfold pos. lia. Qed.

  (* ---------- trees in a state ---------- *)

  Definition maybe {A} (o : option A) (Q : A -> Prop) : Prop := match o with Some v => Q v | None => True end.
  Definition text_is (i : info) (t : token) : Prop :=
    maybe (i_value i) (fun v => get_value t = v) /\ maybe (i_cvalue i) (fun v => get_cvalue t = v) /\
    maybe (i_from i) (fun w => rs (tk_mr t) = pos w) /\
    maybe (i_attrs i) (fun l => tk_attrs t = l /\ tk_value t = None).

  (* the captured range: inside of the matched one, or that of the children *)
  Definition span (st : state) (l : list addr) : range := hull (map (fun k => tk_cr (tok st k)) l).
  Definition framed (st : state) (t : token) : Prop :=
    match tk_kids t with
    | [] => rs (tk_mr t) <= rs (tk_cr t) /\ re (tk_cr t) <= re (tk_mr t) /\ rs (tk_cr t) + slen (tk_cvalue t) = re (tk_cr t)
    | l => tk_cr t = span st l /\ tk_cvalue t = range_text P (tk_cr t)
    end.

  Inductive shows (h : nat) (st : state) : addr -> tree -> Prop :=
  | sh a name text kids rest :
      (h <= a < heap_size st)%nat -> tk_kind (tok st a) = KStandard -> is_error (tok st a) = false ->
      tk_name (tok st a) = name -> text_is text (tok st a) ->
      rs (tk_cr (tok st a)) < usize_max -> rs (tk_mr (tok st a)) < usize_max ->
      re (tk_mr (tok st a)) = pos rest -> left_over rest ->
      shows_all h st (tk_kids (tok st a)) kids -> framed st (tok st a) ->
      rs (tk_mr (tok st a)) <= re (tk_mr (tok st a)) ->
      shows h st a (Tr name text kids rest)
  with shows_all (h : nat) (st : state) : list addr -> list tree -> Prop :=
  | sa_nil : shows_all h st [] []
  | sa_cons a l t ts : shows h st a t -> shows_all h st l ts -> shows_all h st (a :: l) (t :: ts).
  Scheme shows_ind2 := Minimality for shows Sort Prop
    with shows_all_ind2 := Minimality for shows_all Sort Prop.
  Combined Scheme shows_mind from shows_ind2, shows_all_ind2.

  (* what is shown of a token *)
  Definition alike (t t' : token) : Prop :=
    tk_kind t' = tk_kind t /\ tk_name t' = tk_name t /\ tk_value t' = tk_value t /\ tk_cvalue t' = tk_cvalue t /\
    tk_cr t' = tk_cr t /\ tk_mr t' = tk_mr t /\ tk_kids t' = tk_kids t /\ tk_flags t' = tk_flags t /\
    tk_attrs t' = tk_attrs t.
  Lemma alike_refl t : alike t t.
  Proof. unfold alike. auto 10. Qed.
  Lemma alike_trans t t' t'' : alike t t' -> alike t' t'' -> alike t t''.
  Proof.
    intros (A1 & A2 & A3 & A4 & A5 & A6 & A7 & A8 & A9) (B1 & B2 & B3 & B4 & B5 & B6 & B7 & B8 & B9).
    repeat split; congruence.
  Qed.
  Lemma alike_parent p t : alike t (set_parent p t).
  Proof. unfold alike. cbn. auto 10. Qed.
  Lemma alike_value t t' : alike t t' -> get_value t' = get_value t /\ get_cvalue t' = get_cvalue t.
  Proof.
    intros (A1 & A2 & A3 & A4 & A5 & A6 & A7 & A8 & A9). unfold get_value, get_cvalue, get_attr.
    now rewrite A1, A3, A4, A9.
  Qed.
  Lemma alike_text o t t' : alike t t' -> text_is o t -> text_is o t'.
  Proof.
    intros A (H1 & H2 & H3 & H4). destruct (alike_value _ _ A) as [V1 V2].
    destruct A as (A1 & A2 & A3 & A4 & A5 & A6 & A7 & A8 & A9).
    unfold text_is. rewrite V1, V2, A3, A6, A9. auto.
  Qed.

  (* the tokens from [lo] to [hi] look as before *)
  Definition same_looks (lo : nat) (st st' : state) : Prop :=
    (heap_size st <= heap_size st')%nat /\ forall a, (lo <= a < heap_size st)%nat -> alike (tok st a) (tok st' a).

  Lemma sees_all_in h st l ts : shows_all h st l ts -> forall k, In k l -> exists t, shows h st k t.
  Proof. induction 1; intros k Hin; [contradiction|]. destruct Hin as [<-|Hk]; eauto. Qed.
  Lemma span_same h st st' l ts : same_looks h st st' -> shows_all h st l ts -> span st' l = span st l.
  Proof.
    intros [_ H] Hl. unfold span. f_equal. apply map_ext_in. intros k Hk.
    destruct (sees_all_in _ _ _ _ Hl _ Hk) as [t Ht]. inversion Ht; subst.
    destruct (H k ltac:(assumption)) as (_ & _ & _ & _ & -> & _). reflexivity.
  Qed.
  Lemma framed_same h st st' t t' ts : same_looks h st st' -> shows_all h st (tk_kids t) ts -> alike t t' ->
    framed st t -> framed st' t'.
  Proof.
    intros H Hl (A1 & A2 & A3 & A4 & A5 & A6 & A7 & A8 & A9). unfold framed. rewrite A4, A5, A6, A7.
    destruct (tk_kids t) as [|k l] eqn:E0; [auto|]. now rewrite (span_same _ _ _ _ _ H Hl).
  Qed.

  Lemma shows_same h st st' : same_looks h st st' ->
    (forall a t, shows h st a t -> shows h st' a t) /\ (forall l ts, shows_all h st l ts -> shows_all h st' l ts).
  Proof.
    intros [H1 H2]. apply shows_mind.
    - intros a name text kids rest Ha K Er Nm Tx Cr Mr St Lo Ks IH Fr Up.
      pose proof (H2 a Ha) as A. pose proof A as (A1 & A2 & A3 & A4 & A5 & A6 & A7 & A8 & A9).
      constructor; try congruence; try lia.
      + unfold is_error in *. now rewrite A8.
      + now apply (alike_text _ _ _ A).
      + now apply (framed_same h st st' (tok st a) (tok st' a) kids (conj H1 H2)).
    - constructor.
    - intros. now constructor.
  Qed.
  Lemma shows_lower h h' st : (h' <= h)%nat ->
    (forall a t, shows h st a t -> shows h' st a t) /\ (forall l ts, shows_all h st l ts -> shows_all h' st l ts).
  Proof.
    intros Hh. apply shows_mind.
    - intros. constructor; auto; lia.
    - constructor.
    - intros. now constructor.
  Qed.
  Lemma shows_all_app h st l l' ts ts' : shows_all h st l ts -> shows_all h st l' ts' ->
    shows_all h st (l ++ l') (ts ++ ts').
  Proof. intros H H'. induction H; cbn [app]; [exact H'|]. now constructor. Qed.
  Lemma shows_all_nil h st l : shows_all h st l [] -> l = [].
  Proof. inversion 1; reflexivity. Qed.
  Lemma shows_all_some h st l t ts : shows_all h st l (t :: ts) -> l <> [].
  Proof. inversion 1; discriminate. Qed.

  (* a shown tree has no errors in it *)
  Lemma shows_clean h st :
    (forall a t, shows h st a t -> errors_below st a []) /\
    (forall l ts, shows_all h st l ts -> exists all, preorder st l all /\ [] = filter (fun x => is_error (tok st x)) all).
  Proof.
    apply shows_mind.
    - intros a name text kids rest Ha K Er Nm Tx Cr Mr St Lo Ks (all & IH1 & IH2) Fr Up.
      exists (a :: all). split; [now apply preorder_one|]. cbn [filter]. now rewrite Er.
    - exists []. split; [constructor|reflexivity].
    - intros a l t ts Ha (all & H1 & H2) Hl (all' & H3 & H4).
      inversion H1 as [|a0 roots l1 l2 Hk Hn]; subst. inversion Hn; subst. rewrite app_nil_r in *.
      exists (a :: l1 ++ all'). split; [now constructor|].
      cbn [filter] in *. rewrite filter_app. destruct (is_error (tok st a)); [discriminate|]. now rewrite <- H2, <- H4.
  Qed.

  (* ---------- results ---------- *)

  (* [gives h st w p x]: started on the text [w], the result is [x] *)
  Inductive gives (h : nat) (st : state) (w : str) : found -> success -> Prop :=
  | gv_tree a t : shows h st a t -> follows w (t_rest t) -> gives h st w (FTree t) (SToken a)
  | gv_proxy a t : shows h st a t -> follows w (t_rest t) -> t_kids t <> [] -> gives h st w (FProxy t) (SProxy a)
  | gv_skip r : follows w r -> gives h st w (FSkip r) (SSkip (Z.of_N (pos r) - Z.of_N (pos w)))
  | gv_look a : (h <= a < heap_size st)%nat -> tk_kind (tok st a) = KPin -> gives h st w FLook (SToken a)
  | gv_none : gives h st w FNone SNone
  | gv_break n p x : gives h st w p x -> gives h st w (FBreak n p) (SBreak n x).

  Lemma gives_same h st st' w p x : same_looks h st st' -> gives h st w p x -> gives h st' w p x.
  Proof.
    intros H G. induction G as [a t Ha Hf|a t Ha Hf Hkn|r Hf|a Ha Hp| |n p x G IH].
    - constructor; auto. now apply (shows_same h st st' H).
    - constructor; auto. now apply (shows_same h st st' H).
    - now constructor.
    - destruct H as [H1 H2]. constructor; [lia|]. destruct (H2 a ltac:(lia)) as (-> & _). assumption.
    - constructor.
    - now constructor.
  Qed.

  Definition outcome_is (h : nat) (st : state) (w : str) (r : option found) (x : mres) : Prop :=
    match r, x with
    | Some p, Ok y => gives h st w p y
    | None, Err FFail => True
    | _, _ => False
    end.

  (* names that are known while parsing *)
  Definition known (B : list (str * variable)) (st : state) : Prop :=
    valid_scope st s /\ forall x v, In (x, v) B -> sc_get st s x = Some v.
  (* a matcher that makes itself known does not hide one of them *)
  Definition own_ok (B : list (str * variable)) (custom : bool) (name : str) (m : matcher) : Prop :=
    custom = true -> forall v, In (name, v) B -> v = VMatcher m.

  Lemma known_scopes B st st' : st_scopes st' = st_scopes st -> known B st -> known B st'.
  Proof. intros H [H1 H2]. unfold known, valid_scope, sc_get, stack_of in *. rewrite H. auto. Qed.
  Lemma known_set B st name m : known B st -> own_ok B true name m -> known B (sc_set st s name (VMatcher m)).
  Proof.
    intros [H1 H2] Ho. split; [now apply valid_set|]. intros x v Hin.
    destruct (list_eq_dec Ascii.ascii_dec name x) as [->|Hne].
    - rewrite (Ho eq_refl v Hin). now apply get_set_same.
    - rewrite get_set_other by auto. now apply H2.
  Qed.
  Lemma known_after B st h custom name m : known B st -> own_ok B custom name m ->
    known B (mkSt h (scopes_after st s custom name m)).
  Proof.
    intros Hk Ho. unfold scopes_after. destruct custom.
    - eapply known_scopes; [|apply known_set; eauto]. reflexivity.
    - eapply known_scopes; [|exact Hk]. reflexivity.
  Qed.
  Lemma known_sub B B' st : (forall x, In x B' -> In x B) -> known B st -> known B' st.
  Proof. intros H [H1 H2]. split; auto. Qed.

  Variable B : list (str * variable).

  (* [sees m w r]: executed on the text [w], the matcher [m] gives [r] *)
  Definition sees (m : matcher) (w : str) (r : option found) : Prop :=
    forall c st, c_debug c = 0 -> c_off c = mkR (pos w) (slen (p_src P)) -> known B st -> left_over w ->
    exists x st', Runs E P m c s st x st' /\ known B st' /\ outcome_is (heap_size st) st' w r x.

  (* [m] gives up with the error [e] on the text [w] *)
  Definition dies (m : matcher) (w : str) (e : parse_error) : Prop :=
    forall c st, c_debug c = 0 -> c_off c = mkR (pos w) (slen (p_src P)) -> known B st -> left_over w ->
    exists st', Runs E P m c s st (Err (FError e)) st'.

  Lemma outcome_same h st st' w r x : same_looks h st st' -> outcome_is h st w r x -> outcome_is h st' w r x.
  Proof. intros H. destruct r, x as [y|[]]; cbn; auto. now apply gives_same. Qed.

  (* the state after a new token was made *)
  Lemma looks_new h st t sc : same_looks h st (mkSt (st_heap st ++ [t]) sc).
  Proof.
    split; [unfold heap_size; cbn; rewrite app_length; lia|]. intros a Ha.
    assert (tok (mkSt (st_heap st ++ [t]) sc) a = tok st a) as ->; [|apply alike_refl].
    unfold tok. cbn. rewrite app_nth1 by (unfold heap_size in *; lia). reflexivity.
  Qed.
  Lemma looks_scopes h st sc : same_looks h st (mkSt (st_heap st) sc).
  Proof. split; [unfold heap_size; cbn; lia|]. intros a _. apply alike_refl. Qed.
  Lemma looks_trans h st st' st'' : same_looks h st st' -> same_looks h st' st'' -> same_looks h st st''.
  Proof.
    intros [H1 H2] [H3 H4]. split; [lia|]. intros a Ha. eapply alike_trans; [apply H2; lia|apply H4; lia].
  Qed.
  Lemma looks_refl h st : same_looks h st st.
  Proof. split; [lia|]. intros. apply alike_refl. Qed.
  Lemma looks_preserved h st st' : preserved (heap_size st) st st' -> same_looks h st st'.
  Proof. intros [H1 H2]. split; [exact H1|]. intros a Ha. rewrite H2 by lia. apply alike_refl. Qed.
  Lemma looks_lower h h' st st' : (h' <= h)%nat -> same_looks h' st st' -> same_looks h st st'.
  Proof. intros Hh [H1 H2]. split; [exact H1|]. intros a Ha. apply H2. lia. Qed.

  (* a new leaf *)
  Lemma shows_new st t sc name text w r :
    tk_kind t = KStandard -> tk_name t = name -> text_is text t -> tk_flags t = 0 -> tk_kids t = [] ->
    rs (tk_cr t) < usize_max -> rs (tk_mr t) < usize_max -> re (tk_mr t) = pos r -> left_over w -> follows w r ->
    rs (tk_mr t) <= rs (tk_cr t) -> re (tk_cr t) <= re (tk_mr t) -> rs (tk_cr t) + slen (tk_cvalue t) = re (tk_cr t) ->
    shows (heap_size st) (mkSt (st_heap st ++ [t]) sc) (List.length (st_heap st)) (Tr name text [] r).
  Proof.
    intros. assert (Ht : tok (mkSt (st_heap st ++ [t]) sc) (List.length (st_heap st)) = t).
    { unfold tok. cbn. rewrite app_nth2 by lia. now rewrite Nat.sub_diag. }
    constructor; rewrite ?Ht; auto.
    - unfold heap_size. cbn. rewrite app_length. cbn. lia.
    - unfold is_error. rewrite H2. reflexivity.
    - now apply (left_follows w).
    - rewrite H3. constructor.
    - unfold framed. rewrite H3. auto.
    - lia.
  Qed.

  (* ---------- leaves ---------- *)

  Lemma sees_equals v name custom r : v <> [] -> own_ok B custom name (MEquals (FStr v) name custom) ->
    sees (MEquals (FStr v) name custom) (v ++ r) (Some (FTree (Tr name (leaf v v (v ++ r)) [] r))).
  Proof.
    intros Hv Ho c st Hd Hc Hk Hl.
    destruct (equals_found E P v name custom c s st r Hd) as (t & D & T & Tx); auto.
    - rewrite Hc. now apply left_sliceable.
    - rewrite Hc. now apply left_window.
    - destruct T as (T1 & T2 & T3 & T4 & T5 & T6 & T7 & T8 & T9). destruct (Tx Hascii) as [X1 X2].
      eexists _, _. split; [exact D|]. split; [now apply known_after|].
      constructor; [|apply follows_app].
      eapply (shows_new st t _ name (leaf v v (v ++ r)) (v ++ r) r); auto using follows_app.
      + split; [|split; [|split; [|exact Logic.I]]]; cbn [leaf maybe i_value i_cvalue i_from].
        * unfold get_value, get_attr, get_cvalue. now rewrite T1, T7, T8, X1.
        * unfold get_cvalue. now rewrite T1.
        * now rewrite T4, Hc.
      + rewrite T3. rewrite Hc. cbn [rs]. apply pos_lt.
      + rewrite T4. rewrite Hc. cbn [rs]. apply pos_lt.
      + rewrite T4, Hc. cbn [rs re]. apply left_len in Hl. unfold pos. rewrite slen_app in *. lia.
      + rewrite T3, T4. cbn [rs re]. lia.
      + rewrite T3, T4. cbn [rs re]. lia.
      + rewrite T3, X1. cbn [rs re]. lia.
  Qed.
  Lemma sees_equals_not v name custom w : ~ has_prefix v w -> own_ok B custom name (MEquals (FStr v) name custom) ->
    sees (MEquals (FStr v) name custom) w None.
  Proof.
    intros Hv Ho c st Hd Hc Hk Hl. eexists _, _. split; [|split; [now apply (known_after B st (st_heap st) custom name _ Hk Ho)|]].
    - apply equals_not_found; auto.
      + rewrite Hc. now apply left_sliceable.
      + right. intros [r Hr]. rewrite Hc in Hr. cbn [rs re] in Hr. pose proof (left_window w Hl) as Hw.
        apply Hv. exists r. eapply window_unique; eauto.
    - exact Logic.I.
  Qed.
  Lemma sees_matches f name custom x r : f (x ++ r) = Some (0, slen x) -> x <> [] ->
    own_ok B custom name (MMatches f name custom) ->
    sees (MMatches f name custom) (x ++ r) (Some (FTree (Tr name (leaf x x (x ++ r)) [] r))).
  Proof.
    intros Hf Hx Ho c st Hd Hc Hk Hl.
    apply slen_pos in Hx as Lx.
    destruct (matches_found E P f name custom c s st (x ++ r) (slen x)) as (t & D & T & Tx); auto; try lia.
    - rewrite Hc. now apply left_sliceable.
    - rewrite Hc. now apply left_window.
    - destruct T as (T1 & T2 & T3 & T4 & T5 & T6 & T7 & T8 & T9).
      destruct (Tx Hascii) as (r' & X1 & X2 & X3); [rewrite slen_app; lia|].
      assert (tk_cvalue t = x) as X4.
      { symmetry. apply (app_inj_len x r (tk_cvalue t) r'); auto. }
      eexists _, _. split; [exact D|]. split; [now apply known_after|].
      constructor; [|apply follows_app].
      eapply (shows_new st t _ name (leaf x x (x ++ r)) (x ++ r) r); auto using follows_app.
      + split; [|split; [|split; [|exact Logic.I]]]; cbn [leaf maybe i_value i_cvalue i_from].
        * unfold get_value, get_attr, get_cvalue. now rewrite T1, T7, T8, X4.
        * unfold get_cvalue. now rewrite T1.
        * now rewrite T4, Hc.
      + rewrite T3. rewrite Hc. cbn [rs]. apply pos_lt.
      + rewrite T4. rewrite Hc. cbn [rs]. apply pos_lt.
      + rewrite T4, Hc. cbn [rs re]. apply left_len in Hl. unfold pos. rewrite slen_app in *. lia.
      + rewrite T3, T4. cbn [rs re]. lia.
      + rewrite T3, T4. cbn [rs re]. lia.
      + rewrite T3, X4. cbn [rs re]. lia.
  Qed.
  Lemma sees_matches_empty f name custom w : f w = Some (0, 0) ->
    own_ok B custom name (MMatches f name custom) -> sees (MMatches f name custom) w (Some (FSkip w)).
  Proof.
    intros Hf Ho c st Hd Hc Hk Hl.
    pose proof (matches_empty E P f name custom c s st w Hd) as D. cbn zeta in D.
    eexists _, _. split; [apply D|].
    - rewrite Hc. now apply left_sliceable.
    - rewrite Hc. now apply left_window.
    - exact Hf.
    - split; [now apply known_after|]. cbn. replace 0%Z with (Z.of_N (pos w) - Z.of_N (pos w))%Z by lia.
      constructor. apply follows_refl.
  Qed.
  Lemma sees_matches_not f name custom w : (forall n, f w <> Some (0, n)) ->
    own_ok B custom name (MMatches f name custom) -> sees (MMatches f name custom) w None.
  Proof.
    intros Hf Ho c st Hd Hc Hk Hl.
    pose proof (matches_not_found E P f name custom c s st w Hd) as D. cbn zeta in D.
    eexists _, _. split; [apply D|].
    - rewrite Hc. now apply left_sliceable.
    - rewrite Hc. now apply left_window.
    - exact Hf.
    - split; [now apply known_after|exact Logic.I].
  Qed.
  Lemma sees_sequence sp ep esc name custom raw v r : sp <> [] -> ep <> [] ->
    scans ep esc (raw ++ ep ++ r) raw v -> own_ok B custom name (MSequence (FStr sp) (FStr ep) (FStr esc) name custom) ->
    sees (MSequence (FStr sp) (FStr ep) (FStr esc) name custom) (sp ++ raw ++ ep ++ r)
      (Some (FTree (Tr name (leaf v raw (sp ++ raw ++ ep ++ r)) [] r))).
  Proof.
    intros Hsp Hep Hs Ho c st Hd Hc Hk Hl.
    destruct (sequence_found E P sp ep esc name custom c s st (raw ++ ep ++ r) raw v) as (t & D & T); auto.
    - rewrite Hc. now apply left_window.
    - destruct T as (T1 & T2 & T3 & T4 & T5 & T6 & T7 & T8 & T9 & T10).
      assert (Hf : follows (sp ++ raw ++ ep ++ r) r).
      { exists (sp ++ raw ++ ep). now rewrite <- !app_assoc. }
      eexists _, _. split; [exact D|]. split; [now apply known_after|].
      constructor; [|exact Hf].
      apply left_len in Hl as Hl'. rewrite !slen_app in Hl'.
      eapply (shows_new st t _ name (leaf v raw (sp ++ raw ++ ep ++ r)) (sp ++ raw ++ ep ++ r) r); auto.
      + split; [|split; [|split; [|exact Logic.I]]]; cbn [leaf maybe i_value i_cvalue i_from].
        * exact T4.
        * unfold get_cvalue. now rewrite T7.
        * now rewrite T2, Hc.
      + rewrite T3, Hc. cbn [rs]. unfold pos. rewrite !slen_app. pose proof Hsmall. unfold isize_bound, usize_max in *. lia.
      + rewrite T2, Hc. cbn [rs]. apply pos_lt.
      + rewrite T2, Hc. cbn [rs re]. unfold pos. rewrite !slen_app. lia.
      + rewrite T2, T3, Hc. cbn [rs re]. lia.
      + rewrite T2, T3, Hc. cbn [rs re]. lia.
      + rewrite T3, T5. cbn [rs re]. lia.
  Qed.
  Lemma sees_sequence_not sp ep esc name custom w : sp <> [] -> ep <> [] -> ~ has_prefix sp w ->
    own_ok B custom name (MSequence (FStr sp) (FStr ep) (FStr esc) name custom) ->
    sees (MSequence (FStr sp) (FStr ep) (FStr esc) name custom) w None.
  Proof.
    intros Hsp Hep Hn Ho c st Hd Hc Hk Hl.
    eexists _, _. split; [|split; [now apply (known_after B st (st_heap st) custom name _ Hk Ho)|]].
    - apply (sequence_not_found E P sp ep esc name custom c s st w); auto.
      + rewrite Hc. now apply left_window.
      + intros text raw v -> _. apply Hn. now exists text.
    - exact Logic.I.
  Qed.
  Lemma sees_break n w : sees (MBreak n) w (Some (FBreak n FNone)).
  Proof.
    intros c st Hd Hc Hk Hl. exists (Ok (SBreak n SNone)), st. split; [apply break_signals|]. split; [exact Hk|].
    cbn. constructor. constructor.
  Qed.

  (* ---------- combinators without patterns of their own ---------- *)

  Lemma sees_optional m w p : sees m w (Some p) -> sees (MOptional m) w (Some p).
  Proof.
    intros H c st Hd Hc Hk Hl. destruct (H (clone_with_name c "Optional") st Hd Hc Hk Hl) as (x & st' & D & K & O).
    exists x, st'. split; [|auto]. apply optional_runs. right. split; [|exact D]. intros ->. exact O.
  Qed.
  Lemma sees_optional_not m w : sees m w None -> sees (MOptional m) w (Some (FSkip w)).
  Proof.
    intros H c st Hd Hc Hk Hl. destruct (H (clone_with_name c "Optional") st Hd Hc Hk Hl) as (x & st' & D & K & O).
    exists (Ok (SSkip 0)), st'. split; [|split; [exact K|]].
    - apply optional_runs. left. split; [reflexivity|]. destruct x as [y|[|e]]; cbn in O; try contradiction. exact D.
    - cbn. replace 0%Z with (Z.of_N (pos w) - Z.of_N (pos w))%Z by lia. constructor. apply follows_refl.
  Qed.

  Lemma sees_discard_fail m w : sees m w None -> sees (MDiscard m) w None.
  Proof.
    intros H c st Hd Hc Hk Hl. destruct (H (clone_with_name c "Discard") st Hd Hc Hk Hl) as (x & st' & D & K & O).
    destruct x as [y|[|e]]; cbn in O; try contradiction.
    exists (Err FFail), st'. split; [|auto]. now apply discard_other.
  Qed.
  (* what is left of a result *)
  Definition discarded (p q : found) : Prop :=
    (exists t, (p = FTree t \/ p = FProxy t) /\ q = FSkip (t_rest t)) \/ (exists r, p = FSkip r /\ q = p).
  Lemma sees_discard m w p q : discarded p q -> sees m w (Some p) -> sees (MDiscard m) w (Some q).
  Proof.
    intros Hq H c st Hd Hc Hk Hl. destruct (H (clone_with_name c "Discard") st Hd Hc Hk Hl) as (x & st1 & D & K & O).
    destruct x as [y|[|e]]; cbn in O; try contradiction.
    destruct Hq as [(t & Hp & ->)|(r & -> & ->)].
    - assert (exists a, wrapped y a (fun z => z) /\ shows (heap_size st) st1 a t /\ follows w (t_rest t)) as (a & Hw & Ha & Hf).
      { destruct Hp as [-> | ->]; inversion O; subst; exists a; (split; [left; auto|auto]). }
      destruct (discard_token_result E P m c s st y a _ st1 [] Hw D) as (et & Et & _ & G).
      + now apply (shows_clean (heap_size st) st1) in Ha.
      + inversion Ha as [a0 name text kids rest H1 H2 H3 H4 H5 H6 H7 H8 H9 H10]; subst.
        eexists _, _. split; [apply G|].
        * reflexivity.
        * rewrite Hc. cbn [rs]. apply pos_small.
        * rewrite H8. apply pos_small.
        * split; [eapply known_scopes; [|exact K]; reflexivity|].
          rewrite H8, Hc. cbn [t_rest rs outcome_is]. now constructor.
    - inversion O; subst. eexists _, _. split; [apply discard_other; [|exact D]|].
      + exact Logic.I.
      + split; [exact K|]. now constructor.
  Qed.
  Lemma sees_discard_break m w n p q : discarded p q \/ (p = FNone /\ q = FNone) ->
    sees m w (Some (FBreak n p)) -> sees (MDiscard m) w (Some (FBreak n q)).
  Proof.
    intros Hq H c st Hd Hc Hk Hl. destruct (H (clone_with_name c "Discard") st Hd Hc Hk Hl) as (x & st1 & D & K & O).
    destruct x as [y|[|e]]; cbn in O; try contradiction. inversion O as [| | | | |n0 p0 z G0]; subst.
    destruct Hq as [[(t & Hp & ->)|(r & -> & ->)]|[-> ->]].
    - assert (exists a, wrapped (SBreak n z) a (SBreak n) /\ shows (heap_size st) st1 a t /\ follows w (t_rest t)) as (a & Hw & Ha & Hf).
      { destruct Hp as [-> | ->]; inversion G0; subst; exists a; (split; [right; left; exists n; auto|auto]). }
      destruct (discard_token_result E P m c s st _ a _ st1 [] Hw D) as (et & Et & _ & G).
      + now apply (shows_clean (heap_size st) st1) in Ha.
      + inversion Ha as [a0 name text kids rest H1 H2 H3 H4 H5 H6 H7 H8 H9 H10]; subst.
        eexists _, _. split; [apply G|].
        * reflexivity.
        * rewrite Hc. cbn [rs]. apply pos_small.
        * rewrite H8. apply pos_small.
        * split; [eapply known_scopes; [|exact K]; reflexivity|].
          rewrite H8, Hc. cbn [t_rest rs outcome_is]. constructor. now constructor.
    - inversion G0; subst. eexists _, _. split; [apply discard_other; [|exact D]|].
      + exact Logic.I.
      + split; [exact K|]. constructor. now constructor.
    - inversion G0; subst. eexists _, _. split; [apply discard_other; [|exact D]|].
      + exact Logic.I.
      + split; [exact K|]. constructor. now constructor.
  Qed.

  (* ProxyChildren *)
  Inductive proxied : found -> found -> Prop :=
  | px_tree t : t_kids t <> [] -> proxied (FTree t) (FProxy t)
  | px_break n t : t_kids t <> [] -> proxied (FBreak n (FTree t)) (FBreak n (FProxy t))
  | px_break_none n : proxied (FBreak n FNone) (FBreak n FNone)
  | px_skip r : proxied (FSkip r) (FSkip r).
  Lemma sees_proxy m w p q : proxied p q -> sees m w (Some p) -> sees (Proxy_ m) w (Some q).
  Proof.
    intros Hq H c st Hd Hc Hk Hl.
    destruct (H (renamed c "Flatten") (mkSt (st_heap st) (scopes_after st s false "Flatten" (Proxy_ m))) Hd Hc) as (x & st1 & D & K & O);
      [exact Hk|exact Hl|].
    destruct x as [y|[|e]]; cbn in O; try contradiction.
    destruct Hq.
    - inversion O; subst. exists (Ok (SProxy a)), st1. split; [|split; [exact K|now constructor]].
      apply (proxy_does E P m "Flatten" false c s st (Done _ _)). eexists (Done _ _). split; [exact D|reflexivity].
    - inversion O as [| | | | |n0 p0 z G0]; subst. inversion G0; subst.
      exists (Ok (SBreak n (SProxy a))), st1. split; [|split; [exact K|constructor; now constructor]].
      apply (proxy_does E P m "Flatten" false c s st (Done _ _)). eexists (Done _ _). split; [exact D|reflexivity].
    - inversion O as [| | | | |n0 p0 z G0]; subst. inversion G0; subst.
      exists (Ok (SBreak n SNone)), st1. split; [|split; [exact K|constructor; now constructor]].
      apply (proxy_does E P m "Flatten" false c s st (Done _ _)). eexists (Done _ _). split; [exact D|reflexivity].
    - inversion O; subst. eexists (Ok _), st1. split; [|split; [exact K|exact O]].
      apply (proxy_does E P m "Flatten" false c s st (Done _ _)). eexists (Done _ _). split; [exact D|reflexivity].
  Qed.
  Lemma sees_proxy_fail m w : sees m w None -> sees (Proxy_ m) w None.
  Proof.
    intros H c st Hd Hc Hk Hl.
    destruct (H (renamed c "Flatten") (mkSt (st_heap st) (scopes_after st s false "Flatten" (Proxy_ m))) Hd Hc) as (x & st1 & D & K & O);
      [exact Hk|exact Hl|].
    destruct x as [y|[|e]]; cbn in O; try contradiction.
    exists (Err FFail), st1. split; [|split; [exact K|exact Logic.I]].
    apply (proxy_does E P m "Flatten" false c s st (Done _ _)). eexists (Done _ _). split; [exact D|reflexivity].
  Qed.

  (* Map *)
  Lemma sees_map_fail m f w : sees m w None -> (match f with MapPatternDef | MapRegex | MapAdextopaScope | MapPatternScope | MapScript => True | _ => False end) ->
    sees (MMap m f) w None.
  Proof.
    intros H Hf c st Hd Hc Hk Hl. destruct (H (renamed c "Map") st Hd Hc Hk Hl) as (x & st' & D & K & O).
    destruct x as [y|[|e]]; cbn in O; try contradiction.
    exists (Err FFail), st'. split; [|auto]. eapply map_runs; [exact D|]. destruct f; try contradiction; reflexivity.
  Qed.
  Lemma sees_unless m f w : sees m w None -> (match f with MapFatalIf _ | MapAssertIf _ => True | _ => False end) ->
    sees (MMap m f) w (Some (FSkip w)).
  Proof.
    intros H Hf c st Hd Hc Hk Hl. destruct (H (renamed c "Map") st Hd Hc Hk Hl) as (x & st' & D & K & O).
    destruct x as [y|[|e]]; cbn in O; try contradiction.
    exists (Ok (SSkip 0)), st'. split.
    - eapply map_runs; [exact D|]. destruct f; try contradiction; reflexivity.
    - split; [exact K|]. cbn. replace 0%Z with (Z.of_N (pos w) - Z.of_N (pos w))%Z by lia. constructor. apply follows_refl.
  Qed.

  Lemma sees_ref name m w r : In (name, VMatcher m) B -> sees m w r -> sees (Ref_ name) w r.
  Proof.
    intros Hin H c st Hd Hc Hk Hl.
    set (st0 := mkSt (st_heap st) (scopes_after st s false "Ref" (Ref_ name))).
    assert (Hk0 : known B st0) by (eapply known_scopes; [|exact Hk]; reflexivity).
    destruct (H (clone_with_name c "Ref") st0 Hd Hc Hk0 Hl) as (x & st' & D & K & O).
    exists x, st'. split; [|auto].
    apply (ref_resolves E P name "Ref" false c s st m) with (o := Done x st').
    - destruct Hk0 as [_ Hk0]. now apply Hk0.
    - exact D.
  Qed.

  (* ---------- Switch ---------- *)

  Inductive picks : list matcher -> str -> option found -> Prop :=
  | pk_none w : picks [] w None
  | pk_fail m ms w r : sees m w None -> picks ms w r -> picks (m :: ms) w r
  | pk_skip m ms w r : sees m w (Some (FSkip w)) -> picks ms w r -> picks (m :: ms) w r
  | pk_tree m ms w t : sees m w (Some (FTree t)) -> picks (m :: ms) w (Some (FTree t))
  | pk_proxy m ms w t : sees m w (Some (FProxy t)) -> picks (m :: ms) w (Some (FProxy t))
  | pk_moved m ms w r : slen r < slen w -> sees m w (Some (FSkip r)) -> picks (m :: ms) w (Some (FSkip r))
  | pk_break m ms w n p : sees m w (Some (FBreak n p)) -> picks (m :: ms) w (Some (FBreak n p)).

  Lemma frame_looks m c st r st' : Runs E P m c s st r st' -> forall h, same_looks h st st'.
  Proof. intros D h. apply looks_preserved. apply (runs_frame E P _ _ _ _ _ _ HE) in D. apply D. Qed.
  Lemma frame_size m c st r st' : Runs E P m c s st r st' -> (heap_size st <= heap_size st')%nat.
  Proof. intros D. apply (runs_frame E P _ _ _ _ _ _ HE) in D. destruct D as [[D _] _]. exact D. Qed.

  Lemma gives_lower h h' st w p x : (h' <= h)%nat -> gives h st w p x -> gives h' st w p x.
  Proof.
    intros Hh G. induction G as [a t Ha Hf|a t Ha Hf Hkn|r Hf|a Ha Hp| |n p x G IH]; constructor; auto; try lia;
      now apply (shows_lower h h' st Hh).
  Qed.
  Lemma outcome_lower h h' st w r x : (h' <= h)%nat -> outcome_is h st w r x -> outcome_is h' st w r x.
  Proof. intros H. destruct r, x as [y|[]]; cbn; auto. now apply gives_lower. Qed.

  Lemma picks_chooses alts w r : picks alts w r -> forall c st,
    c_debug c = 0 -> c_off c = mkR (pos w) (slen (p_src P)) -> known B st -> left_over w ->
    exists x st', chooses E P c s alts st (Done x st') /\ known B st' /\ outcome_is (heap_size st) st' w r x.
  Proof.
    induction 1 as [w|m ms w r Hm _ IH|m ms w r Hm _ IH|m ms w t Hm|m ms w t Hm|m ms w r Hr Hm|m ms w n p Hm];
      intros c st Hd Hc Hk Hl.
    - exists (Err FFail), st. split; [constructor|]. split; [exact Hk|exact Logic.I].
    - destruct (Hm c st Hd Hc Hk Hl) as (x & st1 & D & K & O). destruct x as [y|[|e]]; cbn in O; try contradiction.
      destruct (IH c st1 Hd Hc K Hl) as (x & st' & Hch & K' & O').
      exists x, st'. split; [eapply ch_pass; [exact D|now left|exact Hch]|]. split; [exact K'|].
      eapply outcome_lower; [|exact O']. now apply frame_size in D.
    - destruct (Hm c st Hd Hc Hk Hl) as (x & st1 & D & K & O). destruct x as [y|[|e]]; cbn in O; try contradiction.
      destruct (IH c st1 Hd Hc K Hl) as (x & st' & Hch & K' & O').
      exists x, st'. split; [eapply ch_pass; [exact D| |exact Hch]|].
      + right; left. inversion O; subst. now rewrite Z.sub_diag.
      + split; [exact K'|]. eapply outcome_lower; [|exact O']. now apply frame_size in D.
    - destruct (Hm c st Hd Hc Hk Hl) as (x & st1 & D & K & O). destruct x as [y|[|e]]; cbn in O; try contradiction.
      inversion O as [a t0 Ha Hf| | | | |]; subst. exists (Ok (SToken a)), st1. split; [|auto].
      eapply ch_decide; [exact D|]. constructor. now inversion Ha.
    - destruct (Hm c st Hd Hc Hk Hl) as (x & st1 & D & K & O). destruct x as [y|[|e]]; cbn in O; try contradiction.
      inversion O as [|a t0 Ha Hf Hkn| | | |]; subst. exists (Ok (SProxy a)), st1. split; [|auto].
      eapply ch_decide; [exact D|]. constructor. now inversion Ha.
    - destruct (Hm c st Hd Hc Hk Hl) as (x & st1 & D & K & O). destruct x as [y|[|e]]; cbn in O; try contradiction.
      inversion O as [| |r0 Hf| | |]; subst. eexists (Ok _), st1. split; [|split; [exact K|exact O]].
      eapply ch_decide; [exact D|]. constructor. apply left_len in Hl. unfold pos. lia.
    - destruct (Hm c st Hd Hc Hk Hl) as (x & st1 & D & K & O). destruct x as [y|[|e]]; cbn in O; try contradiction.
      inversion O as [| | | | |n0 p0 z G0]; subst. eexists (Ok _), st1. split; [|split; [exact K|exact O]].
      eapply ch_decide; [exact D|]. constructor.
  Qed.
  Lemma known_start pats i st : known B st -> own_ok B (pi_custom i) (pi_name i) (MProgram pats i) ->
    known B (program_start P pats i s st).
  Proof. intros Hk Ho. unfold program_start. now apply known_after. Qed.

  Lemma sees_switch alts i w r : pi_stop i = true -> pi_iter i = None ->
    own_ok B (pi_custom i) (pi_name i) (MProgram alts i) -> picks alts w r -> sees (MProgram alts i) w r.
  Proof.
    intros H1 H2 Ho Hp c st Hd Hc Hk Hl.
    destruct (picks_chooses alts w r Hp (pattern_ctx c (pi_name i) (List.length (st_heap st)) (rs (c_off c)))
                (program_start P alts i s st)) as (x & st' & Hch & K & O); auto.
    - cbn. rewrite Hc. reflexivity.
    - now apply known_start.
    - exists x, st'. split; [|split; [exact K|]].
      + apply (switch_does E P c i s st alts (Done x st')); auto. rewrite Hc. cbn [rs]. pose proof (pos_lt w). lia.
      + eapply outcome_lower; [|exact O]. rewrite program_start_size. lia.
  Qed.

  (* ---------- passes over the patterns of a program ---------- *)

  (* how a pass ends: with these trees, the text that comes next, and the text
     after everything that was matched *)
  Inductive wend :=
  | WDone (ts : list tree) (w e : str)
  | WBreak (n : str) (p : found) (ts : list tree) (w : str)
  | WFail (ts : list tree) (w : str)
  | WFatal (e : parse_error).

  (* the end of the last of these trees, which all end before [e] *)
  Inductive spread (e : str) : str -> list tree -> str -> Prop :=
  | sp_nil w : spread e w [] w
  | sp_cons w t ts w' : follows (t_rest t) e -> spread e (t_rest t) ts w' -> spread e w (t :: ts) w'.

  Inductive walk : list matcher -> list tree -> str -> wend -> Prop :=
  | wk_nil ts w : walk [] ts w (WDone ts w w)
  | wk_tree m ms ts w t x : m_consuming m = true -> sees m w (Some (FTree t)) -> slen (t_rest t) < slen w ->
      walk ms (ts ++ [t]) (t_rest t) x -> walk (m :: ms) ts w x
  | wk_proxy m ms ts w t x : m_consuming m = true -> sees m w (Some (FProxy t)) ->
      spread (t_rest t) (t_rest t) (t_kids t) (t_rest t) ->
      walk ms (ts ++ t_kids t) (t_rest t) x -> walk (m :: ms) ts w x
  | wk_proxy_last m ts w t w' : m_consuming m = true -> sees m w (Some (FProxy t)) ->
      spread (t_rest t) (t_rest t) (t_kids t) w' ->
      walk [m] ts w (WDone (ts ++ t_kids t) w' (t_rest t))
  | wk_skip m ms ts w r x : m_consuming m = true -> sees m w (Some (FSkip r)) ->
      walk ms ts r x -> walk (m :: ms) ts w x
  | wk_stay m ms ts w x : sees m w (Some (FSkip w)) -> walk ms ts w x -> walk (m :: ms) ts w x
  | wk_look m ms ts w x : sees m w (Some FLook) -> walk ms ts w x -> walk (m :: ms) ts w x
  | wk_break m ms ts w n p : sees m w (Some (FBreak n p)) -> walk (m :: ms) ts w (WBreak n p ts w)
  | wk_fail m ms ts w : sees m w None -> walk (m :: ms) ts w (WFail ts w)
  | wk_fatal m ms ts w e : dies m w e -> walk (m :: ms) ts w (WFatal e).

  (* the pieces collected so far are these trees; everything matched ends
     before [e] *)
  Definition collects (h : nat) (done : list piece) (st : state) (ts : list tree) (e : str) : Prop :=
    shows_all h st (all_kids done) ts /\
    (all_mr done = [] \/ highest (all_mr done) = pos e) /\
    (ts <> [] -> lowest (all_cr done) < usize_max /\ lowest (all_mr done) < usize_max /\ all_mr done <> [] /\
       lowest (all_mr done) <= highest (all_mr done)).
  (* the captured ranges so far, besides those in [more], are those of the
     children so far *)
  Definition covers (more : list range) (done : list piece) (st : state) : Prop :=
    hull (all_cr done) = hull (more ++ map (fun k => tk_cr (tok st k)) (all_kids done)).
  Definition holds (h : nat) (done : list piece) (st : state) (ts : list tree) (e : str) : Prop :=
    collects h done st ts e /\ covers [] done st.

  Lemma collects_same h done st st' ts e : same_looks h st st' -> collects h done st ts e -> collects h done st' ts e.
  Proof. intros H (H1 & H2 & H3). split; [now apply (shows_same h st st' H)|auto]. Qed.
  Lemma covers_same h more done st st' ts e : same_looks h st st' -> collects h done st ts e ->
    covers more done st -> covers more done st'.
  Proof.
    intros H (H1 & _) Hc. unfold covers in *. rewrite Hc. f_equal. f_equal. apply map_ext_in. intros k Hk.
    destruct (sees_all_in _ _ _ _ H1 _ Hk) as [t Ht]. inversion Ht; subst.
    destruct H as [_ H]. destruct (H k ltac:(assumption)) as (_ & _ & _ & _ & -> & _). reflexivity.
  Qed.
  Lemma hull_app l1 l2 r1 r2 : hull l1 = hull r1 -> hull l2 = hull r2 -> hull (l1 ++ l2) = hull (r1 ++ r2).
  Proof.
    unfold hull. intros H1 H2. injection H1 as A1 A2. injection H2 as A3 A4. now rewrite !lowest_app, !highest_app, A1, A2, A3, A4.
  Qed.
  Lemma hull_comm l l' : hull (l ++ l') = hull (l' ++ l).
  Proof. unfold hull. rewrite !lowest_app, !highest_app. f_equal; lia. Qed.
  Lemma hull_again l l' : hull ([hull l'] ++ l ++ l') = hull (l ++ l').
  Proof.
    assert (lowest l' <= usize_max); [|unfold hull; rewrite !lowest_app, !highest_app;
      change (lowest [mkR (lowest l') (highest l')]) with (N.min (lowest l') usize_max);
      change (highest [mkR (lowest l') (highest l')]) with (N.max (highest l') 0); f_equal; lia]. induction l' as [|r l' IH]; [reflexivity|].
    change (lowest (r :: l')) with (N.min (rs r) (lowest l')). lia.
  Qed.
  Lemma covers_add more done st p : covers more done st -> hull (pc_cr p) = span st (pc_kids p) ->
    covers more (done ++ [p]) st.
  Proof.
    unfold covers. intros Hc Hp. rewrite all_cr_app, all_kids_app, map_app, app_assoc.
    apply hull_app; [exact Hc|]. unfold all_cr, all_kids. cbn [flat_map]. now rewrite !app_nil_r.
  Qed.
  Lemma holds_same h done st st' ts e : same_looks h st st' -> holds h done st ts e -> holds h done st' ts e.
  Proof. intros H [H1 H2]. split; [now apply (collects_same h done st)|]. eapply covers_same; eauto. Qed.
  Lemma holds_nil h st e : holds h [] st [] e.
  Proof. split; [|reflexivity]. split; [constructor|]. split; [now left|]. congruence. Qed.
  Lemma highest_le l w : highest l = pos w \/ l = [] -> highest l <= pos w.
  Proof. intros [H|H]; [lia|]. subst l. cbn. lia. Qed.
  Lemma pos_follows w r : left_over w -> follows w r -> pos w <= pos r.
  Proof. intros Hl Hf. apply left_len in Hl. apply follows_len in Hf. unfold pos. lia. Qed.

  Lemma shown_adopted h st a t pt lo : shows h st a t -> adopted P pt lo (tok st a) = set_parent (Some pt) (tok st a).
  Proof. intros H. inversion H; subst. unfold adopted. now rewrite H2. Qed.
  Lemma looks_adopt h st a p : same_looks h st (set_tok st a (set_parent p (tok st a))).
  Proof.
    split; [now rewrite heap_size_set|]. intros b Hb. destruct (Nat.eq_dec a b) as [<-|Hne].
    - rewrite tok_set_same by (unfold heap_size in *; lia). apply alike_parent.
    - rewrite tok_set_other by assumption. apply alike_refl.
  Qed.

  (* one more tree *)
  Lemma holds_tree h done st ts w a t pt : shows h st a t -> holds h done st ts w ->
    left_over w -> follows w (t_rest t) ->
    let t' := set_parent (Some pt) (tok st a) in
    holds h (done ++ [token_piece a true t']) (set_tok st a t') (ts ++ [t]) (t_rest t).
  Proof.
    intros Ha [(H1 & H2 & H3) H4] Hl Hf t'. pose proof (looks_adopt h st a (Some pt)) as Hs. fold t' in Hs.
    inversion Ha as [a0 name text kids rest A1 A2 A3 A4 A5 A6 A7 A8 A9 A10]; subst.
    split; [split; [|split]|].
    - rewrite all_kids_app. apply shows_all_app; [now apply (shows_same h st _ Hs)|].
      cbn. constructor; [|constructor]. now apply (shows_same h st _ Hs).
    - right. rewrite all_mr_app, highest_app. cbn [all_mr flat_map token_piece pc_mr app highest fold_right t_rest].
      change (tk_mr t') with (tk_mr (tok st a)). rewrite A8. cbn [t_rest] in Hf.
      pose proof (pos_follows _ _ Hl Hf). pose proof (highest_le (all_mr done) w ltac:(tauto)). lia.
    - intros _. rewrite all_cr_app, all_mr_app, !lowest_app.
      cbn [all_cr all_mr flat_map token_piece pc_cr pc_mr app lowest fold_right].
      change (tk_mr t') with (tk_mr (tok st a)). change (tk_cr t') with (tk_cr (tok st a)).
      split; [lia|]. split; [lia|]. split; [intros E0; apply app_eq_nil in E0 as [_ E0]; discriminate|].
      rewrite highest_app. cbn [highest fold_right re]. lia.
    - apply covers_add; [eapply (covers_same h [] done st _ ts w); [exact Hs|now split|exact H4]|].
      cbn [token_piece pc_cr pc_kids]. unfold span. cbn [map]. rewrite tok_set_same by (unfold heap_size in *; lia). reflexivity.
  Qed.
  (* a skip *)
  Lemma holds_skip h done st ts w r start : start < usize_max -> holds h done st ts w -> left_over w -> follows w r ->
    holds h (done ++ [mkPiece [] [] [mkR start (pos r)]]) st ts r.
  Proof.
    intros Hs [(H1 & H2 & H3) H4] Hl Hf. split; [split; [|split]|now apply covers_add].
    - rewrite all_kids_app. cbn. now rewrite app_nil_r.
    - right. rewrite all_mr_app, highest_app. cbn [all_mr flat_map pc_mr app highest fold_right re].
      pose proof (pos_follows _ _ Hl Hf). pose proof (highest_le (all_mr done) w ltac:(tauto)). lia.
    - intros Ht. destruct (H3 Ht) as (L1 & L2 & L3). rewrite all_cr_app, all_mr_app, !lowest_app.
      cbn [all_cr all_mr flat_map pc_cr pc_mr app lowest fold_right rs].
      split; [lia|]. split; [lia|]. split; [intros E0; apply app_eq_nil in E0 as [_ E0]; discriminate|].
      rewrite highest_app. cbn [highest fold_right re]. lia.
  Qed.

  (* a token is not its own child *)
  Lemma not_own_kid h st a t : shows h st a t -> ~ In a (tk_kids (tok st a)).
  Proof.
    intros H Hin. apply (shows_clean h st) in H as (l & Hl & _).
    inversion Hl as [|a0 roots l1 l2 Hk Hn]; subst. inversion Hn; subst. rewrite app_nil_r in Hl.
    clear Hn. assert (G : forall roots all, preorder st roots all -> In a roots -> (List.length (a :: l1) <= List.length all)%nat).
    { induction 1 as [|b roots m1 m2 Hb IHb Hr IHr]; intros Hi; [contradiction|].
      destruct Hi as [-> | Hi].
      - rewrite (preorder_det _ _ _ Hb _ Hk). cbn. rewrite app_length. lia.
      - specialize (IHr Hi). cbn in *. rewrite app_length. lia. }
    specialize (G _ _ Hk Hin). cbn in G. lia.
  Qed.

  (* the children of a proxy *)
  Lemma holds_kids h more pt self e w ts' w' : spread e w ts' w' -> left_over e -> forall l done st ts,
    shows_all h st l ts' -> ~ In self l -> left_over w -> collects h done st ts e -> covers more done st -> all_mr done <> [] ->
    exists done' st', adopts P pt self true l done (pos w) st done' (pos w') st' /\
      collects h done' st' (ts ++ ts') e /\ (covers more done' st' /\ all_kids done' = all_kids done ++ l) /\ st_scopes st' = st_scopes st /\ same_looks 0 st st' /\
      (forall x, (x < h)%nat -> tok st' x = tok st x) /\ heap_size st' = heap_size st.
  Proof.
    induction 1 as [w|w t ts' w' Hf Hs IH]; intros He l done st ts Hl Hn Hw Hh Hcv Hmr.
    - inversion Hl; subst. exists done, st. rewrite !app_nil_r. split; [constructor|].
      split; [exact Hh|]. split; [auto|]. split; [reflexivity|]. split; [apply looks_refl|]. auto.
    - inversion Hl as [|a l0 t0 ts0 Ha Hl']; subst.
      inversion Ha as [a0 name text kids rest A1 A2 A3 A4 A5 A6 A7 A8 A9 A10]; subst. cbn [t_rest] in *.
      pose proof (looks_adopt h st a (Some pt)) as Hsl.
      set (t' := set_parent (Some pt) (tok st a)) in *.
      assert (Hcv' : covers more (done ++ [token_piece a true t']) (set_tok st a t')).
      { apply covers_add; [eapply (covers_same h more done st); eauto|].
        cbn [token_piece pc_cr pc_kids]. unfold span. cbn [map]. rewrite tok_set_same by (unfold heap_size in *; lia). reflexivity. }
      assert (Hh' : collects h (done ++ [token_piece a true t']) (set_tok st a t') (ts ++ [Tr (tk_name (tok st a)) text kids rest]) e).
      { destruct Hh as (B1 & B2 & B3). split; [|split].
        - rewrite all_kids_app. apply shows_all_app; [now apply (shows_same h st _ Hsl)|].
          cbn. constructor; [|constructor]. now apply (shows_same h st _ Hsl).
        - right. rewrite all_mr_app, highest_app. cbn [all_mr flat_map token_piece pc_mr app highest fold_right].
          change (tk_mr t') with (tk_mr (tok st a)). rewrite A8.
          pose proof (pos_follows _ _ A9 Hf). destruct B2 as [B2|B2]; [congruence|]. lia.
        - intros _. rewrite all_cr_app, all_mr_app, !lowest_app.
          cbn [all_cr all_mr flat_map token_piece pc_cr pc_mr app lowest fold_right].
          change (tk_mr t') with (tk_mr (tok st a)). change (tk_cr t') with (tk_cr (tok st a)).
          split; [lia|]. split; [lia|]. split; [intros E0; apply app_eq_nil in E0 as [_ E0]; discriminate|].
      rewrite highest_app. cbn [highest fold_right re]. lia. }
      assert (Hn' : ~ In self l0) by (intros Hi; apply Hn; now right).
      assert (Hmr' : all_mr (done ++ [token_piece a true t']) <> []).
      { rewrite all_mr_app. intros E0. apply app_eq_nil in E0 as [_ E0]. discriminate. }
      destruct (IH He l0 _ (set_tok st a t') _ (proj2 (shows_same h st _ Hsl) _ _ Hl') Hn' A9 Hh' Hcv' Hmr')
        as (done' & st' & G1 & G2 & [G7 G8] & G3 & G4 & G5 & G6).
      exists done', st'. split; [|split; [|split; [split|split; [|split; [|split]]]]].
      + eapply ad_token with (t := t'); auto.
        * intros ->. apply Hn. now left.
        * now rewrite (shown_adopted _ _ _ _ pt _ Ha).
        * replace (re (tk_mr t')) with (pos rest) by (symmetry; exact A8). exact G1.
      + rewrite <- app_assoc in G2. exact G2.
      + exact G7.
      + rewrite G8, all_kids_app, <- app_assoc. reflexivity.
      + rewrite G3. reflexivity.
      + eapply looks_trans; [apply looks_adopt|exact G4].
      + intros x Hx. rewrite G5 by exact Hx. apply tok_set_other. lia.
      + rewrite G6. apply heap_size_set.
  Qed.

  (* ---------- programs ---------- *)

  Lemma proxy_step h done st ts w a t pt w' : shows h st a t -> holds h done st ts w -> left_over w ->
    follows w (t_rest t) -> t_kids t <> [] -> spread (t_rest t) (t_rest t) (t_kids t) w' ->
    exists done' st',
      adopts P pt a true (tk_kids (tok st a)) (done ++ [mkPiece [] [tk_cr (tok st a)] [tk_mr (tok st a)]])
        (re (tk_mr (tok st a))) st done' (pos w') st' /\
      holds h done' st' (ts ++ t_kids t) (t_rest t) /\ st_scopes st' = st_scopes st /\
      (forall x, (x < h)%nat -> tok st' x = tok st x) /\ heap_size st' = heap_size st.
  Proof.
    intros Ha [(H1 & H2 & H3) H4] Hl Hf Hkn Hsp. pose proof (not_own_kid _ _ _ _ Ha) as Hno.
    inversion Ha as [a0 nm text kids rest A1 A2 A3 A4 A5 A6 A7 A8 A9 A10 A11]; subst. cbn [t_rest t_kids] in *.
    rewrite A8.
    destruct (holds_kids h [tk_cr (tok st a)] pt a rest rest kids w' Hsp A9 (tk_kids (tok st a)) (done ++ [mkPiece [] [tk_cr (tok st a)] [tk_mr (tok st a)]])
               st ts A10 Hno A9) as (done' & st' & G1 & G2 & [G7 G8] & G3 & G4 & G5 & G6).
    - split; [|split].
      + rewrite all_kids_app. cbn. now rewrite app_nil_r.
      + right. rewrite all_mr_app, highest_app. cbn [all_mr flat_map pc_mr app highest fold_right]. rewrite A8.
        pose proof (pos_follows _ _ Hl Hf). pose proof (highest_le (all_mr done) w ltac:(tauto)). lia.
      + intros _. rewrite all_cr_app, all_mr_app, !lowest_app.
        cbn [all_cr all_mr flat_map pc_cr pc_mr app lowest fold_right].
        split; [lia|]. split; [lia|]. split; [intros E0; apply app_eq_nil in E0 as [_ E0]; discriminate|].
      rewrite highest_app. cbn [highest fold_right re]. lia.
    - unfold covers in *. rewrite all_cr_app, all_kids_app. cbn [all_kids all_cr flat_map pc_kids pc_cr app]. rewrite app_nil_r.
      rewrite (hull_app _ [tk_cr (tok st a)] _ [tk_cr (tok st a)] H4 eq_refl).
      now rewrite hull_comm.
    - rewrite all_mr_app. intros E0. apply app_eq_nil in E0 as [_ E0]. discriminate.
    - exists done', st'. split; [exact G1|]. split; [split; [exact G2|]|auto]. unfold covers in *. rewrite G7.
      rewrite G8, all_kids_app, !map_app. cbn [all_kids flat_map pc_kids app map]. rewrite app_nil_r.
      assert (Hspan : tk_cr (tok st a) = span st' (tk_kids (tok st a))).
      { rewrite (span_same 0 st st' _ kids G4); [|apply (shows_lower h 0); [lia|exact A10]].
        unfold framed in A11. destruct (tk_kids (tok st a)) as [|k0 l0] eqn:E0; [|exact (proj1 A11)].
        inversion A10; subst. congruence. }
      rewrite Hspan. apply hull_again.
  Qed.

  (* the pass that belongs to a walk *)
  Definition pass_is (h : nat) (x : wend) (w0 : str) (st0 : state) (y : pass_end) : Prop :=
    match x, y with
    | WDone ts w e, AllDone done off st =>
        off = pos w /\ holds h done st ts e /\ follows w0 e /\ known B st /\ preserved h st0 st
    | WBreak n p ts w, Signal (SBreak n' q) done off st =>
        n' = n /\ off = pos w /\ holds h done st ts w /\ follows w0 w /\ gives h st w p q /\
        known B st /\ preserved h st0 st
    | WFail ts w, NoMatch done st =>
        holds h done st ts w /\ follows w0 w /\ known B st /\ preserved h st0 st
    | WFatal e, Fatal e' st => e' = e
    | _, _ => False
    end.

  Lemma pass_is_from h x w0 w1 st0 st1 y : follows w0 w1 -> preserved h st0 st1 ->
    pass_is h x w1 st1 y -> pass_is h x w0 st0 y.
  Proof.
    intros Hf Hp. destruct x as [ts w e|n p ts w|ts w|e], y as [done off st|z done off st|done st|e0 st|q|]; cbn; try tauto.
    - intros (H1 & H2 & H3 & H4 & H5). split; [exact H1|]. split; [exact H2|]. split; [eapply follows_trans; eauto|].
      split; [exact H4|]. eapply preserved_trans; eauto.
    - destruct z as [a|a|zz|nn q|nn q| |]; try tauto.
      intros (H1 & H2 & H3 & H4 & H5 & H6 & H7). split; [exact H1|]. split; [exact H2|]. split; [exact H3|].
      split; [eapply follows_trans; eauto|]. split; [exact H5|]. split; [exact H6|]. eapply preserved_trans; eauto.
    - intros (H1 & H2 & H3 & H4). split; [exact H1|]. split; [eapply follows_trans; eauto|].
      split; [exact H3|]. eapply preserved_trans; eauto.
  Qed.

  Lemma run_preserved m c st r st' h : Runs E P m c s st r st' -> (h <= heap_size st)%nat -> preserved h st st'.
  Proof. intros D Hh. apply (runs_frame E P _ _ _ _ _ _ HE) in D as [D _]. eapply preserved_le; eauto. Qed.

  Lemma skips_pos w r : left_over w -> follows w r -> skips_to E (pos w) (Z.of_N (pos r) - Z.of_N (pos w)) (pos r).
  Proof.
    intros Hl Hf. pose proof (pos_follows _ _ Hl Hf). pose proof (pos_lt r).
    replace (pos r) with (pos w + Z.to_N (Z.of_N (pos r) - Z.of_N (pos w))) at 2 by lia.
    apply skips_to_small; lia.
  Qed.
  Lemma walk_pass ms ts w x : walk ms ts w x -> forall c name pt h done st,
    c_debug c = 0 -> re (c_off c) = slen (p_src P) -> rs (c_off c) < usize_max -> left_over w ->
    known B st -> (h <= heap_size st)%nat -> holds h done st ts w ->
    exists y, pass E P c name s pt ms done (pos w) st y /\ pass_is h x w st y.
  Proof.
    induction 1 as [ts w|m ms ts w t x Hcm Hm Hlt Hw IH|m ms ts w t x Hcm Hm Hsp Hw IH|m ts w t w' Hcm Hm Hsp
                   |m ms ts w r x Hcm Hm Hw IH|m ms ts w x Hm Hw IH|m ms ts w x Hm Hw IH|m ms ts w n p Hm|m ms ts w Hm|m ms ts w e Hm];
      intros c name pt h done st Hd Hre Hrs Hl Hk Hh Hho.
    - eexists. split; [constructor|]. cbn. split; [reflexivity|]. split; [exact Hho|].
      split; [apply follows_refl|]. split; [exact Hk|apply preserved_refl].
    - destruct (Hm (pattern_ctx c name pt (pos w)) st) as (y & st1 & D & K & O); auto.
      { cbn. now rewrite Hre. }
      destruct y as [y|[|]]; cbn in O; try contradiction. inversion O as [a t0 Ha Hf| | | | |]; subst.
      apply (shows_lower _ h) in Ha as Ha'; [|exact Hh].
      pose proof (frame_looks _ _ _ _ _ D h) as L1. pose proof (run_preserved _ _ _ _ _ h D Hh) as L2.
      pose proof (frame_size _ _ _ _ _ D) as L3.
      pose proof (holds_tree h done st1 ts w a t pt Ha' (holds_same _ _ _ _ _ _ L1 Hho) Hl Hf) as Hho'. cbn zeta in Hho'.
      pose proof (left_follows _ _ Hl Hf) as Hl'.
      inversion Ha as [a0 nm text kids rest A1 A2 A3 A4 A5 A6 A7 A8 A9 A10]; subst. cbn [t_rest] in *.
      assert (K' : known B (set_tok st1 a (set_parent (Some pt) (tok st1 a)))) by exact K.
      assert (S' : (h <= heap_size (set_tok st1 a (set_parent (Some pt) (tok st1 a))))%nat) by (rewrite heap_size_set; lia).
      destruct (IH c name pt h _ _ Hd Hre Hrs Hl' K' S' Hho') as (y & G1 & G2).
      + exists y. split.
        * eapply ps_next; [exact D| |exact G1]. rewrite Hcm.
          replace (pos rest) with (if true then re (tk_mr (set_parent (Some pt) (tok st1 a))) else pos w) by exact A8.
          apply ct_token with (t := set_parent (Some pt) (tok st1 a)).
          -- exact A2.
          -- intros _ _. right. rewrite A8. apply left_len in Hl, Hl'. unfold pos. lia.
          -- now rewrite (shown_adopted _ _ _ _ pt _ Ha).
        * eapply pass_is_from; [exact Hf| |exact G2].
          eapply preserved_trans; [exact L2|]. apply preserved_set. lia.
    - destruct (Hm (pattern_ctx c name pt (pos w)) st) as (y & st1 & D & K & O); auto.
      { cbn. now rewrite Hre. }
      destruct y as [y|[|]]; cbn in O; try contradiction. inversion O as [|a t0 Ha Hf Hkn| | | |]; subst.
      apply (shows_lower _ h) in Ha as Ha'; [|exact Hh].
      pose proof (frame_looks _ _ _ _ _ D h) as L1. pose proof (run_preserved _ _ _ _ _ h D Hh) as L2.
      pose proof (frame_size _ _ _ _ _ D) as L3.
      pose proof (left_follows _ _ Hl Hf) as Hl'.
      destruct (proxy_step h done st1 ts w a t pt _ Ha' (holds_same _ _ _ _ _ _ L1 Hho) Hl Hf Hkn Hsp) as (done' & st2 & G1 & G2 & G3 & G4 & G5).
      assert (K' : known B st2) by (eapply known_scopes; [exact G3|exact K]).
      destruct (IH c name pt h _ st2 Hd Hre Hrs Hl' K' ltac:(lia) G2) as (y & F1 & F2).
      + exists y. split.
        * eapply ps_next; [exact D| |exact F1]. rewrite Hcm. apply ct_proxy; [now inversion Ha'|exact G1].
        * eapply pass_is_from; [exact Hf| |exact F2].
          eapply preserved_trans; [exact L2|]. split; [lia|exact G4].
    - destruct (Hm (pattern_ctx c name pt (pos w)) st) as (y & st1 & D & K & O); auto.
      { cbn. now rewrite Hre. }
      destruct y as [y|[|]]; cbn in O; try contradiction. inversion O as [|a t0 Ha Hf Hkn| | | |]; subst.
      apply (shows_lower _ h) in Ha as Ha'; [|exact Hh].
      pose proof (frame_looks _ _ _ _ _ D h) as L1. pose proof (run_preserved _ _ _ _ _ h D Hh) as L2.
      pose proof (frame_size _ _ _ _ _ D) as L3.
      destruct (proxy_step h done st1 ts w a t pt _ Ha' (holds_same _ _ _ _ _ _ L1 Hho) Hl Hf Hkn Hsp) as (done' & st2 & G1 & G2 & G3 & G4 & G5).
      eexists. split.
      + eapply ps_next; [exact D| |apply ps_done]. rewrite Hcm. apply ct_proxy; [now inversion Ha'|exact G1].
      + cbn. split; [reflexivity|]. split; [exact G2|]. split; [exact Hf|]. split.
        * eapply known_scopes; [|exact K]. exact G3.
        * eapply preserved_trans; [exact L2|]. split; [lia|exact G4].
    - destruct (Hm (pattern_ctx c name pt (pos w)) st) as (y & st1 & D & K & O); auto.
      { cbn. now rewrite Hre. }
      destruct y as [y|[|]]; cbn in O; try contradiction. inversion O as [| |r0 Hf| | |]; subst.
      pose proof (frame_looks _ _ _ _ _ D h) as L1. pose proof (run_preserved _ _ _ _ _ h D Hh) as L2.
      pose proof (frame_size _ _ _ _ _ D) as L3.
      pose proof (left_follows _ _ Hl Hf) as Hl'.
      pose proof (holds_skip h done st1 ts w r (rs (c_off c)) Hrs (holds_same _ _ _ _ _ _ L1 Hho) Hl Hf) as Hho'.
      destruct (IH c name pt h _ st1 Hd Hre Hrs Hl' K ltac:(lia) Hho') as (y & G1 & G2).
      exists y. split.
      + eapply ps_next; [exact D| |exact G1]. rewrite Hcm. apply ct_skip; [reflexivity|]. now apply skips_pos.
      + eapply pass_is_from; [exact Hf|exact L2|exact G2].
    - destruct (Hm (pattern_ctx c name pt (pos w)) st) as (y & st1 & D & K & O); auto.
      { cbn. now rewrite Hre. }
      destruct y as [y|[|]]; cbn in O; try contradiction. inversion O as [| |r0 Hf| | |]; subst.
      pose proof (frame_looks _ _ _ _ _ D h) as L1. pose proof (run_preserved _ _ _ _ _ h D Hh) as L2.
      pose proof (frame_size _ _ _ _ _ D) as L3.
      destruct (m_consuming m) eqn:Hcm.
      + pose proof (holds_skip h done st1 ts w w (rs (c_off c)) Hrs (holds_same _ _ _ _ _ _ L1 Hho) Hl Hf) as Hho'.
        destruct (IH c name pt h _ st1 Hd Hre Hrs Hl K ltac:(lia) Hho') as (y & G1 & G2).
        exists y. split; [|eapply pass_is_from; [apply follows_refl|exact L2|exact G2]].
        eapply ps_next; [exact D| |exact G1]. rewrite Hcm. apply ct_skip; [reflexivity|]. now apply skips_pos.
      + destruct (IH c name pt h _ st1 Hd Hre Hrs Hl K ltac:(lia) (holds_same _ _ _ _ _ _ L1 Hho)) as (y & G1 & G2).
        exists y. split; [|eapply pass_is_from; [apply follows_refl|exact L2|exact G2]].
        eapply ps_next; [exact D| |exact G1]. rewrite Hcm. now apply ct_no_skip.
    - destruct (Hm (pattern_ctx c name pt (pos w)) st) as (y & st1 & D & K & O); auto.
      { cbn. now rewrite Hre. }
      destruct y as [y|[|]]; cbn in O; try contradiction. inversion O as [| | |a Ha Hp| |]; subst.
      pose proof (frame_looks _ _ _ _ _ D h) as L1. pose proof (run_preserved _ _ _ _ _ h D Hh) as L2.
      pose proof (frame_size _ _ _ _ _ D) as L3.
      destruct (IH c name pt h _ st1 Hd Hre Hrs Hl K ltac:(lia) (holds_same _ _ _ _ _ _ L1 Hho)) as (y & G1 & G2).
      exists y. split; [|eapply pass_is_from; [apply follows_refl|exact L2|exact G2]].
      eapply ps_lookahead; [left; exact D|exact Hp|exact G1].
    - destruct (Hm (pattern_ctx c name pt (pos w)) st) as (y & st1 & D & K & O); auto.
      { cbn. now rewrite Hre. }
      destruct y as [y|[|]]; cbn in O; try contradiction. inversion O as [| | | | |n0 p0 z G0]; subst.
      pose proof (frame_looks _ _ _ _ _ D h) as L1. pose proof (run_preserved _ _ _ _ _ h D Hh) as L2.
      eexists. split; [eapply ps_signal; [exact D|exact Logic.I]|].
      cbn. split; [reflexivity|]. split; [reflexivity|]. split; [now apply (holds_same _ _ _ _ _ _ L1)|].
      split; [apply follows_refl|]. split; [now apply (gives_lower (heap_size st))|]. split; [exact K|exact L2].
    - destruct (Hm (pattern_ctx c name pt (pos w)) st) as (y & st1 & D & K & O); auto.
      { cbn. now rewrite Hre. }
      destruct y as [y|[|]]; cbn in O; try contradiction.
      pose proof (frame_looks _ _ _ _ _ D h) as L1. pose proof (run_preserved _ _ _ _ _ h D Hh) as L2.
      eexists. split; [eapply ps_fail; exact D|].
      cbn. split; [now apply (holds_same _ _ _ _ _ _ L1)|]. split; [apply follows_refl|]. split; [exact K|exact L2].
    - destruct (Hm (pattern_ctx c name pt (pos w)) st) as (st1 & D); auto.
      { cbn. now rewrite Hre. }
      eexists. split; [eapply ps_error; exact D|reflexivity].
  Qed.

  Lemma holds_closes pt done st ts e name : (pt < heap_size st)%nat -> left_over e ->
    tok st pt = std_token P name (mkR 0 0) -> holds (S pt) done st ts e ->
    match ts with
    | [] => closes P pt done st (Err FFail) st
    | _ => exists st', closes P pt done st (Ok (SToken pt)) st' /\ shows pt st' pt (Tr name no_attrs ts e) /\
             st_scopes st' = st_scopes st /\ heap_size st' = heap_size st
    end.
  Proof.
    intros Hpt Hl Ht [(H1 & H2 & H3) H4]. destruct ts as [|t0 ts0].
    - apply shows_all_nil in H1. apply cl_fail. intros (H5 & _). congruence.
    - assert (Hne : t0 :: ts0 <> []) by discriminate. destruct (H3 Hne) as (L1 & L2 & L3 & L4).
      set (ts := t0 :: ts0) in *. set (t' := filled P done (tok st pt)).
      exists (set_tok st pt t'). split; [|split; [|split]].
      + apply cl_token. split; [|split]; [|lia|lia]. eapply shows_all_some. exact H1.
      + assert (Ht' : tok (set_tok st pt t') pt = t') by (now apply tok_set_same).
        constructor; rewrite ?Ht'; try (unfold t', filled; rewrite Ht; reflexivity).
        * rewrite heap_size_set. lia.
        * unfold t', filled. rewrite Ht. split; [|split; [|split]]; cbn; auto.
        * exact L1.
        * exact L2.
        * change (re (tk_mr t')) with (highest (all_mr done)). destruct H2 as [H2|H2]; [congruence|exact H2].
        * exact Hl.
        * change (tk_kids t') with (all_kids done).
          apply (shows_lower (S pt) pt); [lia|].
          apply (shows_same (S pt) st); [|exact H1].
          split; [rewrite heap_size_set; lia|]. intros x Hx. rewrite tok_set_other by lia. apply alike_refl.
        * unfold framed. change (tk_kids t') with (all_kids done). change (tk_cr t') with (hull (all_cr done)).
          replace (tk_cvalue t') with (range_text P (hull (all_cr done))) by (unfold t', filled; rewrite Ht; reflexivity).
          destruct (all_kids done) as [|k0 l0] eqn:E0; [apply shows_all_some in H1; congruence|]. split; [|reflexivity].
          unfold covers in H4. rewrite H4, E0. unfold span. f_equal. cbn [app]. apply map_ext_in. intros k Hk.
          rewrite tok_set_other; [reflexivity|]. destruct (sees_all_in _ _ _ _ H1 _ Hk) as [t1 Ht1]. inversion Ht1; subst. lia.
        * exact L4.
      + reflexivity.
      + apply heap_size_set.
  Qed.

  (* what a program returns *)
  Definition whole (name : str) (ts : list tree) (e : str) : option tree :=
    match ts with [] => None | _ => Some (Tr name no_attrs ts e) end.
  Inductive program_gives (name : str) : wend -> option found -> Prop :=
  | pg_done ts w e t : whole name ts e = Some t -> program_gives name (WDone ts w e) (Some (FTree t))
  | pg_nothing w e : program_gives name (WDone [] w e) None
  | pg_break n ts w t : whole name ts w = Some t -> program_gives name (WBreak n FNone ts w) (Some (FBreak n (FTree t)))
  | pg_fail ts w : program_gives name (WFail ts w) None.

  Lemma sees_program pats i w x r : pi_stop i = false -> pi_iter i = None ->
    own_ok B (pi_custom i) (pi_name i) (MProgram pats i) ->
    walk pats [] w x -> program_gives (pi_name i) x r -> sees (MProgram pats i) w r.
  Proof.
    intros Hs Hi Ho Hw Hg c st Hd Hc Hk Hl.
    set (pt := List.length (st_heap st)). set (st0 := program_start P pats i s st).
    assert (Hrs : rs (c_off c) = pos w) by now rewrite Hc.
    assert (Hsz : heap_size st0 = S pt) by apply program_start_size.
    destruct (walk_pass pats [] w x Hw c (pi_name i) pt (S pt) [] st0 Hd) as (y & Hp & Hy); auto.
    { now rewrite Hc. } { rewrite Hrs. apply pos_lt. } { now apply known_start. } { now rewrite Hsz. } { apply holds_nil. }
    assert (Hpt : forall st1, preserved (S pt) st0 st1 ->
              (pt < heap_size st1)%nat /\ tok st1 pt = std_token P (pi_name i) (mkR 0 0)).
    { intros st1 [Q1 Q2]. split; [lia|]. rewrite Q2 by lia. apply program_start_tok. }
    assert (D : forall o, leads_to E P pt (pos w) y o -> Does E P (MProgram pats i) c s st o).
    { intros o Ho'. rewrite <- Hrs in Hp, Ho'. eapply (program_does E P c i s st pats); eauto. }
    destruct Hg as [ts w' e t Ht|w' e|n ts w' t Ht|ts w'].
    - destruct y as [done off st1|z done off st1|done st1|e0 st1|q|]; try contradiction.
      destruct Hy as (Y1 & Y2 & Y3 & Y4 & Y5). destruct (Hpt _ Y5) as [P1 P2].
      pose proof (holds_closes pt done st1 ts e (pi_name i) P1 (left_follows _ _ Hl Y3) P2 Y2) as Hcl.
      destruct ts as [|t0 ts]; [discriminate|]. injection Ht as <-.
      destruct Hcl as (st' & C1 & C2 & C3 & C4).
      exists (Ok (SToken pt)), st'. split; [apply (D (Done _ _)); eapply lt_all; exact C1|].
      split; [now apply (known_scopes _ _ _ C3)|]. constructor; [exact C2|exact Y3].
    - destruct y as [done off st1|z done off st1|done st1|e0 st1|q|]; try contradiction.
      destruct Hy as (Y1 & Y2 & Y3 & Y4 & Y5). destruct (Hpt _ Y5) as [P1 P2].
      pose proof (holds_closes pt done st1 [] e (pi_name i) P1 (left_follows _ _ Hl Y3) P2 Y2) as Hcl. cbn in Hcl.
      exists (Err FFail), st1. split; [apply (D (Done _ _)); eapply lt_all; exact Hcl|]. split; [exact Y4|exact Logic.I].
    - destruct y as [done off st1|z done off st1|done st1|e0 st1|q|]; try contradiction.
      destruct z as [a|a|zz|nn q|nn q| |]; try contradiction.
      destruct Hy as (Y1 & Y2 & Y3 & Y4 & Y5 & Y6 & Y7). subst nn. destruct (Hpt _ Y7) as [P1 P2].
      inversion Y5; subst.
      pose proof (holds_closes pt done st1 ts w' (pi_name i) P1 (left_follows _ _ Hl Y4) P2 Y3) as Hcl.
      destruct ts as [|t0 ts]; [discriminate|]. injection Ht as <-.
      destruct Hcl as (st' & C1 & C2 & C3 & C4).
      exists (Ok (SBreak n (SToken pt))), st'. split.
      + apply (D (Done _ _)). eapply lt_break; [|exact C1]. now apply tp_other.
      + split; [now apply (known_scopes _ _ _ C3)|]. constructor. constructor; [exact C2|exact Y4].
    - destruct y as [done off st1|z done off st1|done st1|e0 st1|q|]; try contradiction.
      destruct Hy as (Y1 & Y2 & Y3 & Y4).
      exists (Err FFail), st1. split; [apply (D (Done _ _)); apply lt_fail|]. split; [exact Y3|exact Logic.I].
  Qed.

  (* ---------- loops ---------- *)

  (* the payload of the break that ends a loop *)
  Inductive payload : found -> list tree -> str -> list tree -> str -> Prop :=
  | pl_none ts w : payload FNone ts w ts w
  | pl_skip ts w r : payload (FSkip r) ts w ts r
  | pl_proxy ts w t w' : spread (t_rest t) (t_rest t) (t_kids t) w' -> payload (FProxy t) ts w (ts ++ t_kids t) (t_rest t).

  (* the rounds of the loop called [name], and what it ends with *)
  Inductive laps (name : str) (pats : list matcher) : list tree -> str -> list tree -> str -> Prop :=
  | la_fail ts w ts' w' : walk pats ts w (WFail ts' w') -> laps name pats ts w ts' w'
  | la_break ts w n p ts' w' ts2 e : walk pats ts w (WBreak n p ts' w') -> n = [] \/ n = name ->
      payload p ts' w' ts2 e -> laps name pats ts w ts2 e
  | la_next ts w ts' w' ts2 e : walk pats ts w (WDone ts' w' w') -> slen w' < slen w ->
      laps name pats ts' w' ts2 e -> laps name pats ts w ts2 e.

  Lemma payload_step h start pt p ts w ts2 e done st q : payload p ts w ts2 e -> start < usize_max ->
    holds h done st ts w -> left_over w -> gives h st w p q ->
    exists done' off' st', takes_payload E P pt start done (pos w) st q done' off' st' /\
      holds h done' st' ts2 e /\ follows w e /\ st_scopes st' = st_scopes st /\
      (forall x, (x < h)%nat -> tok st' x = tok st x) /\ heap_size st' = heap_size st.
  Proof.
    intros Hp Hst Hh Hl Hg. destruct Hp as [ts w|ts w r|ts w t w' Hsp].
    - inversion Hg; subst. exists done, (pos w), st. split; [now apply tp_other|]. split; [exact Hh|]. split; [apply follows_refl|auto].
    - inversion Hg as [| |r0 Hf| | |]; subst. eexists _, (pos r), st. split; [|split; [exact (holds_skip h done st ts w r start Hst Hh Hl Hf)|auto]].
      apply tp_skip. apply ct_skip; [reflexivity|]. now apply skips_pos.
    - inversion Hg as [|a t0 Ha Hf Hkn| | | |]; subst.
      destruct (proxy_step h done st ts w a t pt _ Ha Hh Hl Hf Hkn Hsp) as (done' & st2 & G1 & G2 & G3 & G4 & G5).
      exists done', (pos w'), st2. split; [|auto 10]. apply tp_proxy. apply ct_proxy; [now inversion Ha|exact G1].
  Qed.

  Lemma laps_loops name pats ts w ts2 e : laps name pats ts w ts2 e -> forall c i lo pt count left done st,
    pi_name i = name ->
    c_debug c = 0 -> re (c_off c) = slen (p_src P) -> rs (c_off c) < usize_max -> left_over w ->
    known B st -> (S pt <= heap_size st)%nat -> holds (S pt) done st ts w -> slen w < left ->
    tok st pt = std_token P name (mkR 0 0) ->
    exists done' st1 r st', closes P pt done' st1 r st' /\ loops E P c i lo s pt pats left count done (pos w) st (Done r st') /\
      holds (S pt) done' st1 ts2 e /\ known B st1 /\ follows w e /\ (S pt <= heap_size st1)%nat /\
      tok st1 pt = std_token P name (mkR 0 0).
  Proof.
    induction 1 as [ts w ts' w' Hw|ts w n p ts' w' ts2 e Hw Hn Hp|ts w ts' w' ts2 e Hw Hlt _ IH];
      intros c i lo pt count left done st Hi Hd Hre Hrs Hl Hk Hh Hho Hleft Htok;
      destruct (walk_pass _ _ _ _ Hw c (pi_name i) pt (S pt) done st Hd Hre Hrs Hl Hk Hh Hho) as (y & P1 & P2).
    - destruct y as [d off st1|z d off st1|d st1|e0 st1|q|]; try contradiction.
      destruct P2 as (Y1 & Y2 & Y3 & [Y4 Y5]). destruct (closes_total P pt d st1) as (r & st' & Hc).
      exists d, st1, r, st'. split; [exact Hc|]. split; [eapply lp_fail; eauto; lia|].
      split; [exact Y1|]. split; [exact Y3|]. split; [exact Y2|]. split; [lia|]. rewrite Y5 by lia. exact Htok.
    - destruct y as [d off st1|z d off st1|d st1|e0 st1|q|]; try contradiction.
      destruct z as [a|a|zz|nn q|nn q| |]; try contradiction.
      destruct P2 as (-> & -> & Y3 & Y4 & Y5 & Y6 & [Y7 Y8]).
      destruct (payload_step (S pt) (rs (c_off c)) pt _ _ _ _ _ d st1 q Hp Hrs Y3 (left_follows _ _ Hl Y4) Y5)
        as (d2 & off2 & st2 & Q1 & Q2 & Q3 & Q4 & Q5 & Q6).
      destruct (closes_total P pt d2 st2) as (r & st' & Hc).
      exists d2, st2, r, st'. split; [exact Hc|]. split; [eapply lp_break; eauto; [lia|subst; exact Hn]|].
      split; [exact Q2|]. split; [now apply (known_scopes _ _ _ Q4)|]. split; [eapply follows_trans; eauto|].
      split; [lia|]. rewrite Q5, Y8 by lia. exact Htok.
    - destruct y as [d off st1|z d off st1|d st1|e0 st1|q|]; try contradiction.
      destruct P2 as (-> & Y2 & Y3 & Y4 & [Y5 Y6]).
      destruct (IH c i lo pt (count + 1) (left - 1) d st1 Hi Hd Hre Hrs (left_follows _ _ Hl Y3) Y4) as (d2 & st2 & r & st' & Q1 & Q2 & Q3 & Q4 & Q5 & Q6 & Q7); auto.
      + lia.
      + lia.
      + rewrite Y6 by lia. exact Htok.
      + exists d2, st2, r, st'. split; [exact Q1|]. split; [eapply lp_next; eauto; lia|].
        split; [exact Q3|]. split; [exact Q4|]. split; [eapply follows_trans; eauto|]. split; [exact Q6|exact Q7].
  Qed.

  Lemma sees_loop pats i lo w ts e : pi_stop i = false -> pi_iter i = Some (lo, usize_max) -> lo < 1000 ->
    own_ok B (pi_custom i) (pi_name i) (MProgram pats i) ->
    laps (pi_name i) pats [] w ts e ->
    sees (MProgram pats i) w (match whole (pi_name i) ts e with Some t => Some (FTree t) | None => None end).
  Proof.
    intros Hs Hi Hlo Ho Hw c st Hd Hc Hk Hl.
    set (pt := List.length (st_heap st)). set (st0 := program_start P pats i s st).
    assert (Hrs : rs (c_off c) = pos w) by now rewrite Hc.
    assert (Hsz : heap_size st0 = S pt) by apply program_start_size.
    destruct (laps_loops (pi_name i) pats [] w ts e Hw c i lo pt 0 (usize_max - lo) [] st0) as (d & st1 & r & st' & Q1 & Q2 & Q3 & Q4 & Q5 & Q6 & Q7); auto.
    { now rewrite Hc. } { rewrite Hrs. apply pos_lt. } { now apply known_start. } { now rewrite Hsz. } { apply holds_nil. }
    { apply left_len in Hl. pose proof Hsmall. unfold isize_bound, usize_max in *. lia. }
    { apply program_start_tok. }
    assert (D : Runs E P (MProgram pats i) c s st r st').
    { apply (loop_does E P c i s st pats lo usize_max (Done r st')); auto. now rewrite Hrs. }
    pose proof (holds_closes pt d st1 ts e (pi_name i) ltac:(lia) (left_follows _ _ Hl Q5) Q7 Q3) as Hcl.
    exists r, st'. split; [exact D|].
    destruct ts as [|t0 ts].
    - apply closes_collected in Hcl. apply closes_collected in Q1. rewrite Hcl in Q1. injection Q1 as <- <-.
      split; [exact Q4|exact Logic.I].
    - destruct Hcl as (st2 & C1 & C2 & C3 & C4). apply closes_collected in C1. apply closes_collected in Q1.
      rewrite C1 in Q1. injection Q1 as <- <-. split; [now apply (known_scopes _ _ _ C3)|].
      cbn [whole outcome_is]. constructor; [exact C2|exact Q5].
  Qed.

  (* ---------- errors that end everything ---------- *)

  Lemma dies_optional m w e : dies m w e -> dies (MOptional m) w e.
  Proof.
    intros H c st Hd Hc Hk Hl. destruct (H (clone_with_name c "Optional") st Hd Hc Hk Hl) as (st' & D).
    exists st'. apply optional_runs. right. split; [discriminate|exact D].
  Qed.
  Lemma dies_map m f w e : (forall k, f <> MapUser k) -> dies m w e -> dies (MMap m f) w e.
  Proof.
    intros Hf H c st Hd Hc Hk Hl. destruct (H (renamed c "Map") st Hd Hc Hk Hl) as (st' & D).
    exists st'. now apply map_errors.
  Qed.
  Lemma dies_proxy m w e : dies m w e -> dies (Proxy_ m) w e.
  Proof.
    intros H c st Hd Hc Hk Hl.
    destruct (H (renamed c "Flatten") (mkSt (st_heap st) (scopes_after st s false "Flatten" (Proxy_ m))) Hd Hc) as (st1 & D);
      [exact Hk|exact Hl|].
    exists st1. apply (proxy_does E P m "Flatten" false c s st (Done _ _)). eexists (Done _ _). split; [exact D|reflexivity].
  Qed.
  Lemma dies_program pats i w e : pi_stop i = false -> pi_iter i = None ->
    own_ok B (pi_custom i) (pi_name i) (MProgram pats i) ->
    walk pats [] w (WFatal e) -> dies (MProgram pats i) w e.
  Proof.
    intros Hs Hi Ho Hw c st Hd Hc Hk Hl.
    set (pt := List.length (st_heap st)). set (st0 := program_start P pats i s st).
    assert (Hrs : rs (c_off c) = pos w) by now rewrite Hc.
    assert (Hsz : heap_size st0 = S pt) by apply program_start_size.
    destruct (walk_pass pats [] w _ Hw c (pi_name i) pt (S pt) [] st0 Hd) as (y & Hp & Hy); auto.
    { now rewrite Hc. } { rewrite Hrs. apply pos_lt. } { now apply known_start. } { now rewrite Hsz. } { apply holds_nil. }
    destruct y as [done off st1|z done off st1|done st1|e0 st1|q|]; try contradiction. cbn in Hy. subst e0.
    exists st1. rewrite <- Hrs in Hp. apply (program_does E P c i s st pats Hd Hs Hi (Fatal e st1) (Done (Err (FError e)) st1)); [exact Hp|apply lt_error].
  Qed.
  (* the rounds of a loop up to the error *)
  Inductive falls (pats : list matcher) : list tree -> str -> parse_error -> Prop :=
  | fa_now ts w e : walk pats ts w (WFatal e) -> falls pats ts w e
  | fa_next ts w ts' w' e : walk pats ts w (WDone ts' w' w') -> slen w' < slen w -> falls pats ts' w' e -> falls pats ts w e.
  Lemma falls_loops pats ts w e : falls pats ts w e -> forall c i lo pt count left done st,
    c_debug c = 0 -> re (c_off c) = slen (p_src P) -> rs (c_off c) < usize_max -> left_over w ->
    known B st -> (S pt <= heap_size st)%nat -> holds (S pt) done st ts w -> slen w < left ->
    exists st', loops E P c i lo s pt pats left count done (pos w) st (Done (Err (FError e)) st').
  Proof.
    induction 1 as [ts w e Hw|ts w ts' w' e Hw Hlt _ IH]; intros c i lo pt count left done st Hd Hre Hrs Hl Hk Hh Hho Hleft;
      destruct (walk_pass _ _ _ _ Hw c (pi_name i) pt (S pt) done st Hd Hre Hrs Hl Hk Hh Hho) as (y & P1 & P2);
      destruct y as [d off st1|z d off st1|d st1|e0 st1|q|]; try contradiction.
    - cbn in P2. subst e0. exists st1. eapply lp_error; [lia|exact P1].
    - destruct P2 as (-> & Y2 & Y3 & Y4 & [Y5 Y6]).
      destruct (IH c i lo pt (count + 1) (left - 1) d st1 Hd Hre Hrs (left_follows _ _ Hl Y3) Y4) as (st' & Q); auto; try lia.
      exists st'. eapply lp_next; [lia|exact P1|exact Q].
  Qed.
  Lemma dies_loop pats i lo w e : pi_stop i = false -> pi_iter i = Some (lo, usize_max) -> lo < 1000 ->
    own_ok B (pi_custom i) (pi_name i) (MProgram pats i) -> falls pats [] w e -> dies (MProgram pats i) w e.
  Proof.
    intros Hs Hi Hlo Ho Hw c st Hd Hc Hk Hl.
    set (pt := List.length (st_heap st)). set (st0 := program_start P pats i s st).
    assert (Hrs : rs (c_off c) = pos w) by now rewrite Hc.
    assert (Hsz : heap_size st0 = S pt) by apply program_start_size.
    destruct (falls_loops pats [] w e Hw c i lo pt 0 (usize_max - lo) [] st0 Hd) as (st' & Q); auto.
    { now rewrite Hc. } { rewrite Hrs. apply pos_lt. } { now apply known_start. } { now rewrite Hsz. } { apply holds_nil. }
    { apply left_len in Hl. pose proof Hsmall. unfold isize_bound, usize_max in *. lia. }
    exists st'. apply (loop_does E P c i s st pats lo usize_max (Done (Err (FError e)) st')); auto. now rewrite Hrs.
  Qed.
  (* the alternatives of a switch up to the error *)
  Inductive fatal_pick : list matcher -> str -> parse_error -> Prop :=
  | fp_here m ms w e : dies m w e -> fatal_pick (m :: ms) w e
  | fp_fail m ms w e : sees m w None -> fatal_pick ms w e -> fatal_pick (m :: ms) w e.
  Lemma fatal_chooses alts w e : fatal_pick alts w e -> forall c st,
    c_debug c = 0 -> c_off c = mkR (pos w) (slen (p_src P)) -> known B st -> left_over w ->
    exists st', chooses E P c s alts st (Done (Err (FError e)) st').
  Proof.
    induction 1 as [m ms w e Hm|m ms w e Hm _ IH]; intros c st Hd Hc Hk Hl.
    - destruct (Hm c st Hd Hc Hk Hl) as (st' & D). exists st'. eapply ch_decide; [exact D|]. constructor.
    - destruct (Hm c st Hd Hc Hk Hl) as (x & st1 & D & K & O). destruct x as [y|[|e0]]; cbn in O; try contradiction.
      destruct (IH c st1 Hd Hc K Hl) as (st' & Hch). exists st'. eapply ch_pass; [exact D|now left|exact Hch].
  Qed.
  Lemma dies_switch alts i w e : pi_stop i = true -> pi_iter i = None ->
    own_ok B (pi_custom i) (pi_name i) (MProgram alts i) -> fatal_pick alts w e -> dies (MProgram alts i) w e.
  Proof.
    intros H1 H2 Ho Hp c st Hd Hc Hk Hl.
    destruct (fatal_chooses alts w e Hp (pattern_ctx c (pi_name i) (List.length (st_heap st)) (rs (c_off c)))
                (program_start P alts i s st)) as (st' & Hch); auto.
    - cbn. rewrite Hc. reflexivity.
    - now apply known_start.
    - exists st'. apply (switch_does E P c i s st alts (Done (Err (FError e)) st')); auto. rewrite Hc. cbn [rs]. pose proof (pos_lt w). lia.
  Qed.
  Lemma dies_ref name m w e : In (name, VMatcher m) B -> dies m w e -> dies (Ref_ name) w e.
  Proof.
    intros Hin H c st Hd Hc Hk Hl.
    set (st0 := mkSt (st_heap st) (scopes_after st s false "Ref" (Ref_ name))).
    assert (Hk0 : known B st0) by (eapply known_scopes; [|exact Hk]; reflexivity).
    destruct (H (clone_with_name c "Ref") st0 Hd Hc Hk0 Hl) as (st' & D).
    exists st'. apply (ref_resolves E P name "Ref" false c s st m) with (o := Done (Err (FError e)) st').
    - destruct Hk0 as [_ Hk0]. now apply Hk0.
    - exact D.
  Qed.
End Sees.
