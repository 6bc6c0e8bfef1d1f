(* What the tokens of a grammar look like, and that it does not panic: rules for
   the constructs that the grammar of scripts is made of. *)
From Verif Require Import Macros Spec SpecMore Mono FrameProofs CombProofs AtomProofs ProgramProofs ScopeProofs BoundsProofs
  MapProofs TextProofs FetchProofs NamesProofs DecimalProofs ContextProofs SpecGuard GuardProofs SpecShape.
Open Scope string_scope.
Open Scope list_scope.
Open Scope N_scope.

(* the names of tokens, nothing for errors *)
Definition kinds (st : state) (l : list addr) : list (option str) :=
  map (fun a => if is_error (tok st a) then None else Some (tk_name (tok st a))) l.

(* what is seen of a result *)
Inductive out :=
| OTok (err : bool) (name : str) (kids : list (option str)) (bare : bool)
| OPrx (kids : list (option str))
| OPin | OSkip | ONone | OBrk (n : str) (p : out) | OOther.
Fixpoint seen (st : state) (x : success) : out :=
  match x with
  | SToken a =>
      let t := tok st a in
      if should_discard t then OPin
      else OTok (is_error t) (tk_name t) (kinds st (tk_kids t)) (match tk_attrs t with [] => true | _ => false end)
  | SProxy a => OPrx (kinds st (tk_kids (tok st a)))
  | SSkip _ => OSkip
  | SNone => ONone
  | SBreak n p => OBrk n (seen st p)
  | _ => OOther
  end.
(* the names it adds to the children of a program *)
Definition adds (o : out) : list (option str) :=
  match o with OTok e n _ _ => [if e then None else Some n] | OPrx l => l | _ => [] end.
Definition is_break (o : out) : bool := match o with OBrk _ _ => true | _ => false end.

Lemma self_kid h st a : forest h st -> (h <= a < heap_size st)%nat -> ~ In a (tk_kids (tok st a)).
Proof.
  intros Hf Ha Hin. destruct (Hf a Ha) as [_ [l Hl]].
  assert (Hsplit : forall roots l, preorder st roots l -> forall b, In b roots -> exists l', preorder st [b] l' /\ (List.length l' <= List.length l)%nat).
  { clear. induction 1 as [|x roots l1 l2 H1 _ H2 IH2]; intros b Hb; [destruct Hb|]. destruct Hb as [<-|Hb].
    - exists (x :: l1). split; [now apply preorder_one|]. cbn. rewrite app_length. lia.
    - destruct (IH2 b Hb) as (l' & H3 & H4). exists l'. split; [exact H3|]. cbn. rewrite app_length. lia. }
  assert (H : forall n l, (List.length l < n)%nat -> preorder st [a] l -> False).
  { induction n as [|n IH]; intros l0 Hn Hp; [lia|]. inversion Hp as [|a0 r0 l1 l2 H1 H2]; subst. cbn in Hn. rewrite app_length in Hn.
    destruct (Hsplit _ _ H1 a Hin) as (l' & H3 & H4). apply (IH l'); [lia|exact H3]. }
  eapply H; [|exact Hl]. apply Nat.lt_succ_diag_r.
Qed.

(* the scope exists, the names mean what they are to mean, and they are there *)
Definition knows (body : str -> option matcher) (s : sid) (st : state) : Prop :=
  known body s st /\ valid_scope st s /\ forall n b, body n = Some b -> exists m, sc_get st s n = Some (VMatcher m).
Lemma known_scopes body s st st' : st_scopes st' = st_scopes st -> knows body s st -> knows body s st'.
Proof.
  intros H (H1 & H2 & H3). split; [now apply (GuardProofs.known_scopes _ s st)|]. split; [unfold valid_scope in *; now rewrite H|].
  intros n b Hb. destruct (H3 n b Hb) as [m Hm]. exists m. rewrite <- Hm. unfold sc_get, stack_of. now rewrite H.
Qed.
Lemma known_set body s st n v : (forall b, body n = Some b -> v = VMatcher b) -> knows body s st -> knows body s (sc_set st s n v).
Proof.
  intros H (H1 & H2 & H3). split; [apply GuardProofs.known_set; [intros m b -> Hb; specialize (H b Hb); congruence|exact H1]|]. split; [now apply valid_set|].
  intros n' b Hb. destruct (str_eqb n' n) eqn:En.
  - apply str_eqb_eq in En. subst n'. exists b. rewrite get_set_same by exact H2. now rewrite (H b Hb).
  - destruct (H3 n' b Hb) as [m Hm]. exists m. rewrite <- Hm. apply get_set_other. right. intros ->. now rewrite str_eqb_refl in En.
Qed.

(* the text of a range and what comes after it *)
Definition at_text (P : parser) (r : range) (w post : str) : Prop :=
  exists pre, p_src P = pre ++ w ++ post /\ rs r = slen pre /\ re r = slen pre + slen w.

Section Shape.
  Variables (E : env) (P : parser) (body : str -> option matcher) (Sh : str -> list (option str) -> Prop).
  (* what is said of tokens without children: name, range and value *)
  Variable Lx : str -> range -> str -> Prop.
  (* what is said of fatal errors *)
  Variable Fat : parse_error -> Prop.
  Hypothesis HE : tame E.
  Notation L := (slen (p_src P)).
  Hypothesis Hlen : L < isize_bound.
  Hypothesis Hascii : ascii_only (p_src P).
  Notation known := (knows body).

  (* ---------- tokens ---------- *)

  Definition shaped (st : state) (a : addr) : Prop :=
    let t := tok st a in
    should_discard t = false /\ re (tk_mr t) <= L /\
    if is_error t then (rs (tk_mr t) <= L \/ rs (tk_mr t) = usize_max) /\ get_attr "__message" t <> None /\ tk_name t = "Error"
    else rs (tk_mr t) <= L /\ Sh (tk_name t) (kinds st (tk_kids t)) /\ (tk_kids t = [] -> Lx (tk_name t) (tk_mr t) (get_value t)).
  Definition neat (h : nat) (st : state) : Prop :=
    forall a, (h <= a)%nat -> forall k, In k (tk_kids (tok st a)) -> shaped st k.
  Definition calm (h : nat) (st : state) : Prop := forall a, (h <= a)%nat -> is_error (tok st a) = false.

  Lemma kinds_app st l l' : kinds st (l ++ l') = kinds st l ++ kinds st l'.
  Proof. apply map_app. Qed.
  Lemma kinds_same st st' l : (forall a, In a l -> tk_name (tok st' a) = tk_name (tok st a) /\ is_error (tok st' a) = is_error (tok st a)) ->
    kinds st' l = kinds st l.
  Proof. intros H. apply map_ext_in. intros a Ha. destruct (H a Ha) as [-> ->]. reflexivity. Qed.

  (* a change of a token that does not matter here *)
  Definition alike (t t' : token) : Prop :=
    tk_kind t' = tk_kind t /\ tk_name t' = tk_name t /\ tk_flags t' = tk_flags t /\ tk_kids t' = tk_kids t /\
    re (tk_mr t') = re (tk_mr t) /\
    (if is_error t then (rs (tk_mr t') = rs (tk_mr t) \/ rs (tk_mr t') <= L \/ rs (tk_mr t') = usize_max) /\
       (get_attr "__message" t <> None -> get_attr "__message" t' <> None)
     else rs (tk_mr t') = rs (tk_mr t) /\ (tk_kids t = [] -> get_value t' = get_value t)).
  Lemma alike_refl t : alike t t.
  Proof. unfold alike. destruct (is_error t); tauto. Qed.
  Definition likewise (st st' : state) : Prop := forall a, alike (tok st a) (tok st' a).
  Lemma alike_error t t' : alike t t' -> is_error t' = is_error t.
  Proof. intros (H1 & H2 & H3 & _). unfold is_error. now rewrite H3. Qed.
  Lemma likewise_kinds st st' l : likewise st st' -> kinds st' l = kinds st l.
  Proof. intros H. apply kinds_same. intros a _. split; [apply H|]. now apply alike_error. Qed.
  Lemma likewise_shaped st st' a : likewise st st' -> shaped st a -> shaped st' a.
  Proof.
    intros H. pose proof (H a) as Ha. pose proof (alike_error _ _ Ha) as He. destruct Ha as (H1 & H2 & H3 & H4 & H5 & H6).
    unfold shaped, should_discard. rewrite H1, He, H2, H4, H5, (likewise_kinds st st' _ H). intros (G1 & G2 & G3).
    split; [exact G1|]. split; [exact G2|]. destruct (is_error (tok st a)).
    - destruct H6 as [H6 H7], G3 as (G3 & G4 & G5). split; [|auto]. destruct H6 as [->|[|]]; tauto.
    - destruct H6 as [H6 H7], G3 as (G3 & G4 & G5). rewrite H6. split; [exact G3|]. split; [exact G4|]. intros Hk.
      assert (Hm : tk_mr (tok st' a) = tk_mr (tok st a)) by (destruct (tk_mr (tok st' a)), (tk_mr (tok st a)); cbn in *; congruence).
      rewrite Hm, H7 by exact Hk. auto.
  Qed.
  Lemma likewise_neat h st st' : likewise st st' -> neat h st -> neat h st'.
  Proof.
    intros H Hn a Ha k Hk. apply (likewise_shaped st); [exact H|]. apply (Hn a Ha).
    destruct (H a) as (_ & _ & _ & E4 & _). now rewrite E4 in Hk.
  Qed.
  Lemma likewise_calm h st st' : likewise st st' -> calm h st -> calm h st'.
  Proof. intros H Hc a Ha. rewrite (alike_error _ _ (H a)). auto. Qed.
  Lemma likewise_set st a t : alike (tok st a) t -> likewise st (set_tok st a t).
  Proof.
    intros H b. destruct (Nat.eq_dec a b) as [<-|Hn].
    - destruct (Nat.lt_ge_cases a (heap_size st)) as [Hl|Hl].
      + now rewrite tok_set_same.
      + rewrite tok_set_dead by exact Hl. apply alike_refl.
    - rewrite tok_set_other by exact Hn. apply alike_refl.
  Qed.
  Lemma likewise_heap st st' : st_heap st' = st_heap st -> likewise st st'.
  Proof. intros H a. unfold tok. rewrite H. apply alike_refl. Qed.

  Lemma seen_likewise st st' x : likewise st st' -> (forall a, In a (success_tokens x) -> tk_attrs (tok st' a) = tk_attrs (tok st a)) ->
    seen st' x = seen st x.
  Proof.
    intros H. induction x as [a|a|z|n p IH|n p IH| |]; cbn [seen success_tokens]; intros Ht; auto.
    - rewrite (Ht a (or_introl eq_refl)), (alike_error _ _ (H a)). destruct (H a) as (H1 & H2 & H3 & H4 & _).
      unfold should_discard. now rewrite H1, H2, H4, (likewise_kinds st st' _ H).
    - destruct (H a) as (_ & _ & _ & H4 & _). now rewrite H4, (likewise_kinds st st' _ H).
    - now rewrite IH.
  Qed.

  (* older tokens stay as they are *)
  Definition grown (st st' : state) : Prop := preserved (heap_size st) st st'.
  Lemma grown_kinds st st' l : grown st st' -> (forall a, In a l -> (a < heap_size st)%nat) -> kinds st' l = kinds st l.
  Proof. intros [_ H] Hl. apply kinds_same. intros a Ha. rewrite H by auto. auto. Qed.
  Lemma grown_shaped h st st' a : forest h st -> grown st st' -> (h <= a < heap_size st)%nat -> shaped st a -> shaped st' a.
  Proof.
    intros Hf Hg Ha. unfold shaped. rewrite (proj2 Hg) by lia.
    rewrite (grown_kinds st st') by (auto; intros k Hk; eapply forest_closed in Hk; eauto; lia). auto.
  Qed.
  Lemma grown_neat h st st' : forest h st -> (h <= heap_size st)%nat -> grown st st' -> neat h st -> neat (heap_size st) st' -> neat h st'.
  Proof.
    intros Hf Hh Hg H1 H2 a Ha k Hk. destruct (Nat.lt_ge_cases a (heap_size st)) as [Hl|Hl]; [|eapply H2; eauto].
    rewrite (proj2 Hg) in Hk by exact Hl. eapply grown_shaped; eauto. eapply forest_closed; eauto.
  Qed.
  Lemma grown_calm h st st' : grown st st' -> calm h st -> calm (heap_size st) st' -> calm h st'.
  Proof.
    intros Hg H1 H2 a Ha. destruct (Nat.lt_ge_cases a (heap_size st)) as [Hl|Hl]; [|auto]. rewrite (proj2 Hg) by exact Hl. auto.
  Qed.
  Lemma neat_top st : neat (heap_size st) st.
  Proof. intros a Ha k. rewrite dead_tok by exact Ha. intros []. Qed.
  Lemma calm_top st : calm (heap_size st) st.
  Proof. intros a Ha. rewrite dead_tok by exact Ha. reflexivity. Qed.
  Lemma neat_leaf h st t : tk_kids t = [] -> forest h st -> (h <= heap_size st)%nat -> neat h st -> neat h (alloc st t).
  Proof.
    intros Ht Hf Hh Hn. eapply grown_neat; [exact Hf|exact Hh|now apply preserved_alloc|exact Hn|].
    intros a Ha k Hk. destruct (Nat.eq_dec a (heap_size st)) as [->|Hne].
    - change (heap_size st) with (next_addr st) in Hk. rewrite tok_alloc_new, Ht in Hk. destruct Hk.
    - rewrite dead_tok in Hk; [destruct Hk|]. pose proof (heap_size_alloc st t). unfold heap_size in *. lia.
  Qed.
  Lemma calm_leaf h st t : is_error t = false -> calm h st -> calm h (alloc st t).
  Proof.
    intros Ht Hc. eapply grown_calm; [now apply preserved_alloc|exact Hc|].
    intros a Ha. destruct (Nat.eq_dec a (heap_size st)) as [->|Hne].
    - change (heap_size st) with (next_addr st). now rewrite tok_alloc_new.
    - rewrite dead_tok; [reflexivity|]. pose proof (heap_size_alloc st t). unfold heap_size in *. lia.
  Qed.

  (* ---------- results ---------- *)

  (* how far the tokens of a result reach: they and their children beyond where
     it started; they themselves; those that are no errors; nothing is said *)
  Inductive level := Strong | Strict | Errors | Lax.
  Definition reach (lv : level) (lo : N) (st : state) (a : addr) : Prop :=
    match lv with
    | Strong => lo < stop_of st a /\ forall k, In k (tk_kids (tok st a)) -> lo < stop_of st k
    | Strict => lo < stop_of st a
    | Errors => is_error (tok st a) = false -> lo < stop_of st a
    | Lax => True
    end.
  Definition payload (lo : N) (st : state) (x : success) : Prop :=
    match x with
    | SToken a | SProxy a => shaped st a /\ reach Strong lo st a
    | SSkip z => (0 <= z)%Z /\ lo + Z.to_N z <= L
    | SNone => True
    | _ => False
    end.
  Definition outcome (lv : level) (lo : N) (st : state) (x : success) : Prop :=
    match x with
    | SToken a => should_discard (tok st a) = true \/ (shaped st a /\ reach lv lo st a)
    | SProxy a => shaped st a /\ reach Strong lo st a
    | SSkip z => (0 <= z)%Z /\ lo + Z.to_N z <= L
    | SBreak _ p => payload lo st p
    | _ => False
    end.
  Lemma reach_likewise lv lo st st' a : likewise st st' -> reach lv lo st a -> reach lv lo st' a.
  Proof.
    intros H. pose proof (H a) as (H1 & H2 & H3 & H4 & H5 & _). unfold reach, stop_of in *. destruct lv; [| | |auto].
    - rewrite H5, H4. intros [G1 G2]. split; [exact G1|]. intros k Hk. destruct (H k) as (_ & _ & _ & _ & -> & _). auto.
    - now rewrite H5.
    - rewrite H5, (alike_error _ _ (H a)). auto.
  Qed.
  Lemma outcome_likewise lv lo st st' x : likewise st st' -> outcome lv lo st x -> outcome lv lo st' x.
  Proof.
    intros H. assert (Hp : forall p, payload lo st p -> payload lo st' p).
    { intros [a|a|z|n p|n p| |]; cbn [payload]; auto; intros [H1 H2]; (split; [eapply likewise_shaped; eauto|eapply reach_likewise; eauto]). }
    destruct x as [a|a|z|n p|n p| |]; cbn [outcome]; auto.
    - destruct (H a) as (H1 & _). unfold should_discard in *. rewrite H1. intros [H2|[H2 H3]]; [auto|right].
      split; [eapply likewise_shaped; eauto|eapply reach_likewise; eauto].
    - intros [H1 H2]; (split; [eapply likewise_shaped; eauto|eapply reach_likewise; eauto]).
  Qed.
  Lemma reach_lower lv lo lo' st a : lo' <= lo -> reach lv lo st a -> reach lv lo' st a.
  Proof.
    intros Hl. destruct lv; cbn [reach]; auto; [intros [H1 H2]; split; [lia|intros k Hk; specialize (H2 k Hk); lia]|lia|].
    intros H He. specialize (H He). lia.
  Qed.
  Lemma outcome_lower lv lo lo' st x : lo' <= lo -> outcome lv lo st x -> outcome lv lo' st x.
  Proof.
    intros Hl. assert (Hp : forall p, payload lo st p -> payload lo' st p).
    { intros [a|a|z|n p|n p| |]; cbn [payload]; auto; intros [H1 H2]; (split; [exact H1|]); [| |lia]; eapply reach_lower; eauto. }
    destruct x as [a|a|z|n p|n p| |]; cbn [outcome]; auto.
    - intros [H1|[H1 H2]]; [auto|right]. split; [exact H1|]. eapply reach_lower; eauto.
    - intros [H1 H2]. split; [exact H1|]. eapply reach_lower; eauto.
    - intros [H1 H2]. split; [exact H1|lia].
  Qed.
  Lemma outcome_level lv lv' lo st x : lv = Strong \/ lv' = Lax -> outcome lv lo st x -> outcome lv' lo st x.
  Proof.
    intros H. destruct x as [a|a|z|n p|n p| |]; cbn [outcome]; auto. intros [H1|[H1 H2]]; [auto|right]. split; [exact H1|].
    destruct H as [->| ->]; [|exact Logic.I]. destruct lv'; cbn [reach] in *; tauto.
  Qed.

  (* ---------- what is shown of a matcher ---------- *)

  Variable N0 : nat.
  Definition good (c : ctx) : Prop := rs (c_off c) <= L /\ re (c_off c) = L /\ c_debug c = 0.
  Definition fated (e : failure) : Prop := match e with FFail => True | FError e => Fat e end.
  Definition after (q : bool) (lv : level) (T : out -> Prop) (lo : N) (s : sid) (h : nat) (r : mres) (st' : state) : Prop :=
    known s st' /\ neat h st' /\ (q = true -> calm h st') /\
    match r with Err e => fated e | Ok x => outcome lv lo st' x /\ T (seen st' x) end.
  Definition ends (q : bool) (lv : level) (T : out -> Prop) (lo : N) (s : sid) (h : nat) (r : res mres) : Prop :=
    match r with Ret r st' => after q lv T lo s h r st' | Pan _ => False | OOF => True end.
  Definition SemAt (n : nat) (q : bool) (lv : level) (m : matcher) (T : out -> Prop) : Prop :=
    forall c s st, known s st -> good c -> ends q lv T (rs (c_off c)) s (heap_size st) (exec n E P m c s st).
  Definition Sem (q : bool) (lv : level) (m : matcher) (T : out -> Prop) : Prop :=
    forall n, (n <= N0)%nat -> SemAt n q lv m T.
  Definition own (m : matcher) : Prop := m_custom m = true -> forall b, body (m_name m) = Some b -> b = m.

  Lemma known_own m s st : own m -> known s st -> known s (before_exec m s st).
  Proof.
    intros Hm Hk. unfold before_exec. destruct (m_custom m) eqn:Ec; [|exact Hk].
    apply known_set; [|exact Hk]. intros b Hb. f_equal. symmetry. now apply Hm.
  Qed.
  Lemma good_name c n : good c -> good (clone_with_name c n).
  Proof. auto. Qed.

  Lemma after_weaken q q' lv lv' (T T' : out -> Prop) lo s h r st : (q' = true -> q = true) -> lv = lv' \/ lv = Strong \/ lv' = Lax ->
    (forall o, T o -> T' o) -> after q lv T lo s h r st -> after q' lv' T' lo s h r st.
  Proof.
    intros Hq Hlv HT (H1 & H2 & H3 & H4). split; [exact H1|]. split; [exact H2|]. split; [auto|].
    destruct r as [x|]; [|exact H4]. destruct H4 as [H4 H5]. split; [|auto].
    destruct Hlv as [->|Hlv]; [exact H4|]. eapply outcome_level; eauto.
  Qed.
  Lemma sem_weaken q q' lv lv' m (T T' : out -> Prop) : Sem q lv m T -> (q' = true -> q = true) -> lv = lv' \/ lv = Strong \/ lv' = Lax ->
    (forall o, T o -> T' o) -> Sem q' lv' m T'.
  Proof.
    intros H Hq Hlv HT n Hn c s st Hk Hc. specialize (H n Hn c s st Hk Hc). unfold ends in *. destruct (exec n E P m c s st); auto.
    eapply after_weaken; eauto.
  Qed.
  (* one level down *)
  Lemma sem_step q lv m T : own m ->
    (forall n, (S n <= N0)%nat -> forall c s st0 st, before_exec m s st0 = st -> known s st -> good c ->
      ends q lv T (rs (c_off c)) s (heap_size st) (step n E P (exec n E P) m c s st0)) -> Sem q lv m T.
  Proof.
    intros Ho H [|n] Hn c s st Hk Hc; [exact Logic.I|]. cbn [exec].
    specialize (H n Hn c s st (before_exec m s st) eq_refl (known_own m s st Ho Hk) Hc). now rewrite before_size in H.
  Qed.

  (* ---------- slices ---------- *)

  Lemma slices a b : a <= b -> b <= L -> exists w, src_slice P a b = Val w.
  Proof.
    intros H1 H2. pose proof (ascii_sliceable (p_src P) (mkR a b) Hascii H1 H2) as Hs.
    apply sliceable_slice in Hs as (w & Hw & _). exists w. unfold src_slice. cbn [rs re] in Hw. now rewrite Hw.
  Qed.
  Lemma dbg_good c n : c_debug c = 0 -> dbg E P c n = Val tt.
  Proof. unfold dbg. now intros ->. Qed.
  Lemma usize_fits b n : n < usize_max -> usize_add b n 1 = Some (n + 1).
  Proof.
    intros H. unfold usize_add. unfold usize_max, isize_bound in *.
    match goal with |- context [?x <=? ?y] => destruct (N.leb_spec x y) | |- context [?x <? ?y] => destruct (N.ltb_spec x y) end; try reflexivity; lia.
  Qed.
  Lemma error_text msg r : rs r <= L -> re r <= L -> exists t, error_string E P msg r = Val t.
  Proof.
    intros H1 H2. unfold error_string, get_lines, get_columns.
    destruct (slices 0 (rs r)) as [w1 ->]; [lia|lia|]. destruct (slices 0 (re r)) as [w2 ->]; [lia|lia|].
    destruct (columns_loop r (newline_ends 0 w2) 0 0 0) as [[ln fc] lc].
    assert (Hs : forall x, x <= L -> exists y, or_die POverflow (usize_add (e_checks E) x 1) = Val y).
    { intros x Hx. rewrite usize_fits by (unfold usize_max, isize_bound in *; lia). eexists. reflexivity. }
    destruct (Hs (if ln =? 0 then rs r else rs r - ln)) as [y1 Hy1]; [destruct (ln =? 0); lia|].
    destruct (Hs (if ln =? 0 then re r else re r - ln)) as [y2 Hy2]; [destruct (ln =? 0); lia|].
    rewrite Hy1, Hy2. destruct (fc =? 0), (lc =? 0); eexists; reflexivity.
  Qed.

  (* ---------- atoms ---------- *)

  Let nobody : str -> option matcher := fun _ => None.
  Let no_names : forall n b, nobody n = Some b -> onward nobody false false b /\ keeps_names nobody b.
  Proof. discriminate. Qed.
  Let str_in c v r := str_inside P nobody Hlen no_names c v r.
  Let re_in c f r := re_inside P nobody Hlen no_names c f r.
  Let scan_in c ep esc f i j q k v := scan_inside P nobody Hlen no_names c ep esc f i j q k v.
  Let slice_in a b w := slice_inside P nobody Hlen no_names a b w.

  Lemma after_err q lv T lo s st e : known s st -> fated e -> after q lv T lo s (heap_size st) (Err e) st.
  Proof. intros Hk He. split; [exact Hk|]. split; [apply neat_top|]. split; [intros _; apply calm_top|exact He]. Qed.
  Lemma after_skip q lv (T : out -> Prop) lo s st : known s st -> lo <= L -> T OSkip -> after q lv T lo s (heap_size st) (Ok (SSkip 0)) st.
  Proof.
    intros Hk Hl HT. split; [exact Hk|]. split; [apply neat_top|]. split; [intros _; apply calm_top|].
    split; [cbn; split; [lia|]; change (Z.to_N 0) with 0; lia|exact HT].
  Qed.
  Lemma after_leaf q (T : out -> Prop) lo s st t : known s st -> tk_kids t = [] -> should_discard t = false -> tk_flags t = 0 ->
    rs (tk_mr t) <= L -> lo < re (tk_mr t) <= L -> Sh (tk_name t) [] -> Lx (tk_name t) (tk_mr t) (get_value t) ->
    T (OTok false (tk_name t) [] (match tk_attrs t with [] => true | _ => false end)) ->
    after q Strong T lo s (heap_size st) (Ok (SToken (next_addr st))) (alloc st t).
  Proof.
    intros Hk K1 K2 K3 K4 K5 K6 K8 K7.
    assert (He : is_error t = false) by (unfold is_error; now rewrite K3).
    assert (Hnew : tok (alloc st t) (next_addr st) = t) by apply tok_alloc_new.
    split; [now apply (known_scopes _ s st)|]. split; [now apply neat_leaf; [| |apply le_n|apply neat_top]; [|apply forest_top]|].
    split; [intros _; now apply calm_leaf; [|apply calm_top]|].
    split.
    - right. unfold shaped, reach, stop_of. rewrite Hnew, He, K1. split; [split; [exact K2|split; [lia|split; [lia|split; [exact K6|auto]]]]|].
      split; [lia|intros k []].
    - cbn [seen]. rewrite Hnew, K2, He, K1. exact K7.
  Qed.

  Lemma window_at a v post : window (p_src P) a L (v ++ post) -> at_text P (mkR a (a + slen v)) v post.
  Proof.
    intros (pre & post' & He & L1 & L2). exists pre. assert (post' = []) as ->.
    { apply slen_0. rewrite He, !slen_app in L2. lia. }
    rewrite app_nil_r in He. cbn [rs re]. rewrite L1. auto.
  Qed.
  Lemma text_at r w post : at_text P r w post -> range_text P r = w.
  Proof.
    intros (pre & He & H1 & H2). apply range_text_ascii; [exact Hascii|]. exists pre, post. split; [exact He|]. split; [auto|]. now rewrite slen_app.
  Qed.
  Lemma slice_window a b w : src_slice P a b = Val w -> window (p_src P) a b w.
  Proof.
    unfold src_slice. destruct (slice (p_src P) a b) as [x|] eqn:Es; [|discriminate]. cbn. intros H. injection H as <-. now apply slice_iff in Es.
  Qed.
  Lemma str_at c v r : re (c_off c) = L -> matches_str P c v = Val (Some r) -> exists post, at_text P r v post /\ rs r = rs (c_off c).
  Proof.
    intros HL Em. unfold matches_str in Em. destruct (slen v =? 0); [discriminate|].
    destruct (src_slice _ _ _) as [w0|] eqn:Ew; [|discriminate]. destruct (starts_with v w0) eqn:Es; [|discriminate]. injection Em as <-.
    apply starts_with_iff in Es as [post ->]. apply slice_window in Ew. rewrite HL in Ew. exists post. split; [|reflexivity]. now apply window_at.
  Qed.
  Lemma sem_equals q v name b (T : out -> Prop) : own (MEquals (FStr v) name b) -> Sh name [] ->
    (forall r post, at_text P r v post -> Lx name r v) -> T (OTok false name [] true) ->
    Sem q Strong (MEquals (FStr v) name b) T.
  Proof.
    intros Ho HS HX HT. apply sem_step; [exact Ho|]. intros n _ c s st0 st Hst Hk (C1 & C2 & C3).
    unfold step. rewrite Hst. clear st0 Hst. cbn [fetch_value m_name].
    rewrite (dbg_good _ 10) by exact C3.
    destruct (matches_str P (clone_with_name c name) v) as [[r|]|p] eqn:Em; cbn [ends].
    - apply str_in in Em as Hi. cbn [c_off clone_with_name] in Hi.
      destruct (str_at _ _ _ C2 Em) as (post & Hat & Hrs). cbn [c_off clone_with_name] in Hrs.
      apply after_leaf; auto; try (cbn; lia). change (Lx name r (range_text P r)). rewrite (text_at _ _ _ Hat). eauto.
    - now apply after_err.
    - unfold matches_str in Em. destruct (slen v =? 0); [discriminate|]. cbn [c_off clone_with_name] in Em. rewrite C2 in Em.
      destruct (slices (rs (c_off c)) L) as [w Hw]; [lia|lia|]. rewrite Hw in Em. destruct (starts_with v w); discriminate.
  Qed.
  Lemma sem_matches q f name b (T : out -> Prop) : own (MMatches f name b) -> sane_find f -> Sh name [] ->
    (forall r w post, at_text P r w post -> f (w ++ post) = Some (0, slen w) -> 0 < slen w -> Lx name r w) ->
    T (OTok false name [] true) -> (T OSkip \/ forall w z, f w = Some (0, z) -> 0 < z) -> Sem q Strong (MMatches f name b) T.
  Proof.
    intros Ho Hf HS HX HT HT2. apply sem_step; [exact Ho|]. intros n _ c s st0 st Hst Hk (C1 & C2 & C3).
    unfold step. rewrite Hst. clear st0 Hst. cbn [m_name]. rewrite (dbg_good _ 10) by exact C3.
    destruct (matches_regexp P (clone_with_name c name) f) as [[r|]|p] eqn:Em; cbn [ends].
    - apply re_in in Em as Hi; [|exact Hf]. cbn [c_off clone_with_name] in Hi.
      destruct (N.eqb_spec (rs r) (re r)) as [He|Hne]; cbn [ends].
      + apply after_skip; auto. destruct HT2 as [HT2|HT2]; [exact HT2|]. exfalso. unfold matches_regexp in Em.
        destruct (src_slice _ _ _) as [w|]; [|discriminate]. destruct (f w) as [[ms me]|] eqn:Efw; [|discriminate].
        destruct (N.eqb_spec (ms + rs (c_off (clone_with_name c name))) (rs (c_off (clone_with_name c name)))) as [Hz|]; [|discriminate]. injection Em as <-.
        cbn [rs re] in He. assert (ms = 0) by lia. subst ms. apply HT2 in Efw. lia.
      + assert (Hx : exists w post, at_text P r w post /\ f (w ++ post) = Some (0, slen w) /\ 0 < slen w).
        { unfold matches_regexp in Em. destruct (src_slice _ _ _) as [w|] eqn:Ew; [|discriminate]. destruct (f w) as [[ms me]|] eqn:Efw; [|discriminate].
          destruct (N.eqb_spec (ms + rs (c_off (clone_with_name c name))) (rs (c_off (clone_with_name c name)))) as [Hz|]; [|discriminate]. injection Em as <-.
          cbn [rs re] in *. assert (ms = 0) by lia. subst ms. apply slice_window in Ew. cbn [c_off clone_with_name] in *. rewrite C2 in Ew.
          destruct (Hf _ _ _ Efw) as [_ Hme]. destruct (split_at_N me w Hme) as (x & post & -> & Hx). exists x, post. rewrite Hx in *.
          split; [|split; [exact Efw|lia]]. apply window_at in Ew. rewrite Hx in Ew.
          replace (0 + rs (c_off c)) with (rs (c_off c)) by lia. now rewrite (N.add_comm me). }
        destruct Hx as (w & post & Hat & Hfw & Hw).
        apply after_leaf; auto; try (cbn; lia). change (Lx name r (range_text P r)). rewrite (text_at _ _ _ Hat). eauto.
    - now apply after_err.
    - unfold matches_regexp in Em. cbn [c_off clone_with_name] in Em. rewrite C2 in Em.
      destruct (slices (rs (c_off c)) L) as [w Hw]; [lia|lia|]. rewrite Hw in Em. destruct (f w) as [[ms me]|]; [|discriminate].
      destruct (negb _); discriminate.
  Qed.
  Lemma matches_found f n k c s st st' a : sane_find f -> good c -> exec k E P (MMatches f n false) c s st = Ret (Ok (SToken a)) st' ->
    exists w post, at_text P (tk_mr (tok st' a)) w post /\ f (w ++ post) = Some (0, slen w) /\ 0 < slen w.
  Proof.
    intros Hf (C1 & C2 & C3) H. destruct k as [|k]; [discriminate|]. cbn [exec] in H. unfold step in H. cbn [m_name before_exec m_custom] in H.
    rewrite (dbg_good _ 10) in H by exact C3.
    destruct (matches_regexp P (clone_with_name c n) f) as [[r|]|p] eqn:Em; try discriminate.
    destruct (N.eqb_spec (rs r) (re r)) as [He|Hne]; [discriminate|]. injection H as <- <-. rewrite tok_alloc_new. cbn [tk_mr std_token].
    unfold matches_regexp in Em. destruct (src_slice _ _ _) as [w|] eqn:Ew; [|discriminate]. destruct (f w) as [[ms me]|] eqn:Efw; [|discriminate].
    destruct (N.eqb_spec (ms + rs (c_off (clone_with_name c n))) (rs (c_off (clone_with_name c n)))) as [Hz|]; [|discriminate]. injection Em as <-.
    cbn [rs re] in *. assert (ms = 0) by lia. subst ms. apply slice_window in Ew. cbn [c_off clone_with_name] in *. rewrite C2 in Ew.
    destruct (Hf _ _ _ Efw) as [_ Hme]. destruct (split_at_N me w Hme) as (x & post & -> & Hx). exists x, post. rewrite Hx in *.
    split; [|split; [exact Efw|lia]]. apply window_at in Ew. rewrite Hx in Ew.
    replace (0 + rs (c_off c)) with (rs (c_off c)) by lia. now rewrite (N.add_comm me).
  Qed.
  Lemma at_ok c v off : re (c_off c) = L -> exists r, matches_str_at P c v off = Val r.
  Proof.
    intros H. unfold matches_str_at. rewrite H. destruct (N.leb_spec L off); cbn [orb]; [eauto|].
    destruct (slen v =? 0); [eauto|]. destruct (slices off L) as [w ->]; [lia|lia|]. destruct (starts_with v w); eauto.
  Qed.
  Lemma at_end c v off r : matches_str_at P c v off = Val (Some r) -> re r <= L.
  Proof.
    intros H. unfold matches_str_at in H. destruct (_ || _); [discriminate|].
    destruct (src_slice P _ _) as [w|] eqn:Ew; [|discriminate]. apply slice_in in Ew.
    destruct (starts_with v w) eqn:Es; [|discriminate]. apply starts_with_iff in Es as [rest ->].
    injection H as <-. cbn [re]. rewrite slen_app in Ew. lia.
  Qed.
  Lemma scan_ok c ep esc : re (c_off c) = L -> forall f index prev parts, exists o, seq_scan f P c ep esc index prev parts = Val o.
  Proof.
    intros HL. assert (Hp : forall prev index, index <= L -> exists w, (if prev <? index then src_slice P prev index else Val []) = Val w).
    { intros prev index Hi. destruct (N.ltb_spec prev index); [|eauto]. apply slices; lia. }
    induction f as [|f IH]; intros index prev parts; cbn [seq_scan]; [eauto|]. rewrite HL.
    destruct (N.leb_spec L index) as [|Hi]; [eauto|].
    destruct (at_ok c ep index HL) as [r1 ->]. destruct r1 as [r1|].
    - destruct (Hp prev index) as [w ->]; [lia|]. eauto.
    - destruct (at_ok c esc index HL) as [r2 ->]. destruct r2 as [r2|].
      + destruct (Hp prev index) as [w ->]; [lia|]. apply IH.
      + apply IH.
  Qed.
  Lemma seq_scans c ep esc : re (c_off c) = L -> ep <> [] -> forall f text index prev p parts i v,
    window (p_src P) index L text -> window (p_src P) prev index p -> seq_scan f P c ep esc index prev parts = Val (Found i v) ->
    exists raw x, scans ep esc text raw x /\ i = index + slen raw /\ v = parts ++ p ++ x.
  Proof.
    intros HL Hep. induction f as [|f IH]; intros text index prev p parts i v W Wp H; cbn [seq_scan] in H; [discriminate|].
    rewrite HL in H. apply window_len in W as Hl. destruct (N.leb_spec L index) as [|Hi]; [discriminate|].
    destruct text as [|y t]; [rewrite slen_nil in Hl; lia|].
    assert (W' := W). rewrite <- HL in W'. destruct (bnd P c Hascii _ _ W') as [B1 B2].
    rewrite (matches_at_slice P c ep index (y :: t)) in H by (auto; discriminate).
    apply slen_pos in Hep as Hlp. destruct (N.eqb_spec (slen ep) 0); [lia|]. cbn [negb andb] in H.
    destruct (starts_with ep (y :: t)) eqn:Es.
    { rewrite (pending P Hascii _ _ _ Wp) in H. injection H as <- <-. apply starts_with_iff in Es as [u ->].
      exists [], []. rewrite slen_nil, N.add_0_r, app_nil_r. split; [constructor|auto]. }
    assert (Hno : ~ has_prefix ep (y :: t)) by (intros Hp; apply has_prefix_iff in Hp; congruence).
    rewrite (matches_at_slice P c esc index (y :: t)) in H by (auto; discriminate).
    destruct (negb (slen esc =? 0) && starts_with esc (y :: t)) eqn:Ee.
    - apply andb_prop in Ee as [Ee1 Ee2]. rewrite (pending P Hascii _ _ _ Wp) in H. cbn [re] in H.
      apply starts_with_iff in Ee2 as [u Eu].
      assert (Hesc : esc <> []) by (intros ->; rewrite slen_nil in Ee1; discriminate).
      destruct u as [|z u].
      { rewrite app_nil_r in Eu. destruct f as [|f]; [discriminate|]. cbn [seq_scan] in H. rewrite HL in H. rewrite Eu in Hl.
        destruct (N.leb_spec L (index + slen esc + 1)); [discriminate|lia]. }
      rewrite Eu in *. apply window_split in W as [W1 W2]. change (z :: u) with ([z] ++ u) in W2. apply window_split in W2 as [W2 W3].
      rewrite (slen_cons z []), slen_nil in W2, W3. replace (1 + 0) with 1 in W2, W3 by lia.
      destruct (IH u _ _ [z] _ _ _ W3 W2 H) as (raw & x & Hs & -> & ->).
      exists (esc ++ z :: raw), (z :: x). split; [now constructor|]. rewrite slen_app, slen_cons. split; [lia|]. now rewrite <- app_assoc.
    - change (y :: t) with ([y] ++ t) in W. apply window_split in W as [W1 W2].
      rewrite (slen_cons y []), slen_nil in W1, W2. replace (1 + 0) with 1 in W1, W2 by lia.
      destruct (IH t _ _ (p ++ [y]) _ _ _ W2 (window_join _ _ _ _ _ _ Wp W1) H) as (raw & x & Hs & -> & ->).
      exists (y :: raw), (y :: x). split; [|rewrite slen_cons; split; [lia|now rewrite <- app_assoc]].
      constructor; auto. intros Hesc Hp. apply has_prefix_iff in Hp. apply slen_pos in Hesc.
      destruct (N.eqb_spec (slen esc) 0); [lia|]. cbn [negb andb] in Ee. congruence.
  Qed.
  Lemma scans_end ep esc text raw x : scans ep esc text raw x -> exists t, text = raw ++ ep ++ t.
  Proof.
    induction 1 as [t|y t raw v _ _ _ [u ->]|y t raw v _ _ _ [u ->]]; [exists t; reflexivity|exists u; now rewrite <- app_assoc|exists u; reflexivity].
  Qed.
  Lemma sem_sequence q sp ep esc name b (T : out -> Prop) : own (MSequence (FStr sp) (FStr ep) (FStr esc) name b) ->
    0 < slen sp -> 0 < slen ep -> Sh name [] ->
    (forall r raw v text post, at_text P r (sp ++ raw ++ ep) post -> scans ep esc text raw v -> Lx name r v) -> (forall bare, T (OTok false name [] bare)) ->
    Sem q Strong (MSequence (FStr sp) (FStr ep) (FStr esc) name b) T.
  Proof.
    intros Ho Hsp Hep HS HX HT. apply sem_step; [exact Ho|]. intros n _ c s st0 st Hst Hk (C1 & C2 & C3).
    unfold step. rewrite Hst. clear st0 Hst. unfold exec_sequence. cbn [fetch_value].
    destruct (N.eqb_spec (slen sp) 0); [lia|]. destruct (N.eqb_spec (slen ep) 0); [lia|].
    destruct (matches_str P (clone_with_name c name) sp) as [[r|]|p] eqn:Em.
    - destruct (scan_ok (clone_with_name c name) ep esc C2 (S (List.length (p_src P))) (re r) (re r) []) as [o Eo]. rewrite Eo.
      destruct o as [i v| |]; [| |exact Logic.I].
      + rewrite dbg_good by exact C3. cbn [ends].
        assert (Hx : Lx name (mkR (rs (c_off c)) (i + slen ep)) v).
        { destruct (str_at _ _ _ C2 Em) as (post & (pre & He & H1 & H2) & Hrs). cbn [c_off clone_with_name] in Hrs.
          assert (Hep' : ep <> []) by (intros ->; rewrite slen_nil in Hep; lia).
          assert (W : window (p_src P) (re r) L post).
          { exists (pre ++ sp), []. rewrite app_nil_r, <- app_assoc. split; [exact He|]. rewrite !slen_app. split; [auto|]. rewrite He, !slen_app. lia. }
          assert (Wp : window (p_src P) (re r) (re r) []).
          { exists (pre ++ sp), post. cbn [app]. rewrite <- app_assoc, app_nil_r, !slen_app. auto. }
          destruct (seq_scans (clone_with_name c name) _ _ C2 Hep' _ _ _ _ _ _ _ _ W Wp Eo) as (raw & x & Hs & -> & ->). cbn [app].
          destruct (scans_end _ _ _ _ _ Hs) as [t Ht]. eapply HX; [|exact Hs]. instantiate (1 := t). exists pre. cbn [rs re].
          rewrite <- Hrs, H1, H2, !slen_app. split; [|split; [reflexivity|lia]]. rewrite He, Ht, <- !app_assoc. reflexivity. }
        apply str_in in Em as [Hi _]. apply scan_in in Eo as [Hj1 Hj2]. cbn [c_off clone_with_name] in Hi.
        apply after_leaf; auto; try reflexivity; cbn [tk_mr rs re tk_name set_attr std_token2 c_off clone_with_name]; try lia; auto.
      + rewrite dbg_good by exact C3. cbn [ends]. now apply after_err.
    - rewrite dbg_good by exact C3. cbn [ends]. now apply after_err.
    - unfold matches_str in Em. destruct (slen sp =? 0); [discriminate|]. cbn [c_off clone_with_name] in Em. rewrite C2 in Em.
      destruct (slices (rs (c_off c)) L) as [w Hw]; [lia|lia|]. rewrite Hw in Em. destruct (starts_with sp w); discriminate.
  Qed.
  Lemma sem_break q nm (T : out -> Prop) : T (OBrk nm ONone) -> Sem q Strong (MBreak nm) T.
  Proof.
    intros HT. apply sem_step; [discriminate|]. intros n _ c s st0 st Hst Hk Hc. unfold step. rewrite Hst. cbn [ends].
    split; [exact Hk|]. split; [apply neat_top|]. split; [intros _; apply calm_top|]. split; [exact Logic.I|exact HT].
  Qed.
  Lemma pin_here c : pin_context E c "" = Val (with_start c (rs (c_off c))).
  Proof. reflexivity. Qed.
  Lemma sem_pin q name b (T : out -> Prop) : own (MPin None (FStr "") name b) -> T OPin -> Sem q Strong (MPin None (FStr "") name b) T.
  Proof.
    intros Ho HT. apply sem_step; [exact Ho|]. intros n _ c s st0 st Hst Hk Hc. unfold step. rewrite Hst. cbn [fetch_value].
    rewrite pin_here. cbn [ends]. split; [now apply (known_scopes _ s st)|].
    split; [apply neat_leaf; [reflexivity|apply forest_top|apply le_n|apply neat_top]|].
    split; [intros _; apply calm_leaf; [reflexivity|apply calm_top]|].
    cbn [outcome seen]. rewrite tok_alloc_new. split; [now left|exact HT].
  Qed.

  (* ---------- matchers around others ---------- *)

  Lemma sem_inner q lv x T n c nm s st : Sem q lv x T -> (S n <= N0)%nat -> known s st -> good c ->
    ends q lv T (rs (c_off c)) s (heap_size st) (exec n E P x (clone_with_name c nm) s st).
  Proof. intros H Hn Hk Hc. exact (H n (le_S_n _ _ (le_S _ _ Hn)) (clone_with_name c nm) s st Hk Hc). Qed.

  Lemma sem_optional q lv x (T T' : out -> Prop) : Sem q lv x T -> (forall o, T o -> T' o) -> T' OSkip -> Sem q lv (MOptional x) T'.
  Proof.
    intros Hx HT HS. apply sem_step; [discriminate|]. intros n Hn c s st0 st Hst Hk Hc. unfold step. rewrite Hst.
    pose proof (sem_inner q lv x T n c (m_name (MOptional x)) s st Hx Hn Hk Hc) as H.
    destruct (exec n E P x _ s st) as [r st'|p|]; cbn [ends] in *; auto.
    destruct H as (H1 & H2 & H3 & H4). destruct r as [y|[|e]]; cbn [ends].
    - split; [exact H1|]. split; [exact H2|]. split; [exact H3|]. destruct H4. auto.
    - split; [exact H1|]. split; [exact H2|]. split; [exact H3|]. split; [|exact HS].
      cbn. destruct Hc as (C1 & _). split; [lia|]. change (Z.to_N 0) with 0. lia.
    - split; [exact H1|]. split; [exact H2|]. split; [exact H3|exact H4].
  Qed.

  Definition proxied (o : out) : out :=
    match o with
    | OTok _ _ ks _ => OPrx ks
    | OBrk n (OTok _ _ ks _) => OBrk n (OPrx ks)
    | _ => o
    end.
  Lemma sem_proxy q x n b (T T' : out -> Prop) : own (MProxy x n b) -> Sem q Strong x T ->
    (forall o, T o -> o <> OPin /\ T' (proxied o)) -> Sem q Strong (MProxy x n b) T'.
  Proof.
    intros Ho Hx HT. apply sem_step; [exact Ho|]. intros k Hn c s st0 st Hst Hk Hc. unfold step. rewrite Hst.
    pose proof (sem_inner q Strong x T k c (m_name (MProxy x n b)) s st Hx Hn Hk Hc) as H.
    destruct (exec k E P x _ s st) as [r st'|p|]; cbn [ends] in *; auto.
    destruct H as (H1 & H2 & H3 & H4).
    assert (Hgo : forall r', match r' with Err e => fated e | Ok y => outcome Strong (rs (c_off c)) st' y /\ T' (seen st' y) end ->
      after q Strong T' (rs (c_off c)) s (heap_size st) r' st') by (intros r' H; split; auto).
    destruct r as [[a|a|z|nm p|nm p| |]|e]; cbn [ends]; try (destruct H4 as [H4 H5]; apply HT in H5 as [H5 H6]);
      cbn [outcome seen payload proxied] in *; try (now destruct H4); try (apply Hgo; now auto).
    - apply Hgo. destruct (should_discard (tok st' a)) eqn:Ed; [now elim H5|]. destruct H4 as [H4|H4]; [discriminate|]. auto.
    - destruct p as [a|a|z| | | |]; cbn [ends payload seen proxied] in *; try (now destruct H4); apply Hgo; cbn [outcome payload seen]; auto.
      destruct H4 as [H4 H7]. split; [auto|]. destruct H4 as (D1 & _). now rewrite D1 in H6.
  Qed.

  Definition discarded (o : out) : out :=
    match o with
    | OTok _ _ _ _ | OPrx _ => OSkip
    | OBrk n (OTok _ _ _ _) | OBrk n (OPrx _) => OBrk n OSkip
    | _ => o
    end.
  Lemma skip_calm s h start a st : known s st -> forest h st -> (h <= a < heap_size st)%nat -> neat h st -> calm h st ->
    start <= stop_of st a <= L ->
    match skip_token E P start a st with
    | Ret x st' => known s st' /\ neat h st' /\ calm h st' /\ exists z, x = SSkip z /\ (0 <= z)%Z /\ start + Z.to_N z <= L
    | Pan _ => False
    | OOF => True
    end.
  Proof.
    intros Hk Hf Ha Hn Hc Hs. unfold skip_token.
    destruct (error_tokens _ st a) as [l|] eqn:El; [|exact Logic.I].
    assert (El0 : l = []).
    { destruct l as [|e l]; [reflexivity|]. exfalso. pose proof (error_tokens_marked st _ _ _ El e (or_introl eq_refl)) as Hm.
      enough (h <= e)%nat by (rewrite Hc in Hm; [discriminate|assumption]).
      enough (h <= e < heap_size st)%nat by lia.
      eapply (error_tokens_within st (fun k => (h <= k < heap_size st)%nat)); [now apply forest_closed| |exact El|now left]; auto. }
    subst l. unfold add_errors. cbn [fold_left]. unfold stop_of in Hs.
    rewrite isize_sub_small by (pose proof Hlen; lia). cbn [or_die].
    split; [now apply (known_scopes _ s st)|]. split; [now apply neat_leaf; [|exact Hf|lia|exact Hn]|].
    split; [now apply calm_leaf|]. eexists. split; [reflexivity|]. lia.
  Qed.
  Lemma sem_discard q x (T T' : out -> Prop) : Sem true Strong x T -> (forall o, T o -> o <> OPin /\ T' (discarded o)) ->
    Sem q Strong (MDiscard x) T'.
  Proof.
    intros Hx HT. apply sem_step; [discriminate|]. intros n Hn c s st0 st Hst Hk Hc. unfold step. rewrite Hst.
    pose proof (sem_inner true Strong x T n c (m_name (MDiscard x)) s st Hx Hn Hk Hc) as H.
    pose proof (exec_sound E P HE n (heap_size st) x (clone_with_name c (m_name (MDiscard x))) s st) as Hsd.
    destruct (exec n E P x _ s st) as [r st'|p|]; cbn [ends] in *; auto.
    destruct (Hsd _ _ (le_n _) (forest_top st) eq_refl) as (P1 & P2 & P3). clear Hsd.
    destruct H as (H1 & H2 & H3 & H4). specialize (H3 eq_refl).
    assert (Hgo : forall r' , match r' with Err e => fated e | Ok y => outcome Strong (rs (c_off c)) st' y /\ T' (seen st' y) end ->
      after q Strong T' (rs (c_off c)) s (heap_size st) r' st') by (intros r' H; split; auto).
    assert (Hskip : forall a (k : success -> success), (heap_size st <= a < heap_size st')%nat -> shaped st' a -> rs (c_off c) < stop_of st' a ->
      (forall z st2, (0 <= z)%Z -> rs (c_off c) + Z.to_N z <= L -> outcome Strong (rs (c_off c)) st2 (k (SSkip z)) /\ T' (seen st2 (k (SSkip z)))) ->
      ends q Strong T' (rs (c_off c)) s (heap_size st) (do x, st <- skip_token E P (rs (c_off c)) a st'; Ret (Ok (k x)) st)).
    { intros a k Ha Hsh Hr Hz. pose proof (skip_calm s (heap_size st) (rs (c_off c)) a st' H1 P2 Ha H2 H3) as Hs.
      assert (Hb : rs (c_off c) <= stop_of st' a <= L) by (destruct Hsh as (_ & D2 & _); unfold stop_of in *; lia).
      specialize (Hs Hb). destruct (skip_token _ _ _ _ _) as [y st2|p|]; cbn [ends] in *; auto.
      destruct Hs as (S1 & S2 & S3 & z & -> & S4 & S5). split; [exact S1|]. split; [exact S2|]. split; [auto|]. now apply Hz. }
    assert (Hin : forall a, In a (result_tokens r) -> (heap_size st <= a < heap_size st')%nat) by exact P3.
    destruct r as [[a|a|z|nm p|nm p| |]|e]; cbn [discard_result result_tokens success_tokens] in *;
      try (destruct H4 as [H4 H5]; apply HT in H5 as [H5 H6]).
    - cbn [outcome seen] in *. destruct (should_discard (tok st' a)) eqn:Ed; [now elim H5|]. destruct H4 as [H4|[H4 H7]]; [discriminate|].
      apply (Hskip a (fun y => y)); [apply Hin; now left|exact H4|exact (proj1 H7)|]. intros z st2 Z1 Z2. split; [split; assumption|exact H6].
    - cbn [outcome seen] in *. destruct H4 as [H4 H7].
      apply (Hskip a (fun y => y)); [apply Hin; now left|exact H4|exact (proj1 H7)|]. intros z st2 Z1 Z2. split; [split; assumption|exact H6].
    - cbn [ends]. apply Hgo. auto.
    - cbn [outcome payload seen] in *. destruct p as [a|a|z|n1 p|n1 p| |]; cbn [discard_payload ends payload seen] in *; try tauto.
      + destruct H4 as [H4 H7]. assert (Ed : should_discard (tok st' a) = false) by apply H4. rewrite Ed in H6.
        apply (Hskip a (SBreak nm)); [apply Hin; now left|exact H4|exact (proj1 H7)|]. intros z st2 Z1 Z2. split; [split; assumption|exact H6].
      + destruct H4 as [H4 H7].
        apply (Hskip a (SBreak nm)); [apply Hin; now left|exact H4|exact (proj1 H7)|]. intros z st2 Z1 Z2. split; [split; assumption|exact H6].
      + apply Hgo. auto.
      + apply Hgo. auto.
    - destruct H4.
    - destruct H4.
    - destruct H4.
    - cbn [ends]. now apply Hgo.
  Qed.

  Lemma sem_ref q lv nm name b m (T : out -> Prop) : own (MRef (FStr nm) name b) -> body nm = Some m ->
    (forall n, (n < N0)%nat -> SemAt n q lv m T) -> Sem q lv (MRef (FStr nm) name b) T.
  Proof.
    intros Ho Hb Hm. apply sem_step; [exact Ho|]. intros n Hn c s st0 st Hst Hk Hc. unfold step. rewrite Hst. cbn [fetch_value].
    destruct (sc_get st s nm) as [[a|v|m1]|] eqn:Eg; cbn [ends]; try (destruct (proj2 (proj2 Hk) nm m Hb) as [m2 Hm2]; rewrite Eg in Hm2; discriminate).
    rewrite (proj1 Hk _ _ _ Eg Hb). exact (Hm n Hn (clone_with_name c name) s st Hk Hc).
  Qed.

  (* ---------- map ---------- *)

  Lemma after_error q lv (T : out -> Prop) lo s h st msg r : q = false -> known s st -> forest h st -> (h <= heap_size st)%nat -> neat h st ->
    rs r <= L -> re r <= L -> (lv = Strong \/ lv = Strict -> lo < re r) -> T (OTok true "Error" [] false) ->
    ends q lv T lo s h (error_token_at E P msg r st).
  Proof.
    intros -> Hk Hf Hh Hn H1 H2 H3 HT. unfold error_token_at. destruct (error_text msg r H1 H2) as [t ->]. cbn [ends].
    set (u := enable_flags IS_ERROR (set_attr "__message" t (std_token P "Error" r))).
    assert (Hu : tok (alloc st u) (next_addr st) = u) by apply tok_alloc_new.
    split; [now apply (known_scopes _ s st)|]. split; [apply neat_leaf; auto|]. split; [discriminate|].
    split.
    - right. split.
      + unfold shaped. rewrite Hu. repeat split; auto; try (left; exact H1). cbn. discriminate.
      + unfold reach, stop_of. rewrite Hu. destruct lv; [split; [auto|intros k []]|auto|discriminate|exact Logic.I].
    - cbn [seen]. rewrite Hu. exact HT.
  Qed.
  Lemma sem_fatal q lv x msg (T T' : out -> Prop) : Sem q lv x T ->
    (forall o, T o -> T' o \/ exists n ks b, o = OTok false n ks b) -> (forall ks, ~ T (OPrx ks)) -> (forall e n ks b, ~ T' (OTok e n ks b)) ->
    T' OSkip -> (forall o, T' o -> o <> OPin) ->
    (forall k c s st st' a t, good c -> exec k E P x c s st = Ret (Ok (SToken a)) st' ->
      error_string E P msg (tk_mr (tok st' a)) = Val t -> Fat (mkPE t (Some (tk_mr (tok st' a))))) ->
    Sem q lv (MMap x (MapFatalIf msg)) T'.
  Proof.
    intros Hx HT Hpx Hno HS Hpin HF. apply sem_step; [discriminate|]. intros n Hn c s st0 st Hst Hk Hc. unfold step. rewrite Hst.
    pose proof (sem_inner q lv x T n c (m_name (MMap x (MapFatalIf msg))) s st Hx Hn Hk Hc) as H.
    assert (Hc2 : good (clone_with_name c (m_name (MMap x (MapFatalIf msg))))) by exact Hc.
    destruct (exec n E P x _ s st) as [r st'|p|] eqn:Hex; cbn [ends] in *; auto.
    destruct H as (H1 & H2 & H3 & H4). destruct Hc as (C1 & C2 & C3).
    assert (Hgo : forall r', match r' with Err e => fated e | Ok y => outcome lv (rs (c_off c)) st' y /\ T' (seen st' y) end ->
      after q lv T' (rs (c_off c)) s (heap_size st) r' st') by (intros r' H; split; auto).
    assert (Hzero : after q lv T' (rs (c_off c)) s (heap_size st) (Ok (SSkip 0)) st').
    { apply Hgo. split; [|exact HS]. cbn. split; [lia|]. change (Z.to_N 0) with 0. lia. }
    destruct r as [[a|a|z|nm p|nm p| |]|[|e]]; cbn [ends map_ok map_err]; auto;
      try (destruct H4 as [H4 H5]; specialize (HT _ H5)).
    - cbn [outcome seen] in *. destruct (should_discard (tok st' a)) eqn:Ed.
      { destruct HT as [HT|(n0 & ks & b & HT)]; [now apply Hpin in HT|discriminate]. }
      destruct H4 as [H4|[H4 H6]]; [discriminate|].
      assert (He : is_error (tok st' a) = false).
      { destruct HT as [HT|(n0 & ks & b & HT)]; [now apply Hno in HT|now injection HT]. }
      destruct H4 as (D1 & D2 & D3). rewrite He in D3. destruct (error_text msg (tk_mr (tok st' a))) as [t Ht]; [tauto|tauto|]. rewrite Ht.
      cbn [ends]. apply Hgo. exact (HF _ _ _ _ _ _ _ Hc2 Hex Ht).
    - now apply Hpx in H5.
    - destruct HT as [HT|(n0 & ks & b & HT)]; [|discriminate]. now apply Hgo.
    - destruct HT as [HT|(n0 & ks & b & HT)]; [|discriminate]. now apply Hgo.
    - destruct H4.
    - destruct H4.
    - destruct H4.
  Qed.
  Lemma sem_assert x msg (T : out -> Prop) : Sem false Strong x T ->
    (forall o, T o -> o = OSkip \/ exists n ks b, o = OTok false n ks b) ->
    Sem false Strong (MMap x (MapAssertIf msg)) (fun o => o = OSkip \/ o = OTok true "Error" [] false).
  Proof.
    intros Hx HT. apply sem_step; [discriminate|]. intros n Hn c s st0 st Hst Hk Hc. unfold step. rewrite Hst.
    pose proof (sem_inner false Strong x T n c (m_name (MMap x (MapAssertIf msg))) s st Hx Hn Hk Hc) as H.
    pose proof (exec_sound E P HE n (heap_size st) x (clone_with_name c (m_name (MMap x (MapAssertIf msg)))) s st) as Hsd.
    destruct (exec n E P x _ s st) as [r st'|p|]; cbn [ends] in *; auto.
    destruct (Hsd _ _ (le_n _) (forest_top st) eq_refl) as (P1 & P2 & P3). clear Hsd.
    destruct H as (H1 & H2 & H3 & H4). destruct Hc as (C1 & C2 & C3).
    destruct r as [[a|a|z|nm p|nm p| |]|[|e]]; cbn [ends map_ok map_err]; auto;
      try (destruct H4 as [H4 H5]; specialize (HT _ H5)).
    - cbn [outcome seen] in *. destruct (should_discard (tok st' a)) eqn:Ed.
      { destruct HT as [HT|(n0 & ks & b & HT)]; discriminate. }
      destruct H4 as [H4|[H4 H6]]; [discriminate|].
      assert (He : is_error (tok st' a) = false).
      { destruct HT as [HT|(n0 & ks & b & HT)]; [discriminate|now injection HT]. }
      destruct H4 as (D1 & D2 & D3). rewrite He in D3. destruct H6 as [H6 _].
      apply after_error; auto; try tauto. apply P1.
    - cbn [seen] in HT. destruct HT as [HT|(n0 & ks & b & HT)]; discriminate.
    - split; [exact H1|]. split; [exact H2|]. split; [discriminate|]. split; [exact H4|now left].
    - cbn [seen] in HT. destruct HT as [HT|(n0 & ks & b & HT)]; discriminate.
    - destruct H4.
    - destruct H4.
    - destruct H4.
    - split; [exact H1|]. split; [exact H2|]. split; [discriminate|]. split; [|now left]. cbn. split; [lia|]. change (Z.to_N 0) with 0. lia.
    - split; [exact H1|]. split; [exact H2|]. split; [discriminate|exact H4].
  Qed.

  (* ---------- programs ---------- *)

  Notation kindlist := (list (option str)).
  (* what holds before and after a pattern of a program *)
  Notation note := (sid -> state -> Prop).
  Definition stable (I : note) : Prop := forall s st a t, I s st -> should_discard (tok st a) = false -> I s (set_tok st a t).
  Definition noted (I : note) (s : sid) (r : res mres) : Prop :=
    match r with Ret (Ok _) st => I s st | _ => True end.
  Definition pat (n : nat) (I I' : note) (q : bool) (lv : level) (m : matcher) (T : out -> Prop) : Prop :=
    forall c s st, known s st -> good c -> I s st ->
      ends q lv T (rs (c_off c)) s (heap_size st) (exec n E P m c s st) /\ noted I' s (exec n E P m c s st).
  Definition all_notes : note := fun _ _ => True.
  Lemma sem_pat n q lv m T : Sem q lv m T -> (n <= N0)%nat -> pat n all_notes all_notes q lv m T.
  Proof.
    intros H Hn c s st Hk Hc _. split; [now apply H|]. unfold noted, all_notes. destruct (exec n E P m c s st) as [[|]| |]; exact Logic.I.
  Qed.

  (* what a pattern may do in a program that is to reach as far as [md] says *)
  Definition fits (md : level) (K : kindlist -> Prop) (m : matcher) (lv : level) (T : out -> Prop) : Prop :=
    (m_consuming m = true -> lv <> Lax) /\ (m_consuming m = true -> md <> Lax -> lv = Strong \/ lv = Strict) /\
    (m_consuming m = false -> forall o, T o -> adds o = [] \/ (md <> Strong /\ forall ks, K ks -> ks <> [])) /\
    (forall n p, T (OBrk n p) -> md = Strong).
  (* [K]: the children before, [K']: after; [M]: at all times; [B]: at a break *)
  Inductive chain (n : nat) (q : bool) (md : level) (M : kindlist -> Prop) (B : str -> kindlist -> Prop) :
      note -> list matcher -> (kindlist -> Prop) -> (kindlist -> Prop) -> Prop :=
  | ch_nil (I : note) (K K' : kindlist -> Prop) : (forall ks, K ks -> K' ks) -> chain n q md M B I [] K K'
  | ch_cons (I I1 : note) m lv (T : out -> Prop) pats (K K1 K' : kindlist -> Prop) :
      stable I1 -> pat n I I1 q lv m T -> fits md K m lv T ->
      (forall ks o, K ks -> T o -> is_break o = false -> K1 (ks ++ adds o) /\ M (ks ++ adds o)) ->
      (forall ks b p, K ks -> T (OBrk b p) -> B b (ks ++ adds p)) ->
      chain n q md M B I1 pats K1 K' -> chain n q md M B I (m :: pats) K K'.

  Section Program.
    Variables (n : nat) (q : bool) (md : level) (i : pinfo) (s : sid) (st_s : state) (start : N).
    Let pt := heap_size st_s.
    Hypothesis Hmd : md <> Errors.
    Hypothesis Hstart : start <= L.
    Notation stage := (stage pt st_s).

    Record J (ks : kindlist) (st : state) (ps : pst) : Prop := mkJ {
      j_stage : stage st ps;
      j_known : known s st;
      j_neat : neat (S pt) st;
      j_calm : q = true -> calm (S pt) st;
      j_token : tok st pt = std_token P (pi_name i) blank_range;
      j_off : ps_off ps <= L /\ (md <> Lax -> start <= ps_off ps);
      j_end : re (ps_mr ps) <= L;
      j_begin : rs (ps_mr ps) <= L \/ rs (ps_mr ps) = usize_max;
      j_kids : forall k, In k (ps_kids ps) -> shaped st k /\ (md = Strong -> start < stop_of st k);
      j_reach : md <> Lax -> ks <> [] -> start < re (ps_mr ps);
      j_kinds : kinds st (ps_kids ps) = ks }.

    Lemma J_start st : st = alloc st_s (std_token P (pi_name i) blank_range) -> known s st -> J [] st (init_pst start).
    Proof.
      intros -> Hk. constructor; auto; cbn.
      - split; [rewrite heap_size_alloc; apply le_n|]. split; [intros a Ha; rewrite heap_size_alloc in Ha; unfold pt in Ha; lia|].
        split; [intros a Ha; now apply tok_alloc_old|]. change pt with (next_addr st_s). rewrite tok_alloc_new. split; [auto|intros k []].
      - change (S pt) with (S (heap_size st_s)). rewrite <- (heap_size_alloc st_s (std_token P (pi_name i) blank_range)). apply neat_top.
      - intros _. change (S pt) with (S (heap_size st_s)). rewrite <- (heap_size_alloc st_s (std_token P (pi_name i) blank_range)). apply calm_top.
      - apply tok_alloc_new.
      - split; [exact Hstart|intros _; lia].
      - lia.
      - intros k [].
      - congruence.
    Qed.

    Lemma J_grown ks st ps st' : J ks st ps -> grown st st' -> forest (S pt) st' -> known s st' -> neat (heap_size st) st' ->
      (q = true -> calm (heap_size st) st') -> J ks st' ps.
    Proof.
      intros [J1 J2 J3 J4 J5 J6 J7 J8 J9 J10 J11] G F A1 A2 A3.
      assert (Hsz : (S pt <= heap_size st)%nat) by exact (proj1 J1).
      assert (Hk : forall k, In k (ps_kids ps) -> (S pt <= k < heap_size st)%nat) by exact (proj2 (proj2 (proj2 (proj2 J1)))).
      constructor; auto.
      - eapply (stage_below pt pt st_s eq_refl (le_n _)); [exact J1| |exact F]. split; [exact (proj1 G)|]. intros a Ha. apply (proj2 G). lia.
      - exact (grown_neat _ _ _ (proj1 (proj2 J1)) Hsz G J3 A2).
      - intros Hq. eapply grown_calm; eauto.
      - rewrite (proj2 G) by lia. exact J5.
      - intros k Hin. destruct (J9 k Hin) as [B1 B2]. split.
        + exact (grown_shaped _ _ _ _ (proj1 (proj2 J1)) G (Hk k Hin) B1).
        + unfold stop_of in *. rewrite (proj2 G) by (apply Hk in Hin; lia). exact B2.
      - rewrite <- J11. apply grown_kinds; [exact G|]. intros a Ha. apply Hk in Ha. lia.
    Qed.

    Lemma J_add ks st ps a fwd u : J ks st ps -> (S pt <= a < heap_size st)%nat -> shaped st a ->
      (md <> Lax -> (u = true /\ start < stop_of st a) \/ (u = false /\ md = Strict /\ ks <> [])) ->
      (fwd = true -> u = true -> is_error (tok st a) = false -> stop_of st a <> ps_off ps) ->
      exists ps' t, add_token P pt a fwd u ps st = Ret ps' (set_tok st a t) /\
        J (ks ++ kinds st [a]) (set_tok st a t) ps' /\ likewise st (set_tok st a t).
    Proof.
      intros [J1 J2 J3 J4 J5 J6 J7 J8 J9 J10 J11] Ha Hsh Hr Hf. unfold add_token.
      replace (negb (is_error (tok st a)) && fwd && u && (re (tk_mr (tok st a)) =? ps_off ps)) with false.
      2:{ symmetry. destruct (is_error (tok st a)) eqn:Ee, fwd, u; cbn; try reflexivity.
          apply N.eqb_neq. exact (Hf eq_refl eq_refl eq_refl). }
      set (t := tok st a) in *.
      set (t1 := if is_error t && (rs (tk_mr t) =? re (tk_mr t))
                 then let n0 := mkR (rs (ps_mr ps)) (re (tk_mr t)) in set_mr P n0 (set_cr P n0 t) else t).
      assert (Hre : re (tk_mr t1) = re (tk_mr t)) by (unfold t1; destruct (_ && _); reflexivity).
      assert (Hal : alike t (set_parent (Some pt) t1)).
      { unfold t1. destruct (is_error t) eqn:Ee; cbn [andb].
        - destruct (N.eqb_spec (rs (tk_mr t)) (re (tk_mr t))); cbn; unfold alike; rewrite Ee; cbn; tauto.
        - unfold alike. rewrite Ee. cbn. tauto. }
      set (st' := set_tok st a (set_parent (Some pt) t1)).
      assert (Hlw : likewise st st') by (now apply likewise_set).
      assert (Hrs : rs (tk_mr t1) <= L \/ rs (tk_mr t1) = usize_max).
      { destruct Hsh as (D1 & D2 & D3). fold t in D2, D3. unfold t1. destruct (is_error t); cbn [andb]; [|tauto].
        destruct (N.eqb_spec (rs (tk_mr t)) (re (tk_mr t))); cbn; tauto. }
      assert (Hstop : re (tk_mr t) <= L) by apply Hsh.
      exists (mkPst (if u then re (tk_mr t1) else ps_off ps) (ps_kids ps ++ [a])
               (if u then contain (ps_cr ps) (tk_cr t1) else ps_cr ps) (if u then contain (ps_mr ps) (tk_mr t1) else ps_mr ps)), (set_parent (Some pt) t1).
      split; [reflexivity|]. split; [|exact Hlw]. fold st'.
      assert (Hstg : stage st' (mkPst (if u then re (tk_mr t1) else ps_off ps) (ps_kids ps ++ [a])
               (if u then contain (ps_cr ps) (tk_cr t1) else ps_cr ps) (if u then contain (ps_mr ps) (tk_mr t1) else ps_mr ps))).
      { eapply stage_kids; [apply (stage_set pt pt st_s eq_refl (le_n _) st ps); [exact J1|lia|apply Hal|apply Hal]|].
        cbn [ps_kids]. unfold st'. rewrite heap_size_set. intros k Hk. apply in_app_or in Hk as [Hk|[<-|[]]]; [exact (proj2 (proj2 (proj2 (proj2 J1))) k Hk)|exact Ha]. }
      constructor; cbn [ps_off ps_kids ps_cr ps_mr]; auto.
      - now apply (likewise_neat _ st).
      - intros Hq. now apply (likewise_calm _ st); [|apply J4].
      - unfold st'. rewrite tok_set_other by lia. exact J5.
      - destruct u; [|exact J6]. rewrite Hre. split; [exact Hstop|]. intros Hl. destruct (Hr Hl) as [(_ & Hr1)|(Hr1 & _)]; [|discriminate]. unfold stop_of in Hr1. fold t in Hr1. lia.
      - destruct u; [|exact J7]. unfold contain. cbn [re]. rewrite Hre. destruct (_ <? _); assumption.
      - destruct u; [|exact J8]. unfold contain. cbn [rs]. destruct (_ <? _); assumption.
      - intros k Hk. assert (Hst : stop_of st' k = stop_of st k) by (unfold stop_of; apply (Hlw k)). rewrite Hst.
        apply in_app_or in Hk as [Hk|[<-|[]]].
        + destruct (J9 k Hk). split; [eapply likewise_shaped; eauto|assumption].
        + split; [eapply likewise_shaped; eauto|]. intros Hs. destruct Hr as [(_ & Hr)|(_ & Hr & _)]; [congruence|exact Hr|congruence].
      - intros Hl _. destruct (Hr Hl) as [(-> & Hr1)|(-> & _ & Hks)]; [|now apply J10].
        unfold contain. cbn [re]. rewrite Hre. unfold stop_of in Hr1. fold t in Hr1. destruct (N.ltb_spec (re (ps_mr ps)) (re (tk_mr t))); lia.
      - rewrite (likewise_kinds st st') by exact Hlw. now rewrite kinds_app, J11.
    Qed.

    Definition same_notes (st st' : state) : Prop := forall I, stable I -> I s st -> I s st'.
    Lemma J_extract self u : forall l ks st ps, J ks st ps ->
      (forall k, In k l -> (S pt <= k < heap_size st)%nat /\ shaped st k /\ k <> self /\
        (md <> Lax -> (u = true /\ start < stop_of st k) \/ (u = false /\ md = Strict /\ ks <> []))) ->
      exists ps' st', extract_children P pt self u l ps st = Ret ps' st' /\ J (ks ++ kinds st l) st' ps' /\ same_notes st st'.
    Proof.
      induction l as [|k l IH]; intros ks st ps HJ Hl; cbn [extract_children].
      - exists ps, st. cbn. rewrite app_nil_r. split; [reflexivity|]. split; [exact HJ|]. intros I _ HI. exact HI.
      - destruct (Hl k (or_introl eq_refl)) as (B1 & B2 & B3 & B4). replace (should_discard (tok st k)) with false by (symmetry; apply B2).
        destruct (Nat.eqb_spec k self) as [|_]; [now elim B3|].
        destruct (J_add ks st ps k false u HJ B1 B2 B4) as (ps1 & t & Ha & HJ1 & Hlw); [discriminate|]. rewrite Ha.
        destruct (IH _ _ _ HJ1) as (ps2 & st2 & H1 & H2 & H3).
        { intros k' Hk'. destruct (Hl k' (or_intror Hk')) as (C1 & C2 & C3 & C4). rewrite heap_size_set. split; [exact C1|].
          split; [now apply (likewise_shaped st)|]. split; [exact C3|]. unfold stop_of in *.
          destruct (Hlw k') as (_ & _ & _ & _ & -> & _). intros Hm. destruct (C4 Hm) as [C|(C & C' & C'')]; [now left|].
          right. split; [exact C|]. split; [exact C'|]. intros He. apply app_eq_nil in He as [He _]. auto. }
        exists ps2, st2. split; [exact H1|]. split.
        + rewrite (likewise_kinds st (set_tok st k t) l Hlw) in H2. rewrite <- app_assoc in H2. exact H2.
        + intros I HI HIs. apply H3; [exact HI|]. apply HI; [exact HIs|apply B2].
    Qed.
    Lemma J_off ks st ps o cr mr : J ks st ps -> o <= L -> (md <> Lax -> start <= o) -> re mr <= L -> (rs mr <= L \/ rs mr = usize_max) ->
      (md <> Lax -> ks <> [] -> start < re mr) -> J ks st (mkPst o (ps_kids ps) cr mr).
    Proof.
      intros [J1 J2 J3 J4 J5 J6 J7 J8 J9 J10 J11] H1 H2 H3 H4 H5. constructor; auto.
    Qed.
    Lemma J_proxy ks st ps a u : J ks st ps -> (S pt <= a < heap_size st)%nat -> shaped st a -> reach Strong (ps_off ps) st a ->
      (u = false -> md <> Lax -> tk_kids (tok st a) = [] \/ (md = Strict /\ ks <> [])) ->
      exists ps' st', handle_extract P pt a u ps st = Ret ps' st' /\ J (ks ++ kinds st (tk_kids (tok st a))) st' ps' /\ same_notes st st'.
    Proof.
      intros HJ Ha Hsh [R1 R2] Hu. unfold handle_extract. replace (should_discard (tok st a)) with false by (symmetry; apply Hsh).
      rewrite andb_true_r. pose proof (j_off _ _ _ HJ) as [O1 O2]. pose proof (j_end _ _ _ HJ) as O3. pose proof (j_begin _ _ _ HJ) as O4.
      pose proof (j_reach _ _ _ HJ) as O5. destruct Hsh as (D1 & D2 & D3).
      assert (Hrs : rs (tk_mr (tok st a)) <= L \/ rs (tk_mr (tok st a)) = usize_max) by (destruct (is_error (tok st a)); tauto).
      apply J_extract.
      - destruct u; [|exact HJ]. unfold stop_of in R1. apply J_off; auto; unfold contain; cbn [rs re].
        + intros Hl. specialize (O2 Hl). lia.
        + destruct (_ <? _); assumption.
        + destruct (_ <? _); assumption.
        + intros Hl Hks. specialize (O2 Hl). specialize (O5 Hl Hks). destruct (N.ltb_spec (re (ps_mr ps)) (re (tk_mr (tok st a)))); lia.
      - intros k Hk. pose proof (j_stage _ _ _ HJ) as Hst. split.
        + eapply (forest_closed (S pt) st); [apply Hst|exact Ha|exact Hk].
        + split; [eapply (j_neat _ _ _ HJ); [|exact Hk]; lia|]. split.
          * intros ->. eapply (self_kid (S pt) st a); [apply Hst|exact Ha|exact Hk].
          * intros Hl. destruct u; [left; split; [reflexivity|specialize (R2 k Hk); specialize (O2 Hl); lia]|].
            destruct (Hu eq_refl Hl) as [He|[Hm Hks]]; [rewrite He in Hk; destruct Hk|right; auto].
    Qed.
    Lemma J_skip ks st ps z : J ks st ps -> (0 <= z)%Z -> ps_off ps + Z.to_N z <= L ->
      exists ps', handle_skip E start z ps st = Ret ps' st /\ J ks st ps' /\ ps_off ps' = ps_off ps + Z.to_N z.
    Proof.
      intros HJ Hz Hl. unfold handle_skip. pose proof (j_off _ _ _ HJ) as [O1 O2]. pose proof (j_end _ _ _ HJ) as O3.
      pose proof (j_begin _ _ _ HJ) as O4. pose proof (j_reach _ _ _ HJ) as O5. pose proof Hlen as HL.
      assert (Ha : usize_add (e_checks E) (ps_off ps) (as_usize z) = Some (ps_off ps + Z.to_N z)).
      { apply skips_to_add. apply skips_to_small; [lia|]. unfold isize_bound, usize_max in *. lia. }
      rewrite Ha. cbn [or_die].
      eexists. split; [reflexivity|]. split; [|reflexivity]. apply J_off; auto; unfold contain; cbn [rs re].
      - intros Hm. specialize (O2 Hm). lia.
      - destruct (_ <? _); lia.
      - destruct (_ <? _); [lia|exact O4].
      - intros Hm Hks. specialize (O5 Hm Hks). destruct (N.ltb_spec (re (ps_mr ps)) (ps_off ps + Z.to_N z)); lia.
    Qed.
    Lemma J_payload ks st ps p : J ks st ps -> md = Strong -> payload (ps_off ps) st p ->
      (forall a, In a (success_tokens p) -> (S pt <= a < heap_size st)%nat) ->
      exists ps' st', handle_payload E P pt start p ps st = Ret ps' st' /\ J (ks ++ adds (seen st p)) st' ps'.
    Proof.
      intros HJ Hm Hp Hin. pose proof (j_off _ _ _ HJ) as [O1 O2]. assert (HO : start <= ps_off ps) by (apply O2; congruence).
      destruct p as [a|a|z|nm p|nm p| |]; cbn [payload handle_payload] in *; try now destruct Hp.
      - destruct Hp as [Hsh [R1 R2]]. unfold handle_token. pose proof (proj1 Hsh) as Hd. rewrite Hd. cbn [negb andb].
        destruct (J_add ks st ps a false true HJ (Hin a (or_introl eq_refl)) Hsh) as (ps1 & t & Ha & HJ1 & _).
        + intros _. left. split; [reflexivity|lia].
        + discriminate.
        + exists ps1, (set_tok st a t). split; [exact Ha|]. cbn [seen]. rewrite Hd. exact HJ1.
      - destruct Hp as [Hsh R]. destruct (J_proxy ks st ps a true HJ (Hin a (or_introl eq_refl)) Hsh R) as (ps1 & st1 & Ha & HJ1 & _); [discriminate|].
        exists ps1, st1. split; [exact Ha|]. exact HJ1.
      - destruct (J_skip ks st ps z HJ (proj1 Hp) (proj2 Hp)) as (ps1 & Ha & HJ1 & _). exists ps1, st. split; [exact Ha|].
        cbn. now rewrite app_nil_r.
      - exists ps, st. split; [reflexivity|]. cbn. now rewrite app_nil_r.
    Qed.

    Lemma J_neat ks st ps : J ks st ps -> neat pt st.
    Proof.
      intros HJ a Ha k Hk. destruct (Nat.eq_dec a pt) as [->|Hne].
      - rewrite (j_token _ _ _ HJ) in Hk. destruct Hk.
      - eapply (j_neat _ _ _ HJ); [|exact Hk]. lia.
    Qed.
    Lemma J_calm ks st ps : J ks st ps -> q = true -> calm pt st.
    Proof.
      intros HJ Hq a Ha. destruct (Nat.eq_dec a pt) as [->|Hne].
      - now rewrite (j_token _ _ _ HJ).
      - apply (j_calm _ _ _ HJ Hq). lia.
    Qed.
    Lemma J_err ks st ps lv T lo e : J ks st ps -> fated e -> after q lv T lo s pt (Err e) st.
    Proof.
      intros HJ He. split; [exact (j_known _ _ _ HJ)|]. split; [exact (J_neat _ _ _ HJ)|]. split; [exact (J_calm _ _ _ HJ)|exact He].
    Qed.
    Lemma J_final ks st ps count strict (T : out -> Prop) : J ks st ps ->
      (ks <> [] -> Sh (pi_name i) ks /\ T (OTok false (pi_name i) ks true)) ->
      (forall hi, strict = true -> pi_iter i = Some (0, hi) -> T OSkip) ->
      ends q md T start s pt (finalize P i pt ps count strict st).
    Proof.
      intros HJ HT HS.
      assert (Hfail : ends q md T start s pt (Ret (Err FFail) st)) by exact (J_err _ _ _ _ _ _ FFail HJ Logic.I).
      assert (Hc : ends q md T start s pt (if (rs (ps_cr ps) =? usize_max) || (rs (ps_mr ps) =? usize_max) then Ret (Err FFail) st
        else match ps_kids ps with
           | [] => Ret (Err FFail) st
           | _ => Ret (Ok (SToken pt))
                    (modify st pt (fun t => set_mr P (ps_mr ps) (set_cr P (ps_cr ps) (set_kids (ps_kids ps) t))))
           end)).
      { destruct (_ =? usize_max); cbn [orb]; [exact Hfail|]. destruct (N.eqb_spec (rs (ps_mr ps)) usize_max) as [|Hm]; [exact Hfail|].
        destruct (ps_kids ps) as [|k l] eqn:Ek; [exact Hfail|]. rewrite <- Ek. clear Hfail.
        pose proof HJ as [J1 J2 J3 J4 J5 J6 J7 J8 J9 J10 J11].
        assert (Hks : ks <> []) by (rewrite <- J11, Ek; discriminate). destruct (HT Hks) as [HSh HT1].
        assert (Hsz : (pt < heap_size st)%nat) by exact (proj1 J1).
        unfold modify. rewrite J5. set (t := set_mr P (ps_mr ps) (set_cr P (ps_cr ps) (set_kids (ps_kids ps) (std_token P (pi_name i) blank_range)))).
        set (st' := set_tok st pt t).
        assert (Hnew : tok st' pt = t) by (apply tok_set_same; exact Hsz).
        assert (Hold : forall a, a <> pt -> tok st' a = tok st a) by (intros a Hne; apply tok_set_other; congruence).
        assert (Hkinds : forall l, kinds st' l = kinds st l).
        { intros l0. apply kinds_same. intros a _. destruct (Nat.eq_dec a pt) as [->|Hne]; [rewrite Hnew, J5; auto|rewrite Hold by exact Hne; auto]. }
        assert (Hshaped : forall a, a <> pt -> shaped st a -> shaped st' a).
        { intros a Hne. unfold shaped. rewrite Hold by exact Hne. now rewrite Hkinds. }
        assert (Hkid : forall a, In a (ps_kids ps) -> a <> pt).
        { intros a Ha. apply (proj2 (proj2 (proj2 (proj2 J1)))) in Ha. lia. }
        assert (Hsh : shaped st' pt).
        { unfold shaped. rewrite Hnew. split; [reflexivity|]. split; [exact J7|]. change (is_error t) with false. cbv iota.
          change (tk_mr t) with (ps_mr ps). change (tk_name t) with (pi_name i). change (tk_kids t) with (ps_kids ps).
          split; [destruct J8; [assumption|contradiction]|]. rewrite Hkinds, J11. split; [exact HSh|]. intros H0. rewrite Ek in H0. discriminate. }
        cbn [ends]. split; [now apply (known_scopes _ s st)|]. split; [|split].
        - intros a Ha k0 Hk0. destruct (Nat.eq_dec a pt) as [->|Hne].
          + rewrite Hnew in Hk0. change (tk_kids t) with (ps_kids ps) in Hk0. apply Hshaped; [now apply Hkid|now apply J9].
          + rewrite Hold in Hk0 by exact Hne. destruct (Nat.eq_dec k0 pt) as [->|Hne']; [exact Hsh|].
            apply Hshaped; [exact Hne'|]. apply (J3 a); [lia|exact Hk0].
        - intros Hq a Ha. destruct (Nat.eq_dec a pt) as [->|Hne]; [now rewrite Hnew|]. rewrite Hold by exact Hne. apply (J4 Hq). lia.
        - split.
          + right. split; [exact Hsh|]. unfold reach, stop_of. rewrite Hnew. change (re (tk_mr t)) with (re (ps_mr ps)).
            change (tk_kids t) with (ps_kids ps). destruct md; [| |congruence|exact Logic.I].
            * split; [apply J10; [discriminate|exact Hks]|]. intros k0 Hk0. rewrite Hold by now apply Hkid. now apply (J9 k0).
            * apply J10; [discriminate|exact Hks].
          + cbn [seen]. rewrite Hnew. change (should_discard t) with false. cbv iota. change (is_error t) with false.
            change (tk_name t) with (pi_name i). change (tk_kids t) with (ps_kids ps). change (tk_attrs t) with (@nil (str * str)).
            cbv iota. rewrite Hkinds, J11. exact HT1. }
      unfold finalize. destruct strict; [|exact Hc]. destruct (pi_iter i) as [[lo hi]|] eqn:Ei; [|exact Hc].
      destruct (N.eqb_spec lo 0) as [->|]; cbn [andb].
      - destruct ((count =? 0) && _); [|destruct (count <? 0); [exact Hfail|exact Hc]].
        cbn [ends]. split; [exact (j_known _ _ _ HJ)|]. split; [exact (J_neat _ _ _ HJ)|]. split; [exact (J_calm _ _ _ HJ)|].
        split; [cbn; split; [lia|change (Z.to_N 0) with 0; lia]|]. exact (HS hi eq_refl eq_refl).
      - destruct (count <? lo); [exact Hfail|exact Hc].
    Qed.

    (* one pass over the patterns *)
    Variables (c : ctx) (M : kindlist -> Prop) (B : str -> kindlist -> Prop) (T' : out -> Prop).
    Hypothesis Hgood : re (c_off c) = L /\ c_debug c = 0.
    Hypothesis Hplain : pi_stop i = false.
    Hypothesis HM : pi_iter i <> None -> forall ks, M ks -> ks <> [] -> Sh (pi_name i) ks /\ T' (OTok false (pi_name i) ks true).
    Definition passed (K' : kindlist -> Prop) (k : ctl) (ps : pst) (st : state) : Prop :=
      match k with
      | CDone => exists ks, J ks st ps /\ K' ks
      | CAct (SBreak b p) => exists ks, J ks st ps /\ md = Strong /\ payload (ps_off ps) st p /\
          (forall a, In a (success_tokens p) -> (S pt <= a < heap_size st)%nat) /\ B b (ks ++ adds (seen st p))
      | CAct _ => False
      | CRet r => after q md T' start s pt r st
      end.
    Lemma run_chain count pats : forall (I : note) K K' ks st ps, chain n q md M B I pats K K' -> stable I -> J ks st ps -> K ks -> M ks -> I s st ->
      match run_patterns E P (exec n E P) i c s pt start count pats ps st with
      | Ret (k, ps') st' => passed K' k ps' st' | Pan _ => False | OOF => True end.
    Proof.
      induction pats as [|m pats IH]; intros I K K' ks st ps Hch HI HJ HK HMk HIs; inversion Hch as [? ? ? HK'|? I1 ? lv T ? ? K1 ? S1 Hpat Hfits HT HB Hch']; subst; cbn [run_patterns].
      - exists ks. auto.
      - pose proof (j_off _ _ _ HJ) as [O1 O2]. pose proof (j_stage _ _ _ HJ) as Hstg. destruct Hgood as [G1 G2].
        set (cc := push_tok (with_start c (ps_off ps)) pt).
        assert (Hcc : good cc) by (unfold good, cc; cbn; auto).
        destruct (Hpat cc s st (j_known _ _ _ HJ) Hcc HIs) as [He Hn].
        change (rs (c_off cc)) with (ps_off ps) in He.
        pose proof (exec_sound E P HE n) as Hsd. fold cc. destruct (exec n E P m cc s st) as [r st1|p|] eqn:Ex; [|destruct He|exact Logic.I].
        destruct (Hsd (heap_size st) _ _ _ _ _ _ (le_n _) (forest_top st) Ex) as (P1 & _ & Hin0).
        destruct (Hsd (S pt) _ _ _ _ _ _ (proj1 Hstg) (proj1 (proj2 Hstg)) Ex) as (_ & P2 & Hin). clear Hsd.
        cbn [ends] in He. destruct He as (A1 & A2 & A3 & A4).
        assert (HJ1 : J ks st1 ps) by exact (J_grown ks st ps st1 HJ P1 P2 A1 A2 A3).
        destruct Hfits as (F1 & F2 & F3 & F4). cbn [noted] in Hn.
        assert (Hsame : forall o ps', T o -> is_break o = false -> adds o = [] -> J ks st1 ps' -> I1 s st1 ->
          match run_patterns E P (exec n E P) i c s pt start count pats ps' st1 with
          | Ret (k, ps') st' => passed K' k ps' st' | Pan _ => False | OOF => True end).
        { intros o ps' Ho Hb Ha HJ' HIs'. destruct (HT ks o HK Ho Hb) as [K1k Mk]. rewrite Ha, app_nil_r in *. eapply IH; eauto. }
        destruct r as [[a|a|z|b p|b p| |]|e]; try (destruct A4 as [A4 A5]).
        + cbn [outcome seen] in A4, A5. destruct (should_discard (tok st1 a)) eqn:Ed.
          { eapply Hsame; eauto. }
          destruct A4 as [A4|[Hsh Hr]]; [discriminate|]. rewrite Hplain. unfold handle_token. rewrite Ed. cbn [negb]. rewrite andb_true_r.
          assert (Ha : (S pt <= a < heap_size st1)%nat) by (apply Hin; now left).
          destruct (J_add ks st1 ps a (m_consuming m) (m_consuming m) HJ1 Ha Hsh) as (ps2 & t & Hadd & HJ2 & _).
          * intros Hl. destruct (m_consuming m) eqn:Em.
            -- left. split; [reflexivity|]. specialize (O2 Hl). destruct (F2 eq_refl Hl) as [->| ->]; cbn [reach] in Hr; [destruct Hr; lia|lia].
            -- right. split; [reflexivity|]. destruct (F3 eq_refl _ A5) as [Hz|[Hz1 Hz2]]; [discriminate|]. split; [|now apply Hz2].
               destruct md; congruence.
          * intros Hf _ He. specialize (F1 Hf). destruct lv; cbn [reach] in Hr; [destruct Hr; lia|lia|specialize (Hr He); lia|congruence].
          * rewrite Hadd. destruct (HT _ _ HK A5 eq_refl) as [K1k Mk]. cbn [adds] in K1k, Mk. cbn [kinds map] in HJ2.
            eapply (IH _ _ _ _ _ _ Hch' S1 HJ2 K1k Mk). apply S1; [exact Hn|exact Ed].
        + cbn [outcome seen] in A4, A5. destruct A4 as [Hsh Hr]. replace (should_discard (tok st1 a)) with false by (symmetry; apply Hsh).
          rewrite Hplain. assert (Ha : (S pt <= a < heap_size st1)%nat) by (apply Hin; now left).
          destruct (J_proxy ks st1 ps a (m_consuming m) HJ1 Ha Hsh Hr) as (ps2 & st2 & Hadd & HJ2 & Hno).
          * intros Hf Hl. destruct (F3 Hf _ A5) as [Hz|[Hz1 Hz2]].
            -- left. cbn [adds] in Hz. unfold kinds in Hz. now apply map_eq_nil in Hz.
            -- right. split; [destruct md; congruence|now apply Hz2].
          * rewrite Hadd. destruct (HT _ _ HK A5 eq_refl) as [K1k Mk]. cbn [adds] in K1k, Mk.
            exact (IH _ _ _ _ _ _ Hch' S1 HJ2 K1k Mk (Hno _ S1 Hn)).
        + rewrite Hplain, andb_false_r. cbn [outcome] in A4. destruct A4 as [Z1 Z2]. destruct (m_consuming m).
          * destruct (J_skip ks st1 ps z HJ1 Z1 Z2) as (ps2 & Hadd & HJ2 & _). rewrite Hadd. eapply Hsame; eauto.
          * eapply Hsame; eauto.
        + cbn [passed]. exists ks. split; [exact HJ1|]. split; [exact (F4 _ _ A5)|]. split; [exact A4|]. split; [exact Hin|].
          exact (HB _ _ _ HK A5).
        + destruct A4.
        + destruct A4.
        + destruct A4.
        + rewrite dbg_good by exact G2. destruct e as [|e].
          * rewrite Hplain. destruct (pi_iter i) as [x|] eqn:Ei.
            -- pose proof (J_final ks st1 ps count false T' HJ1) as Hf.
               specialize (Hf (HM ltac:(congruence) ks HMk)).
               assert (Hf1 : ends q md T' start s pt (finalize P i pt ps count false st1)) by (apply Hf; discriminate).
               destruct (finalize P i pt ps count false st1) as [r st2|p|]; [exact Hf1|destruct Hf1|exact Logic.I].
            -- cbn [passed]. exact (J_err _ _ _ _ _ _ _ HJ1 A4).
          * cbn [passed]. exact (J_err _ _ _ _ _ _ _ HJ1 A4).
    Qed.

    Hypothesis HB : forall b ks, B b ks -> ks <> [] -> Sh (pi_name i) ks /\
      T' (if is_target i b then OTok false (pi_name i) ks true else OBrk b (OTok false (pi_name i) ks true)).
    Hypothesis HS : forall hi, pi_iter i = Some (0, hi) -> T' OSkip.
    Lemma break_end K' ps st b p count : passed K' (CAct (SBreak b p)) ps st ->
      ends q md T' start s pt
        (do ps, st <- handle_payload E P pt start p ps st;
         do r, st <- finalize P i pt ps count false st;
         if is_target i b then Ret r st
         else match r with Ok x => Ret (Ok (SBreak b x)) st | Err e => Ret (Err e) st end).
    Proof.
      intros (ks & HJ & Hm & Hp & Hin & Hb).
      destruct (J_payload ks st ps p HJ Hm Hp Hin) as (ps1 & st1 & -> & HJ1).
      set (ks1 := ks ++ adds (seen st p)) in *. specialize (HB b ks1 Hb).
      pose proof (J_final ks1 st1 ps1 count false (fun o => o = OTok false (pi_name i) ks1 true /\ ks1 <> []) HJ1) as Hf.
      assert (Hf1 : ends q md (fun o => o = OTok false (pi_name i) ks1 true /\ ks1 <> []) start s pt (finalize P i pt ps1 count false st1)).
      { apply Hf; [|discriminate]. intros Hks. split; [now apply HB|auto]. }
      destruct (finalize P i pt ps1 count false st1) as [r st2|p2|]; [|destruct Hf1|exact Logic.I]. cbn [ends] in Hf1.
      destruct Hf1 as (A1 & A2 & A3 & A4).
      assert (Hgo : forall r', match r' with Err e => fated e | Ok y => outcome md start st2 y /\ T' (seen st2 y) end ->
        after q md T' start s pt r' st2) by (intros r' H; split; auto).
      destruct r as [x|e].
      - destruct A4 as (A4 & A5 & A6). specialize (HB A6). destruct HB as [_ HT].
        destruct (is_target i b); cbn [ends]; apply Hgo.
        + split; [exact A4|]. now rewrite A5.
        + destruct x as [a|a|z|b1 p1|b1 p1| |]; cbn [seen] in A5; try discriminate. cbn [seen outcome payload].
          destruct (should_discard (tok st2 a)) eqn:Ed; [discriminate|]. rewrite A5. split; [|exact HT].
          cbn [outcome] in A4. rewrite Ed, Hm in A4. destruct A4 as [A4|A4]; [discriminate|exact A4].
      - destruct (is_target i b); cbn [ends]; now apply Hgo.
    Qed.
    Lemma iterate_chain pats (K K' : kindlist -> Prop) : chain n q md M B all_notes pats K K' ->
      (forall ks, K ks -> M ks) -> (pi_iter i <> None -> forall ks, K' ks -> K ks) ->
      (forall ks, K' ks -> ks <> [] -> Sh (pi_name i) ks /\ T' (OTok false (pi_name i) ks true)) ->
      forall fuel left count ks st ps, (pi_iter i = None -> left <= 1) ->
        J ks st ps -> (K ks /\ (left = 0 -> ks = [] \/ K' ks)) \/ (left = 0 /\ K' ks) ->
        ends q md T' start s pt (iterate fuel E P (exec n E P) pats i c s pt start left count ps st).
    Proof.
      intros Hch HKM HKK HK'. induction fuel as [|f IH]; intros left count ks st ps Hleft HJ HKk; cbn [iterate];
        (destruct (N.eqb_spec left 0) as [->|Hl];
         [apply J_final with (ks := ks); [exact HJ| |intros hi _; apply HS];
          intros Hks; destruct HKk as [[_ HKk]|[_ HKk]]; [destruct (HKk eq_refl); [contradiction|]|]; now apply HK'|]); [exact Logic.I|].
      destruct HKk as [[HKk _]|[HKk _]]; [|contradiction].
      assert (Hst : stable all_notes) by (intros ? ? ? ? _ _; exact Logic.I).
      pose proof (run_chain count pats all_notes K K' ks st ps Hch Hst HJ HKk (HKM ks HKk) Logic.I) as Hrun.
      destruct (run_patterns E P (exec n E P) i c s pt start count pats ps st) as [[k ps1] st1|p|]; [|destruct Hrun|exact Logic.I].
      destruct k as [|x|r].
      - destruct Hrun as (ks1 & HJ1 & HK1). apply IH with (ks := ks1); [intros Hi; specialize (Hleft Hi); lia|exact HJ1|].
        destruct (pi_iter i) eqn:Ei; [left; split; [apply HKK; [discriminate|exact HK1]|right; exact HK1]|].
        right. split; [specialize (Hleft eq_refl); lia|exact HK1].
      - destruct x as [a|a|z|b p|b p| |]; try now destruct Hrun. rewrite Hplain. exact (break_end _ _ _ _ _ count Hrun).
      - exact Hrun.
    Qed.
  End Program.

  Lemma sem_program q md pats i (T' : out -> Prop) B K' : own (MProgram pats i) -> pi_iter i = None -> pi_stop i = false -> md <> Errors ->
    (forall n, (n <= N0)%nat -> chain n q md (fun _ => True) B all_notes pats (fun ks => ks = []) K') ->
    (forall ks, K' ks -> ks <> [] -> Sh (pi_name i) ks /\ T' (OTok false (pi_name i) ks true)) ->
    (forall b ks, B b ks -> ks <> [] -> Sh (pi_name i) ks /\ T' (OBrk b (OTok false (pi_name i) ks true))) ->
    Sem q md (MProgram pats i) T'.
  Proof.
    intros Ho Hi Hp Hmd Hch HK HB. apply sem_step; [exact Ho|]. intros n Hn c s st0 st Hst Hk (C1 & C2 & C3). unfold step. rewrite Hst.
    unfold exec_program. change (rs (c_off (clone_with_name c (pi_name i)))) with (rs (c_off c)). change (next_addr st) with (heap_size st).
    eapply (iterate_chain n q md i s st (rs (c_off c)) Hmd C1 (clone_with_name c (pi_name i)) (fun _ => True) B T' (conj C2 C3) Hp); [congruence| |congruence| | | | | | |].
    - intros b ks Hb Hks. unfold is_target. rewrite Hi. now apply HB.
    - apply Hch. lia.
    - auto.
    - congruence.
    - exact HK.
    - intros _. unfold iterations. rewrite Hi. lia.
    - apply J_start; [exact C1|reflexivity|]. now apply (known_scopes _ s st).
    - left. split; [reflexivity|auto].
  Qed.
  Lemma sem_loop q md pats i lo hi (T' : out -> Prop) B (A : kindlist -> Prop) : own (MProgram pats i) -> pi_iter i = Some (lo, hi) ->
    pi_stop i = false -> md <> Errors -> A [] -> (lo = 0 -> T' OSkip) ->
    (forall n, (n <= N0)%nat -> chain n q md A B all_notes pats A A) ->
    (forall ks, A ks -> ks <> [] -> Sh (pi_name i) ks /\ T' (OTok false (pi_name i) ks true)) ->
    (forall b ks, B b ks -> A ks /\ (b = pi_name i \/ b = "")) ->
    Sem q md (MProgram pats i) T'.
  Proof.
    intros Ho Hi Hp Hmd HA0 HS Hch HK HB. apply sem_step; [exact Ho|]. intros n Hn c s st0 st Hst Hk (C1 & C2 & C3). unfold step. rewrite Hst.
    unfold exec_program. change (rs (c_off (clone_with_name c (pi_name i)))) with (rs (c_off c)). change (next_addr st) with (heap_size st).
    eapply (iterate_chain n q md i s st (rs (c_off c)) Hmd C1 (clone_with_name c (pi_name i)) A B T' (conj C2 C3) Hp); [auto| | | | | | | | |].
    - intros b ks Hb Hks. destruct (HB b ks Hb) as [H1 H2]. unfold is_target. rewrite Hi.
      replace (str_eqb b (pi_name i) || str_eqb b "") with true.
      2:{ symmetry. destruct H2 as [->| ->]; rewrite str_eqb_refl; [reflexivity|apply orb_true_r]. }
      auto.
    - intros hi0 H0. rewrite Hi in H0. injection H0 as -> _. auto.
    - apply Hch. lia.
    - auto.
    - auto.
    - exact HK.
    - congruence.
    - apply J_start; [exact C1|reflexivity|]. now apply (known_scopes _ s st).
    - left. auto.
  Qed.

  (* ---------- switches ---------- *)

  Lemma run_switch n q lv i c s st_s start count pats (T : out -> Prop) : re (c_off c) = L /\ c_debug c = 0 -> pi_stop i = true -> start <= L ->
    (forall m, In m pats -> SemAt n q lv m T) -> forall st ps, J q Strong i s st_s start [] st ps -> ps_off ps = start ->
    match run_patterns E P (exec n E P) i c s (heap_size st_s) start count pats ps st with
    | Ret (CDone, ps') st' => J q Strong i s st_s start [] st' ps'
    | Ret (CAct x, _) st' => (exists b p, x = SBreak b p) /\ after q lv T start s (heap_size st_s) (Ok x) st'
    | Ret (CRet r, _) st' => after q lv T start s (heap_size st_s) r st'
    | Pan _ => False | OOF => True end.
  Proof.
    intros [G1 G2] Hstop Hstart. induction pats as [|m pats IH]; intros Hm st ps HJ Hoff; cbn [run_patterns]; [exact HJ|].
    pose proof (j_stage _ _ _ _ _ _ _ _ _ HJ) as Hstg.
    set (cc := push_tok (with_start c (ps_off ps)) (heap_size st_s)).
    assert (Hcc : good cc) by (unfold good, cc; cbn; rewrite Hoff; auto).
    pose proof (Hm m (or_introl eq_refl) cc s st (j_known _ _ _ _ _ _ _ _ _ HJ) Hcc) as He.
    change (rs (c_off cc)) with (ps_off ps) in He.
    pose proof (exec_sound E P HE n) as Hsd. destruct (exec n E P m cc s st) as [r st1|p|] eqn:Ex; [|destruct He|exact Logic.I].
    destruct (Hsd (heap_size st) _ _ _ _ _ _ (le_n _) (forest_top st) Ex) as (P1 & _ & Hin0).
    destruct (Hsd (S (heap_size st_s)) _ _ _ _ _ _ (proj1 Hstg) (proj1 (proj2 Hstg)) Ex) as (_ & P2 & Hin). clear Hsd.
    cbn [ends] in He. destruct He as (A1 & A2 & A3 & A4).
    assert (HJ1 : J q Strong i s st_s start [] st1 ps) by (eapply J_grown; eauto).
    assert (Hret : after q lv T start s (heap_size st_s) r st1).
    { split; [exact A1|]. split; [eapply J_neat; eauto|]. split; [eapply J_calm; eauto|]. rewrite Hoff in A4. exact A4. }
    specialize (IH (fun m' Hm' => Hm m' (or_intror Hm'))).
    destruct r as [[a|a|z|b p|b p| |]|e]; try (destruct A4 as [A4 A5]).
    - destruct (should_discard (tok st1 a)); [now apply IH|]. rewrite Hstop. exact Hret.
    - replace (should_discard (tok st1 a)) with false by (symmetry; apply A4). rewrite Hstop. exact Hret.
    - rewrite Hstop, andb_true_r. destruct (Z.ltb_spec 0 z); [exact Hret|]. cbn [outcome] in A4.
      destruct (m_consuming m); [|now apply IH].
      destruct (J_skip q Strong i s st_s start Hstart [] st1 ps z HJ1 (proj1 A4) (proj2 A4)) as (ps2 & Hadd & HJ2 & Ho). rewrite Hadd.
      apply IH; [exact HJ2|]. rewrite Ho, Hoff. destruct A4. replace z with 0%Z by lia. change (Z.to_N 0) with 0. lia.
    - split; [eauto|exact Hret].
    - destruct A4.
    - destruct A4.
    - destruct A4.
    - rewrite dbg_good by exact G2. destruct e as [|e]; [|exact Hret]. rewrite Hstop. now apply IH.
  Qed.
  Lemma sem_switch q lv pats i (T : out -> Prop) : own (MProgram pats i) -> pi_iter i = None -> pi_stop i = true ->
    (forall m, In m pats -> Sem q lv m T) -> Sem q lv (MProgram pats i) T.
  Proof.
    intros Ho Hi Hp Hm. apply sem_step; [exact Ho|]. intros n Hn c s st0 st Hst Hk (C1 & C2 & C3). unfold step. rewrite Hst.
    unfold exec_program. change (rs (c_off (clone_with_name c (pi_name i)))) with (rs (c_off c)). change (next_addr st) with (heap_size st).
    unfold iterations. rewrite Hi. destruct n as [|n]; [exact Logic.I|]. cbn [iterate].
    change (1 =? 0) with false. cbv iota.
    assert (HJ : J q Strong i s st (rs (c_off c)) [] (alloc st (std_token P (pi_name i) blank_range)) (init_pst (rs (c_off c)))).
    { apply J_start; [exact C1|reflexivity|]. now apply (known_scopes _ s st). }
    pose proof (run_switch (S n) q lv i (clone_with_name c (pi_name i)) s st (rs (c_off c)) 0 pats T (conj C2 C3) Hp C1
      (fun m Hin => Hm m Hin (S n) (le_S_n _ _ (le_S _ _ Hn))) _ _ HJ eq_refl) as Hr.
    destruct (run_patterns E P (exec (S n) E P) i _ s _ _ 0 pats _ _) as [[k ps1] st1|p|]; [|destruct Hr|exact Logic.I].
    destruct k as [|x|r]; [|destruct Hr as [(b & p & ->) Hr]; rewrite Hp; exact Hr|exact Hr].
    assert (Hf : forall f : nat, iterate f E P (exec (S n) E P) pats i (clone_with_name c (pi_name i)) s (heap_size st) (rs (c_off c)) (1 - 1) (0 + 1) ps1 st1
      = finalize P i (heap_size st) ps1 (0 + 1) true st1) by (intros [|f]; reflexivity).
    rewrite Hf. unfold finalize. rewrite Hi.
    assert (Hk0 : ps_kids ps1 = []).
    { pose proof (j_kinds _ _ _ _ _ _ _ _ _ Hr) as H. unfold kinds in H. now apply map_eq_nil in H. }
    rewrite Hk0. destruct (_ || _); cbn [ends]; (eapply J_err; [|exact Hr|exact Logic.I]); auto.
  Qed.

  (* ---------- maps of the grammar ---------- *)

  Section Maps.
    Variables (q : bool) (lv : level) (x : matcher) (T T' : out -> Prop).
    Hypothesis Hx : Sem q lv x T.
    Hypothesis Hpx : forall ks, ~ T (OPrx ks).
    Hypothesis Hother : forall o, T o -> T' o \/ exists e n ks b, o = OTok e n ks b.

    Lemma sem_map lv' f : lv = lv' \/ lv = Strong \/ lv' = Lax ->
      (forall e c s st, map_err E P f e c s st = Ret (Err e) st) -> (forall o, T o -> o <> OPin) ->
      (forall c s h st a, known s st -> forest h st -> (h <= a < heap_size st)%nat -> neat h st -> (q = true -> calm h st) -> good c ->
        shaped st a -> reach lv (rs (c_off c)) st a -> T (seen st (SToken a)) ->
        ends q lv' T' (rs (c_off c)) s h (map_ok E P f a c s st)) ->
      Sem q lv' (MMap x f) T'.
    Proof.
      intros Hlv Herr Hpin Hok. apply sem_step; [discriminate|]. intros n Hn c s st0 st Hst Hk Hc. unfold step. rewrite Hst.
      pose proof (sem_inner q lv x T n c (m_name (MMap x f)) s st Hx Hn Hk Hc) as H.
      pose proof (exec_sound E P HE n (heap_size st) x (clone_with_name c (m_name (MMap x f))) s st) as Hsd.
      destruct (exec n E P x _ s st) as [r st'|p|]; cbn [ends] in *; auto.
      destruct (Hsd _ _ (le_n _) (forest_top st) eq_refl) as (P1 & P2 & P3). clear Hsd.
      destruct H as (H1 & H2 & H3 & H4).
      assert (Hgo : forall r', match r' with Err e => fated e | Ok y => outcome lv' (rs (c_off c)) st' y /\ T' (seen st' y) end ->
        after q lv' T' (rs (c_off c)) s (heap_size st) r' st') by (intros r' H; split; auto).
      destruct r as [[a|a|z|nm p|nm p| |]|e]; try (destruct H4 as [H4 H5]).
      - cbn [outcome] in H4. destruct (should_discard (tok st' a)) eqn:Ed.
        { exfalso. cbn [seen] in H5. rewrite Ed in H5. now apply Hpin in H5. }
        destruct H4 as [H4|[H4 H6]]; [discriminate|].
        apply (Hok (clone_with_name c (m_name (MMap x f)))); auto. apply P3. now left.
      - now apply Hpx in H5.
      - cbn [ends]. apply Hgo. destruct (Hother _ H5) as [H6|(e0 & n0 & ks & b & H6)]; [|discriminate]. auto.
      - cbn [ends]. apply Hgo. destruct (Hother _ H5) as [H6|(e0 & n0 & ks & b & H6)]; [|discriminate].
        split; [exact H4|exact H6].
      - destruct H4.
      - destruct H4.
      - destruct H4.
      - rewrite Herr. cbn [ends]. now apply Hgo.
    Qed.
    (* the token remains as good as it is *)
    Lemma after_same s h st st' a lo : known s st' -> likewise st st' -> forest h st -> neat h st -> (q = true -> calm h st) ->
      shaped st a -> reach lv lo st a -> T' (seen st' (SToken a)) -> after q lv T' lo s h (Ok (SToken a)) st'.
    Proof.
      intros H1 H2 H3 H4 H5 H6 H7 H8. split; [exact H1|]. split; [now apply (likewise_neat h st)|].
      split; [intros Hq; now apply (likewise_calm h st); [|apply H5]|]. split; [|exact H8].
      right. split; [now apply (likewise_shaped st)|now apply (reach_likewise _ _ st)].
    Qed.
  End Maps.

  Lemma sem_regex q lv x (T : out -> Prop) : Sem q lv x T -> (forall n b, T (OTok false n [] b) -> Sh n [] -> False) -> (forall ks, ~ T (OPrx ks)) -> (forall o, T o -> o <> OPin) -> Sem q lv (MMap x MapRegex) T.
  Proof.
    intros Hx Hno Hpx Hpin. eapply (sem_map q lv x T T Hx Hpx); [auto|now left|intros [|]; reflexivity|exact Hpin|].
    intros c s h st a Hk Hf Ha Hn Hc Hg Hsh Hr HT. cbn [map_ok ends].
    set (v := range_text P _). unfold modify. set (t := set_value v (tok st a)).
    assert (Hlw : likewise st (set_tok st a t)).
    { apply likewise_set. unfold alike. destruct (is_error (tok st a)) eqn:Ee; cbn; [tauto|]. repeat (split; [reflexivity|]). intros Hkids. exfalso.
      destruct Hsh as (D1 & _ & D3). rewrite Ee in D3. destruct D3 as (_ & D3 & _). cbn [seen] in HT. rewrite D1, Ee, Hkids in HT. rewrite Hkids in D3.
      eapply Hno; [exact HT|exact D3]. }
    apply (after_same q lv T s h st); auto.
    - rewrite (seen_likewise st) with (1 := Hlw); [exact HT|]. intros b [<-|[]]. rewrite tok_set_same by (unfold heap_size in *; lia). reflexivity.
  Qed.

  Section Attributes.
    Hypothesis HSa : forall ks, Sh "Attributes" ks -> Forall (fun k => k = Some (lit "Attribute")) ks.
    Hypothesis HSb : forall ks, Sh "Attribute" ks -> (2 <= List.length ks)%nat.
    Lemma attrs_ok h st a : forest h st -> neat h st -> (h <= a < heap_size st)%nat ->
      exists l, attributes_of st a = Val l /\ Forall (fun p => shaped st (fst (fst p)) /\ is_error (tok st (fst (fst p))) = false) l.
    Proof.
      intros Hf Hn Ha. unfold attributes_of. destruct (find_child st (tok st a) "Attributes") as [k|] eqn:Ek; [|eexists; split; [reflexivity|constructor]].
      apply find_some in Ek as [Hin Hname]. apply str_eqb_eq in Hname.
      assert (Hk : (h <= k < heap_size st)%nat) by (eapply forest_closed; eauto).
      destruct (Hn a (proj1 Ha) k Hin) as (_ & _ & D). destruct (is_error (tok st k)) eqn:Ee.
      { destruct D as (_ & _ & D). rewrite Hname in D. discriminate. }
      destruct D as (_ & D & _). rewrite Hname in D. apply HSa in D. unfold kinds in D. rewrite Forall_map in D.
      assert (Hkk : forall b, In b (tk_kids (tok st k)) -> shaped st b) by (intros b Hb; exact (Hn k (proj1 Hk) b Hb)).
      revert D Hkk. generalize (tk_kids (tok st k)). clear Hin. induction l as [|b l IH]; intros D Hkk; cbn [attr_pairs].
      - eexists. split; [reflexivity|constructor].
      - inversion D as [|? ? D1 D2]; subst. destruct (is_error (tok st b)) eqn:Eb; [discriminate|]. injection D1 as D1.
        pose proof (Hkk b (or_introl eq_refl)) as Hb. pose proof Hb as (_ & _ & B). rewrite Eb in B. destruct B as (_ & B & _). rewrite D1 in B. apply HSb in B.
        unfold kinds in B. rewrite map_length in B. destruct (tk_kids (tok st b)) as [|n [|v r]]; cbn in B; try lia.
        destruct (IH D2 (fun b' Hb' => Hkk b' (or_intror Hb'))) as (l' & -> & H). eexists. split; [reflexivity|]. constructor; [|exact H].
        cbn [fst]. auto.
    Qed.
    Lemma set_attrs_alike l st a : attributes_of st a = Val l -> likewise st (modify st a (set_attrs l)).
    Proof.
      intros Hl. apply likewise_set.
      assert (Hnil : tk_kids (tok st a) = [] -> l = []).
      { intros Hk. unfold attributes_of, find_child in Hl. rewrite Hk in Hl. now injection Hl as <-. }
      set (t := tok st a) in *.
      assert (H : forall l t, tk_kind (set_attrs l t) = tk_kind t /\ tk_name (set_attrs l t) = tk_name t /\ tk_flags (set_attrs l t) = tk_flags t /\
        tk_kids (set_attrs l t) = tk_kids t /\ tk_mr (set_attrs l t) = tk_mr t /\
        (get_attr "__message" t <> None -> get_attr "__message" (set_attrs l t) <> None)).
      { clear. unfold set_attrs. induction l as [|p l IH]; intros t; cbn [fold_left]; [tauto|].
        destruct (IH (set_attr (snd (fst p)) (snd p) t)) as (-> & -> & -> & -> & -> & H). cbn [tk_kind tk_name tk_flags tk_kids tk_mr set_attr].
        repeat (split; [reflexivity|]). intros Hm. apply H. unfold get_attr, set_attr. cbn [tk_attrs].
        destruct (str_eqb (snd (fst p)) "__message") eqn:Eq.
        - apply str_eqb_eq in Eq. rewrite Eq, assoc_get_set_same. discriminate.
        - rewrite assoc_get_set_other; [exact Hm|]. intros He. rewrite He, str_eqb_refl in Eq. discriminate. }
      destruct (H l t) as (H1 & H2 & H3 & H4 & H5 & H6). unfold alike. rewrite H1, H2, H3, H4, H5. destruct (is_error t); [tauto|]. repeat (split; [reflexivity|]). intros Hk. now rewrite (Hnil Hk).
    Qed.
    Lemma sem_patterndef q lv x (T T' : out -> Prop) : Sem q lv x T -> (forall ks, ~ T (OPrx ks)) -> (forall o, T o -> o <> OPin) ->
      (forall o, T o -> T' o) -> (forall e n ks b b', T (OTok e n ks b) -> T' (OTok e n ks b')) -> Sem q lv (MMap x MapPatternDef) T'.
    Proof.
      intros Hx Hpx Hpin H1 H2. eapply (sem_map q lv x T T' Hx Hpx); [auto|now left|intros [|]; reflexivity|exact Hpin|].
      intros c s h st a Hk Hf Ha Hn Hc Hg Hsh Hr HT. cbn [map_ok].
      destruct (attrs_ok h st a Hf Hn Ha) as (l & Hat & _). rewrite Hat. cbn [ends]. pose proof (set_attrs_alike l st a Hat) as Hlw.
      apply (after_same q lv T' s h st); auto.
      - cbn [seen] in *. destruct (Hlw a) as (K1 & K2 & _ & K4 & _). unfold should_discard in *. rewrite K1, K2, K4, (alike_error _ _ (Hlw a)).
        rewrite (likewise_kinds _ _ _ Hlw). destruct (tk_kind (tok st a)); [|exact (H1 _ HT)]. eapply H2, HT.
    Qed.
    Lemma version_last l : forall t v o, (get_attr "version" t = None \/ o <> None) -> get_attr "version" (set_attrs l t) = Some v ->
      fold_left (fun o p => if str_eqb (snd (fst p)) "version" then Some (fst (fst p)) else o) l o <> None.
    Proof.
      unfold set_attrs. induction l as [|p l IH]; intros t v o Ho H; cbn [fold_left] in *.
      - destruct Ho as [Ho|Ho]; [congruence|exact Ho].
      - eapply IH; [|exact H]. destruct (str_eqb (snd (fst p)) "version") eqn:Ev; [right; discriminate|].
        destruct Ho as [Ho|Ho]; [left|right; exact Ho]. unfold get_attr, set_attr in *. cbn [tk_attrs].
        rewrite assoc_get_set_other; [exact Ho|]. intros He. rewrite He, str_eqb_refl in Ev. discriminate.
    Qed.
    Lemma version_in l : forall o a, fold_left (fun o p => if str_eqb (snd (fst p)) "version" then Some (fst (fst p)) else o) l o = Some a ->
      o = Some a \/ exists p : addr * str * str, In p l /\ fst (fst p) = a.
    Proof.
      induction l as [|p l IH]; intros o a H; cbn [fold_left] in H; [auto|]. destruct (IH _ _ H) as [He|(p' & Hp & He)]; [|right; exists p'; split; [now right|exact He]].
      destruct (str_eqb _ _); [right; exists p; injection He as <-; split; [now left|reflexivity]|auto].
    Qed.
    Lemma sem_adextopa x (T T' : out -> Prop) : Sem false Strong x T -> (forall o, T o -> exists n ks, o = OTok false n ks true) ->
      (forall n ks b b', T (OTok false n ks b) -> T' (OTok false n ks b')) -> T' (OTok true "Error" [] false) ->
      Sem false Errors (MMap x MapAdextopaScope) T'.
    Proof.
      intros Hx HT H1 H2. eapply (sem_map false Strong x T T' Hx); [| |auto|intros [|]; reflexivity| |].
      - intros ks Hk. apply HT in Hk as (n & ks' & Hk). discriminate.
      - intros o Ho. right. apply HT in Ho as (n & ks & ->). eauto.
      - intros o Ho. apply HT in Ho as (n & ks & ->). discriminate.
      - intros c s h st a Hk Hf Ha Hn Hc Hg Hsh Hr HTa. cbn [map_ok].
        destruct (attrs_ok h st a Hf Hn Ha) as (l & Hat0 & Hl). rewrite Hat0. set (st1 := modify st a (set_attrs l)).
        pose proof (set_attrs_alike l st a Hat0) as Hlw. fold st1 in Hlw.
        pose proof (likewise_shaped _ _ _ Hlw Hsh) as Hsh1.
        destruct (HT _ HTa) as (n & ks & Hse). cbn [seen] in Hse. destruct (should_discard (tok st a)) eqn:Ed; [discriminate|].
        injection Hse as He Hnm Hks Hat.
        assert (He1 : is_error (tok st1 a) = false) by (rewrite (alike_error _ _ (Hlw a)); exact He).
        assert (Hf1 : forest h st1) by (apply forest_set; [apply set_attrs_kids|apply set_attrs_kind|exact Hf]).
        assert (Hsz : heap_size st1 = heap_size st) by apply heap_size_set.
        assert (Hk1 : known s st1) by (now apply (known_scopes _ s st)).
        assert (Hn1 : neat h st1) by (now apply (likewise_neat h st)).
        destruct Hsh1 as (D1 & D2 & D3). rewrite He1 in D3.
        assert (Herr : forall msg r, rs r <= L -> re r <= L -> ends false Errors T' (rs (c_off c)) s h (error_token_at E P msg r st1)).
        { intros msg r Hr1 Hr2. apply after_error; auto; [lia|intros [|]; discriminate]. }
        destruct (get_attr "version" (tok st1 a)) as [v|] eqn:Ev.
        + destruct (parse_usize v).
          * cbn [ends]. split; [exact Hk1|]. split; [exact Hn1|]. split; [discriminate|]. split.
            -- right. split; [exact (likewise_shaped _ _ _ Hlw Hsh)|]. intros _. pose proof (reach_likewise Strong _ st st1 a Hlw Hr) as [Hr1 _]. exact Hr1.
            -- cbn [seen]. rewrite D1, He1. destruct (Hlw a) as (K1 & K2 & _ & K4 & _). rewrite K2, K4, (likewise_kinds _ _ _ Hlw).
               cbn [seen] in HTa. rewrite Ed, He in HTa. eapply H1, HTa.
          * unfold version_attr. destruct (fold_left _ l None) as [va|] eqn:Efo.
            -- apply version_in in Efo as [Efo|(p & Hp & <-)]; [discriminate|]. rewrite Forall_forall in Hl. destruct (Hl p Hp) as [B1 B2].
               pose proof (likewise_shaped _ _ _ Hlw B1) as (_ & B3 & B4). rewrite (alike_error _ _ (Hlw _)), B2 in B4. apply Herr; tauto.
            -- exfalso. assert (Hta : tok st1 a = set_attrs l (tok st a)) by (unfold st1, modify; rewrite tok_set_same by (unfold heap_size in *; lia); reflexivity).
               rewrite Hta in Ev. eapply version_last in Ev; [exact (Ev Efo)|]. left. unfold get_attr. destruct (tk_attrs (tok st a)); [reflexivity|discriminate].
        + destruct (find_child st1 (tok st1 a) "EndOfScopeHeader") as [p|] eqn:Ep; [|apply Herr; tauto].
          apply find_some in Ep as [Ep _]. destruct (Hn1 a (proj1 Ha) p Ep) as (_ & B & _). apply Herr; cbn [rs re]; tauto.
    Qed.
  End Attributes.
  Lemma sem_patternscope x (T T' : out -> Prop) : Sem false Strong x T -> (forall o, T o -> o <> OPin /\ T' o) -> (forall ks, ~ T (OPrx ks)) ->
    T' (OTok true "Error" [] false) -> Sem false Errors (MMap x MapPatternScope) T'.
  Proof.
    intros Hx HT Hpx H2. eapply (sem_map false Strong x T T' Hx Hpx); [|auto|intros [|]; reflexivity| |].
    - intros o Ho. left. exact (proj2 (HT o Ho)).
    - intros o Ho. exact (proj1 (HT o Ho)).
    - intros c s h st a Hk Hf Ha Hn Hc (C1 & C2 & C3) Hsh Hr HTa. cbn [map_ok].
      destruct (N.ltb_spec (re (tk_mr (tok st a))) L) as [Hl|Hl].
      + destruct (slices (re (tk_mr (tok st a))) L) as [w ->]; [lia|lia|]. unfold error_token.
        apply after_error; auto; [lia|intros [|]; discriminate].
      + cbn [ends]. split; [exact Hk|]. split; [exact Hn|]. split; [discriminate|]. split; [|exact (proj2 (HT _ HTa))].
        right. split; [exact Hsh|]. intros _. exact (proj1 Hr).
  Qed.
  Lemma sem_script x (T T' : out -> Prop) : Sem false Lax x T -> (forall o, T o -> T' o /\ (o = OSkip \/ exists n ks b, o = OTok false n ks b)) ->
    T' (OTok true "Error" [] false) -> Sem false Lax (MMap x MapScript) T'.
  Proof.
    intros Hx HT H2. eapply (sem_map false Lax x T T' Hx); [| |auto|intros [|]; reflexivity| |].
    - intros ks Ho. apply HT in Ho as [_ [Ho|(n & l & b & Ho)]]; discriminate.
    - intros o Ho. left. now apply HT.
    - intros o Ho. apply HT in Ho as [_ [->|(n & l & b & ->)]]; discriminate.
    - intros c s h st a Hk Hf Ha Hn Hc (C1 & C2 & C3) Hsh Hr HTa. cbn [map_ok].
      assert (Hsame : ends false Lax T' (rs (c_off c)) s h (Ret (Ok (SToken a)) st)).
      { cbn [ends]. split; [exact Hk|]. split; [exact Hn|]. split; [discriminate|]. split; [|now apply HT]. right. auto. }
      destruct (find_child st (tok st a) "AdextopaScope"); [exact Hsame|]. destruct (find_child st (tok st a) "PatternScope"); [exact Hsame|].
      apply HT in HTa as [_ HTa]. cbn [seen] in HTa. destruct (should_discard (tok st a)); [destruct HTa as [|(n & ks & b & H)]; discriminate|].
      destruct HTa as [HTa|(n & ks & b & HTa)]; [discriminate|]. injection HTa as He _ _ _. destruct Hsh as (D1 & D2 & D3). rewrite He in D3.
      apply after_error; auto; [lia|tauto|intros [|]; discriminate].
  Qed.

  (* ---------- looking back at a place ---------- *)

  (* the name [x] is the pin of a place *)
  Definition bookmark (x : str) : note := fun s st =>
    exists a p, sc_get st s x = Some (VToken a) /\ (a < heap_size st)%nat /\ should_discard (tok st a) = true /\
      tk_mr (tok st a) = mkR p L /\ p <= L.
  Lemma bookmark_stable x : stable (bookmark x).
  Proof.
    intros s st a t (b & p & H1 & H2 & H3 & H4 & H5) Ha. exists b, p.
    assert (a <> b) by (intros ->; congruence). rewrite tok_set_other, heap_size_set by auto. auto.
  Qed.
  Lemma bookmark_kept x s st st' : bookmark x s st -> sc_get st' s x = sc_get st s x -> grown st st' -> bookmark x s st'.
  Proof.
    intros (b & p & H1 & H2 & H3 & H4 & H5) Hg [G1 G2]. exists b, p. rewrite Hg, (G2 b H2). repeat split; auto. lia.
  Qed.
  Lemma all_stable : stable all_notes.
  Proof. intros s st a t _ _. exact Logic.I. Qed.

  Lemma pat_store n x : own (StoreM x Pin_) -> body x = None -> pat n all_notes (bookmark x) false Strong (StoreM x Pin_) (fun o => o = OPin).
  Proof.
    intros Ho Hbx c s st Hk Hc _. destruct n as [|[|n]]; [split; exact Logic.I..|].
    pose proof (known_own _ s st Ho Hk) as Hk1. set (st1 := before_exec (StoreM x Pin_) s st) in *.
    assert (Hsz : heap_size st1 = heap_size st) by apply before_size.
    set (t := pin_token P "Pin" (c_off c)). set (st2 := alloc st1 t).
    assert (He : exec (S (S n)) E P (StoreM x Pin_) c s st = Ret (Ok (SToken (next_addr st1))) (sc_set st2 s x (VToken (next_addr st1)))).
    { unfold st2, t, st1. destruct c as [d sc k [x0 y0] nm]. reflexivity. }
    rewrite He. clear He.
    assert (Hv : valid_scope st2 s) by exact (proj1 (proj2 Hk1)).
    assert (Ht : tok (sc_set st2 s x (VToken (next_addr st1))) (next_addr st1) = t).
    { change (tok st2 (next_addr st1) = t). apply tok_alloc_new. }
    split.
    - cbn [ends]. rewrite <- Hsz. split; [apply known_set; [congruence|]; now apply (known_scopes _ s st1)|].
      split; [apply (likewise_neat _ st2); [now apply likewise_heap|]; apply neat_leaf; [reflexivity|apply forest_top|apply le_n|apply neat_top]|].
      split; [discriminate|]. cbn [outcome seen]. rewrite Ht. split; [now left|reflexivity].
    - cbn [noted]. exists (next_addr st1), (rs (c_off c)). rewrite Ht. split; [now apply get_set_same|].
      split; [change (heap_size (sc_set st2 s x (VToken (next_addr st1)))) with (heap_size (alloc st1 t)); rewrite heap_size_alloc; apply Nat.lt_succ_diag_r|].
      split; [reflexivity|]. destruct Hc as (C1 & C2 & C3). split; [|exact C1]. cbn. destruct (c_off c). cbn in *. now subst.
  Qed.

  (* matchers that do not touch the name *)
  Inductive flat (x : str) : matcher -> Prop :=
  | fl_equals v nm b : (b = true -> nm <> x) -> flat x (MEquals (FStr v) nm b)
  | fl_matches f nm b : (b = true -> nm <> x) -> flat x (MMatches f nm b)
  | fl_sequence u v w nm b : (b = true -> nm <> x) -> flat x (MSequence (FStr u) (FStr v) (FStr w) nm b)
  | fl_discard m : flat x m -> flat x (MDiscard m)
  | fl_fatal m msg : flat x m -> flat x (MMap m (MapFatalIf msg)).
  Lemma before_other x m s st : (m_custom m = true -> m_name m <> x) -> sc_get (before_exec m s st) s x = sc_get st s x.
  Proof.
    intros H. unfold before_exec. destruct (m_custom m); [|reflexivity]. apply get_set_other. right. auto.
  Qed.
  Lemma same_get st st' s x : st_scopes st' = st_scopes st -> sc_get st' s x = sc_get st s x.
  Proof. intros H. unfold sc_get, stack_of. now rewrite H. Qed.
  Lemma skip_scopes start a st y st' : skip_token E P start a st = Ret y st' -> st_scopes st' = st_scopes st.
  Proof.
    unfold skip_token. destruct (error_tokens _ st a) as [[|e l]|]; [destruct (or_die _ _); [|discriminate]| |discriminate]; intros H; now injection H as <- <-.
  Qed.
  Lemma flat_keeps x m : flat x m -> forall n c s st r st', exec n E P m c s st = Ret r st' -> sc_get st' s x = sc_get st s x.
  Proof.
    induction 1 as [v nm b Hn|f nm b Hn|u v w nm b Hn|m Hm IH|m msg Hm IH]; intros [|n] c s st r st' H; try discriminate; cbn [exec] in H; unfold step in H.
    - rewrite <- (before_other x (MEquals (FStr v) nm b) s st Hn). cbn [fetch_value] in H.
      destruct (matches_str _ _ _) as [o|]; [|discriminate]. destruct (dbg _ _ _ _); [|discriminate].
      destruct o; injection H as <- <-; now apply same_get.
    - rewrite <- (before_other x (MMatches f nm b) s st Hn).
      destruct (matches_regexp _ _ _) as [o|]; [|discriminate]. destruct o as [o|].
      + destruct (_ =? _); [destruct (dbg _ _ _ _); [|discriminate]|]; injection H as <- <-; now apply same_get.
      + destruct (dbg _ _ _ _); [|discriminate]. injection H as <- <-; now apply same_get.
    - rewrite <- (before_other x (MSequence (FStr u) (FStr v) (FStr w) nm b) s st Hn). unfold exec_sequence in H. cbn [fetch_value] in H.
      repeat first [progress cbv iota in H|match type of H with context [match ?e with _ => _ end] => destruct e; try discriminate H end];
        injection H as <- <-; now apply same_get.
    - change (before_exec (MDiscard m) s st) with st in H. destruct (exec n E P m _ s st) as [r0 st1|p|] eqn:E1; try discriminate.
      rewrite <- (IH _ _ _ _ _ _ E1). cbv iota beta in H. unfold discard_result in H.
      destruct r0 as [[a|a|z|nm p|nm p| |]|e]; try (injection H as <- <-; reflexivity);
        try (destruct (skip_token _ _ _ _ _) as [y st2|p'|] eqn:Es; try discriminate; injection H as <- <-; apply same_get; eapply skip_scopes; eauto);
        (unfold discard_payload in H; destruct p; try discriminate H; try (injection H as <- <-; reflexivity);
          destruct (skip_token _ _ _ _ _) as [y st2|p'|] eqn:Es; try discriminate; injection H as <- <-; apply same_get; eapply skip_scopes; eauto).
    - change (before_exec (MMap m (MapFatalIf msg)) s st) with st in H. destruct (exec n E P m _ s st) as [r0 st1|p|] eqn:E1; try discriminate.
      rewrite <- (IH _ _ _ _ _ _ E1). cbv iota beta in H.
      destruct r0 as [[a|a|z|nm p|nm p| |]|[|e]]; cbn [map_ok map_err] in H;
        repeat match type of H with context [match ?e with _ => _ end] => destruct e; try discriminate H end; injection H as <- <-; reflexivity.
  Qed.
  Lemma pat_flat n x q lv m T : Sem q lv m T -> (n <= N0)%nat -> flat x m -> pat n (bookmark x) (bookmark x) q lv m T.
  Proof.
    intros H Hn Hf c s st Hk Hc Hb. split; [now apply H|]. unfold noted. destruct (exec n E P m c s st) as [[y|e] st'|p|] eqn:Ee; try exact Logic.I.
    pose proof (flat_keeps x m Hf _ _ _ _ _ _ Ee) as Hg.
    destruct (exec_sound E P HE n (heap_size st) m c s st _ _ (le_n _) (forest_top st) Ee) as (P1 & _).
    eapply bookmark_kept; eauto.
  Qed.
  Lemma pat_look n x m msg nm b (T : out -> Prop) : Sem false Strong m T -> (n <= N0)%nat ->
    (forall o, T o -> exists n ks b, o = OTok false n ks b) -> no_dot x -> nm <> x ->
    own (MPin (Some (MMap m (MapAssertIf msg))) (FFetch (x ++ lit ".range")) nm b) ->
    pat n (bookmark x) all_notes false Lax (MPin (Some (MMap m (MapAssertIf msg))) (FFetch (x ++ lit ".range")) nm b)
      (fun o => o = OSkip \/ o = OTok true "Error" [] false).
  Proof.
    intros Hm Hn HT Hx Hnm Ho c s st Hk (C1 & C2 & C3) Hb. split.
    2:{ unfold noted. destruct (exec n E P _ c s st) as [[y|e] st'|p|]; exact Logic.I. }
    destruct n as [|n]; [exact Logic.I|]. cbn [exec]. unfold step. pose proof (known_own _ s st Ho Hk) as Hk1.
    set (st1 := before_exec _ s st) in *.
    assert (Hsz : heap_size st1 = heap_size st) by apply before_size.
    assert (Hb1 : bookmark x s st1).
    { apply (bookmark_kept x s st); [exact Hb| |].
      - apply before_other. intros _. exact Hnm.
      - split; [lia|]. intros a _. unfold st1, before_exec. destruct (m_custom _); reflexivity. }
    destruct Hb1 as (a & p & B1 & B2 & B3 & B4 & B5).
    assert (Hsay : says st1 s (FFetch (x ++ lit ".range")) (dec p ++ lit ".." ++ dec L)).
    { apply (says_token st1 s x a "range" _ Hx B1). pose proof (fe_range (tok st1 a) (dec p) (dec L)) as Hf.
      rewrite B4 in Hf. apply Hf; apply dec_decimal. }
    apply fetch_says in Hsay. rewrite Hsay.
    assert (Hnum : forall k, k <= L -> numeral k (dec k)).
    { intros k Hkl. destruct (dec_decimal k) as (D1 & D2 & D3 & _). split; [exact D1|]. split; [exact D2|]. split; [exact D3|].
      unfold usize_max, isize_bound in *. lia. }
    assert (Hp : pins (c_off (clone_with_name c nm)) (dec p ++ lit ".." ++ dec L) (mkR p L)).
    { apply pin_both; apply of_absolute; apply Hnum; lia. }
    cbn [m_name]. rewrite (pin_context_pins E (clone_with_name c nm) _ _ Hp). cbn [c_debug c_scope c_stack c_name clone_with_name].
    set (c1 := mkCtx _ _ _ _ _).
    destruct n as [|n]; [exact Logic.I|]. cbn [exec]. unfold step.
    change (before_exec (MMap m (MapAssertIf msg)) s st1) with st1.
    assert (Hc1 : good (clone_with_name c1 (m_name (MMap m (MapAssertIf msg))))) by (split; [exact B5|split; [reflexivity|exact C3]]).
    assert (Hn' : (n <= N0)%nat) by lia.
    pose proof (Hm n Hn' _ s st1 Hk1 Hc1) as H.
    pose proof (exec_sound E P HE n (heap_size st1) m (clone_with_name c1 (m_name (MMap m (MapAssertIf msg)))) s st1) as Hsd.
    destruct (exec n E P m _ s st1) as [r st'|p'|]; cbn [ends] in *; auto.
    destruct (Hsd _ _ (le_n _) (forest_top st1) eq_refl) as (P1 & P2 & P3). clear Hsd. rewrite Hsz in *.
    destruct H as (H1 & H2 & H3 & H4).
    destruct r as [[a1|a1|z|nm1 p1|nm1 p1| |]|[|e]]; cbn [ends map_ok map_err]; auto;
      try (destruct H4 as [H4 H5]; specialize (HT _ H5)); try (destruct HT as (n0 & ks & b0 & HT); discriminate).
    - cbn [outcome seen] in *. destruct HT as (n0 & ks & b0 & HT). destruct (should_discard (tok st' a1)) eqn:Ed; [discriminate|].
      destruct H4 as [H4|[H4 H6]]; [discriminate|]. assert (He : is_error (tok st' a1) = false) by (now injection HT).
      destruct H4 as (D1 & D2 & D3). rewrite He in D3.
      apply after_error; auto; try tauto; [destruct P1; lia|intros [|]; discriminate].
    - split; [exact H1|]. split; [exact H2|]. split; [discriminate|]. split; [|now left]. cbn. split; [lia|]. change (Z.to_N 0) with 0. lia.
    - split; [exact H1|]. split; [exact H2|]. split; [discriminate|exact H4].
  Qed.

  (* a program whose only child comes from looking ahead has nothing to show *)
  Lemma sem_dead q v b (T : out -> Prop) : Sh "Equals" [] -> (forall r post, at_text P r v post -> Lx "Equals" r v) -> Sem q Strong (Program_ [PinM (Equals_ v); MBreak b]) T.
  Proof.
    intros HS HX. apply sem_step; [discriminate|]. intros n Hn c s st0 st Hst Hk (C1 & C2 & C3). change (before_exec (Program_ [PinM (Equals_ v); MBreak b]) s st0) with st0 in Hst. subst st0. unfold Program_, step.
    change (before_exec (MProgram [PinM (Equals_ v); MBreak b] (mkPI "Program" None false false)) s st) with st.
    unfold exec_program. change (rs (c_off (clone_with_name c _))) with (rs (c_off c)). change (next_addr st) with (heap_size st).
    unfold iterations. cbn [pi_iter pi_name]. destruct n as [|n]; [exact Logic.I|]. cbn [iterate]. change (1 =? 0) with false. cbv iota.
    cbn [run_patterns]. cbn [ps_off init_pst].
    set (i := mkPI "Program" None false false). set (st1 := alloc st _).
    set (cc := push_tok (with_start (clone_with_name c "Program") (rs (c_off c))) (heap_size st)).
    assert (HJ : J q Lax i s st (rs (c_off c)) [] st1 (init_pst (rs (c_off c)))).
    { apply J_start; [exact C1|reflexivity|]. now apply (known_scopes _ s st). }
    assert (Hend : forall ks st' ps, J q Lax i s st (rs (c_off c)) ks st' ps -> ends q Strong T (rs (c_off c)) s (heap_size st) (Ret (Err FFail) st')).
    { intros ks st' ps HJ'. eapply J_err; [exact C1|exact HJ'|exact Logic.I]. }
    assert (Hpin : exec (S n) E P (PinM (Equals_ v)) cc s st1 = exec n E P (Equals_ v) (clone_with_name cc "Pin") s st1).
    { destruct c as [d0 sc0 k0 [x0 y0] nm0]. reflexivity. }
    rewrite Hpin. clear Hpin.
    assert (Ho : own (Equals_ v)) by discriminate.
    pose proof (sem_equals q v "Equals" false (fun o => o = OTok false "Equals" [] true) Ho HS HX eq_refl) as Heq.
    assert (Hn' : (n <= N0)%nat) by lia.
    assert (Hcc : good (clone_with_name cc "Pin")) by (split; [exact C1|split; [exact C2|exact C3]]).
    pose proof (Heq n Hn' (clone_with_name cc "Pin") s st1 (j_known _ _ _ _ _ _ _ _ _ HJ) Hcc) as H.
    pose proof (exec_sound E P HE n) as Hsd. change (MEquals (FStr v) "Equals" false) with (Equals_ v) in H.
    destruct (exec n E P (Equals_ v) _ s st1) as [r st2|p|] eqn:Ex; [|destruct H|exact Logic.I].
    pose proof (j_stage _ _ _ _ _ _ _ _ _ HJ) as Hstg.
    destruct (Hsd (heap_size st1) _ _ _ _ _ _ (le_n _) (forest_top st1) Ex) as (P1 & _ & _).
    destruct (Hsd (S (heap_size st)) _ _ _ _ _ _ (proj1 Hstg) (proj1 (proj2 Hstg)) Ex) as (_ & P2 & Hin). clear Hsd.
    destruct H as (A1 & A2 & A3 & A4).
    assert (HJ1 : J q Lax i s st (rs (c_off c)) [] st2 (init_pst (rs (c_off c)))) by (eapply J_grown; [exact C1|exact HJ|exact P1|exact P2|exact A1|exact A2|exact A3]).
    destruct r as [[a|a|z|b0 p|b0 p| |]|[|e]]; try (destruct A4 as [A4 A5]; cbn [seen] in A5; try discriminate A5).
    - cbn [outcome] in A4. destruct (should_discard (tok st2 a)) eqn:Ed; [discriminate|]. destruct A4 as [A4|[Hsh _]]; [discriminate|].
      cbn [pi_stop]. unfold handle_token. cbn [m_consuming PinM andb].
      assert (Ha : (S (heap_size st) <= a < heap_size st2)%nat) by (apply Hin; now left).
      destruct (J_add q Lax i s st (rs (c_off c)) C1 [] st2 (init_pst (rs (c_off c))) a false false HJ1 Ha Hsh) as (ps2 & t & Hadd & HJ2 & _); [congruence|discriminate|].
      pose proof Hadd as Hps. unfold add_token in Hps. rewrite andb_false_r in Hps. cbn [andb] in Hps. injection Hps as Hps _.
      rewrite Hadd.
      assert (Hbr : forall c' st', exec (S n) E P (MBreak b) c' s st' = Ret (Ok (SBreak b SNone)) st') by reflexivity.
      rewrite Hbr. change (pi_stop i) with false. cbv iota beta. cbn [handle_payload].
      assert (Hfin : forall st', finalize P i (heap_size st) ps2 0 false st' = Ret (Err FFail) st').
      { intros st'. unfold finalize. change (pi_iter i) with (@None (N * N)). rewrite <- Hps. cbn [ps_cr init_pst rs]. rewrite N.eqb_refl. reflexivity. }
      rewrite Hfin. change (is_target i b) with false. cbv iota.
      exact (Hend _ _ _ HJ2).
    - rewrite dbg_good by exact C3. cbn [pi_stop pi_iter]. exact (Hend _ _ _ HJ1).
    - rewrite dbg_good by exact C3. eapply J_err; [exact C1|exact HJ1|exact A4].
  Qed.
End Shape.
