(* Matching inside a window is matching the text of the window alone. *)
From Verif Require Import Exec Macros Spec SpecMore SpecShift Facts TextProofs FrameProofs MoveProofs FetchProofs.
From Coq Require Import Lia.
Open Scope string_scope.
Open Scope list_scope.
Open Scope N_scope.

(* ---------- arguments ---------- *)

Lemma split_pair s : forall cur x y, split_go ["."%char] 0 cur s = [x; y] -> cur ++ s = x ++ lit "." ++ y.
Proof.
  induction s as [|a s IH]; intros cur x y H; cbn [split_go] in H; [discriminate|].
  destruct (starts_with ["."%char] (a :: s)) eqn:Ea.
  - injection H as <- H. change (Nat.pred (List.length ["."%char])) with O in H.
    destruct (split_go_single [] s [] y H eq_refl) as [-> _]. cbn [starts_with] in Ea.
    destruct (Ascii.eqb_spec "." a) as [<-|]; [reflexivity|discriminate].
  - apply IH in H. now rewrite <- app_assoc in H.
Qed.
Lemma split_named n x y : split "." n = [x; y] -> n = x ++ lit "." ++ y.
Proof. exact (split_pair n [] x y). Qed.

Lemma slen_nat s : slen s = N.of_nat (List.length s).
Proof. reflexivity. Qed.
Lemma starts_len p s : starts_with p s = true -> slen p <= slen s.
Proof.
  revert s. induction p as [|x p IH]; intros s H; [rewrite slen_nil; lia|].
  destruct s as [|y s]; [discriminate|]. cbn [starts_with] in H. apply andb_true_iff in H as [_ H].
  specialize (IH _ H). rewrite !slen_cons. lia.
Qed.

Section Shift.
  Variables (E : env) (P P' : parser) (pre post : str).
  Hypothesis Hsrc : p_src P' = pre ++ p_src P ++ post.
  Hypothesis Hascii : ascii_only (p_src P').
  Hypothesis Hlen : slen (p_src P') < isize_bound.
  (* tokens below this address are older than the execution *)
  Variable base : nat.
  Notation d := (slen pre).
  Notation L := (slen (p_src P)).
  Notation sr := (shifted_range d).
  Notation sht := (shifted_token d).
  Notation shc := (shifted_ctx d).

  Lemma far : L + d < isize_bound.
  Proof. rewrite Hsrc, !slen_app in Hlen. lia. Qed.
  Lemma ascii0 : ascii_only (p_src P).
  Proof. intros x Hx. apply Hascii. rewrite Hsrc. apply in_or_app. right. apply in_or_app. now left. Qed.

  (* ---------- texts ---------- *)

  Lemma sub_shift a b : b <= L -> sub (p_src P') (a + d) (b + d) = sub (p_src P) a b.
  Proof.
    intros Hb. unfold sub. rewrite Hsrc. replace (b + d - (a + d)) with (b - a) by lia.
    replace (N.to_nat (a + d)) with (List.length pre + N.to_nat a)%nat by (rewrite slen_nat; lia).
    rewrite skipn_app. replace (skipn (List.length pre + N.to_nat a) pre) with (@nil ascii).
    2:{ symmetry. apply skipn_all2. lia. }
    cbn [app]. replace (List.length pre + N.to_nat a - List.length pre)%nat with (N.to_nat a) by lia.
    rewrite skipn_app. rewrite firstn_app.
    replace (N.to_nat (b - a) - List.length (skipn (N.to_nat a) (p_src P)))%nat with O.
    - cbn [firstn]. apply app_nil_r.
    - rewrite skipn_length. rewrite slen_nat in Hb. lia.
  Qed.
  Lemma text_shift r : re r <= L -> range_text P' (sr r) = range_text P r.
  Proof.
    intros H. unfold range_text. rewrite !char_substring_ascii by (exact Hascii || exact ascii0).
    now apply sub_shift.
  Qed.
  Lemma boundary s a : ascii_only s -> a <= slen s -> is_boundary s a = true.
  Proof.
    intros Hs Ha. unfold is_boundary. destruct (a =? 0); [reflexivity|].
    destruct (N.compare_spec a (slen s)) as [|Hl|]; [reflexivity| |lia].
    destruct (nth_error s (N.to_nat a)) as [x|] eqn:Ex.
    - apply nth_error_In in Ex. now rewrite ascii_not_cont by now apply Hs.
    - apply nth_error_None in Ex. rewrite slen_nat in Hl. lia.
  Qed.
  Lemma slice_ascii s a b : ascii_only s -> b <= slen s -> slice s a b = if a <=? b then Some (sub s a b) else None.
  Proof.
    intros Hs Hb. unfold slice. destruct (N.leb_spec a b); [|reflexivity]. cbn [andb].
    rewrite !boundary by (auto; lia). destruct (N.leb_spec b (slen s)); [reflexivity|lia].
  Qed.
  Lemma slice_shift a b : b <= L -> src_slice P' (a + d) (b + d) = src_slice P a b.
  Proof.
    intros Hb. unfold src_slice. rewrite !slice_ascii; [|exact ascii0|exact Hb|exact Hascii|rewrite Hsrc, !slen_app; lia].
    rewrite sub_shift by exact Hb. destruct (N.leb_spec a b), (N.leb_spec (a + d) (b + d)); auto; lia.
  Qed.
  Lemma slice_len a b w : b <= L -> src_slice P a b = Val w -> a <= b /\ slen w = b - a.
  Proof.
    intros Hb. unfold src_slice. rewrite slice_ascii; [|exact ascii0|exact Hb]. destruct (N.leb_spec a b); [|discriminate].
    intros H1. injection H1 as <-. split; [assumption|]. rewrite !slen_nat in *. unfold sub.
    rewrite firstn_length, skipn_length. lia.
  Qed.

  (* ---------- stores ---------- *)

  (* tokens that stand for something *)
  Definition done (t : token) : Prop := tk_kids t <> [] \/ rs (tk_mr t) < re (tk_mr t).
  (* tokens of programs that are not finished *)
  Definition pending (t : token) : Prop :=
    tk_kids t = [] /\ tk_mr t = blank_range /\ tk_cr t = blank_range.
  Definition related (t t' : token) : Prop := t' = sht t \/ (t' = t /\ pending t).
  Definition inside (t : token) : Prop :=
    tk_kind t = KStandard /\ is_error t = false /\
    rs (tk_mr t) <= re (tk_mr t) <= L /\ rs (tk_cr t) <= re (tk_cr t) <= L.
  Definition dn (st : state) (a : addr) : Prop := (base <= a)%nat /\ done (tok st a).
  Definition kids_in (st : state) (t : token) : Prop :=
    forall k, In k (tk_kids t) -> dn st k /\ rs (tk_mr t) <= rs (tk_mr (tok st k)) /\
      re (tk_mr (tok st k)) <= re (tk_mr t).
  Record G (st st' : state) : Prop := mkG {
    g_scopes : st_scopes st' = st_scopes st;
    g_local : scopes_local st;
    g_size : heap_size st' = heap_size st;
    g_base : (base <= heap_size st)%nat;
    g_old : forall a, (a < base)%nat -> tok st' a = tok st a;
    g_rel : forall a, (base <= a)%nat -> related (tok st a) (tok st' a);
    g_in : forall a, (base <= a)%nat -> inside (tok st a);
    g_kids : forall a, (base <= a)%nat -> kids_in st (tok st a)
  }.
  Definition keeps (st0 st : state) : Prop :=
    (heap_size st0 <= heap_size st)%nat /\
    forall a, (a < heap_size st0)%nat -> dn st0 a \/ tok st a = tok st0 a.
  Definition grows (st0 st : state) : Prop := keeps st0 st /\ forall a, dn st0 a -> dn st a /\
    tk_mr (tok st a) = tk_mr (tok st0 a).

  Lemma not_done t : pending t -> ~ done t.
  Proof. intros (H1 & H2 & _) [H|H]; [easy|]. rewrite H2 in H. cbn in H. lia. Qed.
  Lemma rel_done t t' : related t t' -> done t -> t' = sht t.
  Proof. intros [H|[_ H]] Hd; [exact H|]. now apply not_done in H. Qed.
  Lemma dead_not_done : ~ done dead_token.
  Proof. intros [H|H]; [easy|]. cbn in H. lia. Qed.
  Lemma done_lt st a : dn st a -> (a < heap_size st)%nat.
  Proof.
    intros [_ H]. destruct (Nat.lt_ge_cases a (heap_size st)) as [Hl|Hl]; [exact Hl|].
    unfold tok in H. rewrite nth_overflow in H by exact Hl. now apply dead_not_done in H.
  Qed.
  Lemma dn_shift st st' a : G st st' -> dn st a -> tok st' a = sht (tok st a).
  Proof. intros Hg [H1 H2]. exact (rel_done _ _ (g_rel _ _ Hg a H1) H2). Qed.
  Lemma keeps_refl st : keeps st st.
  Proof. split; auto. Qed.
  Lemma grows_refl st : grows st st.
  Proof. split; [apply keeps_refl|]. auto. Qed.
  Lemma grows_trans a b c : grows a b -> grows b c -> grows a c.
  Proof.
    intros [[H1 H2] H3] [[H4 H5] H6]. split; [split; [lia|]|].
    - intros x Hx. destruct (H2 x Hx) as [H|H]; [now left|]. destruct (H5 x) as [H7|H7]; [lia| |].
      + left. destruct H7 as [H7 H8]. split; [exact H7|]. now rewrite H in H8.
      + right. congruence.
    - intros x Hx. destruct (H3 x Hx) as [H7 H8]. destruct (H6 x H7) as [H9 H10]. split; [exact H9|congruence].
  Qed.
  Lemma grows_heap st st' : st_heap st' = st_heap st -> grows st st'.
  Proof.
    intros H. assert (Ht : forall a, tok st' a = tok st a) by (intros; unfold tok; now rewrite H).
    split; [split; [unfold heap_size; rewrite H; lia|]|].
    - intros a _. right. apply Ht.
    - intros a Ha. unfold dn. now rewrite Ht.
  Qed.

  (* related tokens have the same values *)
  Lemma rel_any st st' a : G st st' -> tok st' a = sht (tok st a) \/ tok st' a = tok st a.
  Proof.
    intros Hg. destruct (Nat.lt_ge_cases a base) as [H|H]; [right; now apply (g_old _ _ Hg)|].
    destruct (g_rel _ _ Hg a H) as [->|[-> _]]; auto.
  Qed.
  Lemma rel_kids st st' a : G st st' -> tk_kids (tok st' a) = tk_kids (tok st a).
  Proof. intros Hg. now destruct (rel_any st st' a Hg) as [->| ->]. Qed.
  Lemma rel_error st st' a : G st st' -> is_error (tok st' a) = is_error (tok st a).
  Proof. intros Hg. now destruct (rel_any st st' a Hg) as [->| ->]. Qed.
  Lemma rel_kind st st' a : G st st' -> tk_kind (tok st' a) = tk_kind (tok st a).
  Proof. intros Hg. now destruct (rel_any st st' a Hg) as [->| ->]. Qed.

  (* changes *)
  Lemma G_heap st st' st1 st1' : G st st' -> st_heap st1 = st_heap st -> st_heap st1' = st_heap st' ->
    st_scopes st1' = st_scopes st1 -> scopes_local st1 -> G st1 st1'.
  Proof.
    intros [H1 H2 H3 HB HO H4 H5 H6] E1 E2 E3 E4.
    assert (T1 : forall a, tok st1 a = tok st a) by (intros; unfold tok; now rewrite E1).
    assert (T2 : forall a, tok st1' a = tok st' a) by (intros; unfold tok; now rewrite E2).
    constructor; auto.
    - unfold heap_size in *. congruence.
    - unfold heap_size in *. congruence.
    - intros a Ha. rewrite T1, T2. auto.
    - intros a Ha. rewrite T1, T2. auto.
    - intros a Ha. rewrite T1. auto.
    - intros a Ha k. unfold dn. rewrite !T1. now apply H6.
  Qed.
  Lemma tok_alloc_cases st t a :
    (a <> next_addr st /\ tok (alloc st t) a = tok st a) \/ (a = next_addr st /\ tok (alloc st t) a = t).
  Proof.
    destruct (Nat.lt_trichotomy a (next_addr st)) as [H|[->|H]].
    - left. split; [lia|]. now apply tok_alloc_old.
    - right. split; [reflexivity|apply tok_alloc_new].
    - left. split; [lia|]. unfold tok. rewrite !nth_overflow; auto; unfold next_addr in H; cbn [alloc st_heap]; [lia|].
      rewrite app_length. cbn [List.length]. lia.
  Qed.
  Lemma G_alloc st st' t t' : G st st' -> related t t' -> inside t -> kids_in st t -> G (alloc st t) (alloc st' t').
  Proof.
    intros [H1 H2 H3 HB HO H4 H5 H6] R I K.
    assert (Hk : forall u, kids_in st u -> kids_in (alloc st t) u).
    { intros u Hu k Hk. destruct (Hu k Hk) as (D & X & Y). pose proof (done_lt _ _ D) as Hl. unfold dn.
      rewrite tok_alloc_old by exact Hl. auto. }
    assert (Hn : next_addr st' = next_addr st) by exact H3.
    constructor; auto.
    - now rewrite !heap_size_alloc, H3.
    - rewrite heap_size_alloc. lia.
    - intros a Ha. rewrite !tok_alloc_old; auto; unfold heap_size in *; lia.
    - intros a Hb. destruct (tok_alloc_cases st t a) as [[Ha ->]|[-> ->]].
      + destruct (tok_alloc_cases st' t' a) as [[_ ->]|[Hc _]]; [auto|congruence].
      + rewrite <- Hn. now rewrite tok_alloc_new.
    - intros a Ha. destruct (tok_alloc_cases st t a) as [[_ ->]|[_ ->]]; auto.
    - intros a Ha. destruct (tok_alloc_cases st t a) as [[_ ->]|[_ ->]]; auto.
  Qed.
  Lemma grows_alloc st t : grows st (alloc st t).
  Proof.
    split; [split; [rewrite heap_size_alloc; lia|]|].
    - intros a Ha. right. now apply tok_alloc_old.
    - intros a Ha. unfold dn. rewrite tok_alloc_old by now apply done_lt. auto.
  Qed.
  Lemma tok_set_cases st a t b : (a < heap_size st)%nat ->
    (b <> a /\ tok (set_tok st a t) b = tok st b) \/ (b = a /\ tok (set_tok st a t) b = t).
  Proof.
    intros Ha. destruct (Nat.eq_dec b a) as [->|Hn].
    - right. split; [reflexivity|]. now apply tok_set_same.
    - left. split; [exact Hn|]. apply tok_set_other. auto.
  Qed.
  Lemma G_set st st' a t t' : G st st' -> (base <= a < heap_size st)%nat -> t' = sht t -> inside t -> kids_in st t ->
    (dn st a -> done t /\ tk_mr t = tk_mr (tok st a)) -> G (set_tok st a t) (set_tok st' a t').
  Proof.
    intros [H1 H2 H3 HB HO H4 H5 H6] [Hb Ha] R I K Hd.
    assert (Hk : forall u, kids_in st u -> kids_in (set_tok st a t) u).
    { intros u Hu k Hk. destruct (Hu k Hk) as (D & X & Y). unfold dn.
      destruct (tok_set_cases st a t k Ha) as [[_ ->]|[-> ->]]; [auto|]. destruct (Hd D) as [D1 ->]. auto. }
    constructor; auto.
    - now rewrite !heap_size_set.
    - now rewrite heap_size_set.
    - intros b Hl. rewrite !tok_set_other by lia. auto.
    - intros b Hl. destruct (tok_set_cases st a t b Ha) as [[Hn ->]|[-> ->]].
      + rewrite tok_set_other by auto. auto.
      + rewrite tok_set_same by (unfold heap_size in *; lia). now left.
    - intros b Hl. destruct (tok_set_cases st a t b Ha) as [[_ ->]|[-> ->]]; auto.
    - intros b Hl. destruct (tok_set_cases st a t b Ha) as [[_ ->]|[-> ->]]; auto.
  Qed.
  Lemma grows_set st a t : dn st a -> done t -> tk_mr t = tk_mr (tok st a) -> grows st (set_tok st a t).
  Proof.
    intros Ha Ht Hm. pose proof (done_lt _ _ Ha) as Hl. split; [split; [now rewrite heap_size_set|]|].
    - intros b Hb. destruct (tok_set_cases st a t b Hl) as [[_ ->]|[-> _]]; auto.
    - intros b [Hb Hc]. unfold dn. destruct (tok_set_cases st a t b Hl) as [[_ ->]|[-> ->]]; auto.
  Qed.
  (* a token that is finished later than [st0] *)
  Lemma grows_fin st0 st a t : grows st0 st -> (heap_size st0 <= a < heap_size st)%nat -> ~ dn st a ->
    grows st0 (set_tok st a t).
  Proof.
    intros [[H1 H2] H3] Ha Hn. split; [split; [now rewrite heap_size_set|]|].
    - intros b Hb. rewrite tok_set_other by lia. auto.
    - intros b Hb. unfold dn. rewrite tok_set_other; [now apply H3|]. intros ->. apply done_lt in Hb. lia.
  Qed.
  (* done tokens change, but not their range and children *)
  Lemma G_touch st st' a (f f' : token -> token) : G st st' -> dn st a ->
    (forall t, f' (sht t) = sht (f t)) ->
    (forall t, tk_kids (f t) = tk_kids t /\ tk_mr (f t) = tk_mr t) -> (inside (tok st a) -> inside (f (tok st a))) ->
    G (modify st a f) (modify st' a f') /\ grows st (modify st a f).
  Proof.
    intros Hg Hd Hf Hk Hi. destruct (Hk (tok st a)) as [K1 K2].
    assert (Hd' : done (f (tok st a))) by (unfold dn, done in *; now rewrite K1, K2).
    split; [|now apply grows_set]. unfold modify. apply G_set; auto.
    - split; [apply Hd|now apply done_lt].
    - rewrite (dn_shift _ _ a Hg Hd). apply Hf.
    - apply Hi. apply (g_in _ _ Hg). apply Hd.
    - intros k Hin. rewrite K1 in Hin. rewrite K2. apply (g_kids _ _ Hg a (proj1 Hd) k Hin).
  Qed.

  (* ---------- results ---------- *)

  Fixpoint lands (st : state) (lo hi : N) (x : success) : Prop :=
    match x with
    | SToken a | SProxy a => dn st a /\ lo <= rs (tk_mr (tok st a)) /\ re (tk_mr (tok st a)) <= hi
    | SSkip z => (0 <= z <= Z.of_N hi - Z.of_N lo)%Z
    | SBreak _ p | SContinue _ p => lands st lo hi p
    | _ => True
    end.
  Lemma lands_grows st st1 lo hi x : grows st st1 -> lands st lo hi x -> lands st1 lo hi x.
  Proof.
    intros [_ Hg]. induction x; cbn [lands]; auto.
    - intros (H1 & H2 & H3). destruct (Hg _ H1) as [D ->]. auto.
    - intros (H1 & H2 & H3). destruct (Hg _ H1) as [D ->]. auto.
  Qed.

  Definition sim {A} (st0 : state) (Q : A -> A -> state -> Prop) (r r' : res A) : Prop :=
    match r, r' with
    | Ret x st, Ret x' st' => G st st' /\ grows st0 st /\ Q x x' st
    | Pan p, Pan p' => p' = p
    | OOF, OOF => True
    | _, _ => False
    end.
  Definition QR (lo hi : N) (r r' : mres) (st : state) : Prop :=
    r' = r /\ match r with Ok x => lands st lo hi x | Err _ => True end.

  Lemma sim_ret {A} st0 (Q : A -> A -> state -> Prop) (x x' : A) st st' : G st st' -> grows st0 st -> Q x x' st -> sim st0 Q (Ret x st) (Ret x' st').
  Proof. cbn. auto. Qed.
  Lemma sim_pan {A} st0 (Q : A -> A -> state -> Prop) p : sim st0 Q (Pan p) (Pan p).
  Proof. reflexivity. Qed.
  Lemma sim_oof {A} st0 (Q : A -> A -> state -> Prop) : sim st0 Q OOF OOF.
  Proof. exact Logic.I. Qed.
  Lemma sim_from {A} st0 st1 (Q : A -> A -> state -> Prop) r r' : grows st0 st1 -> sim st1 Q r r' -> sim st0 Q r r'.
  Proof.
    intros Hg. destruct r, r'; cbn; auto. intros (H1 & H2 & H3). split; [auto|]. split; [|auto]. eapply grows_trans; eauto.
  Qed.
  Lemma sim_bind {A B} st0 st1 (Q : A -> A -> state -> Prop) (Q2 : B -> B -> state -> Prop) r r' (k k' : A -> state -> res B) :
    sim st1 Q r r' ->
    (forall x x' st st', G st st' -> grows st1 st -> Q x x' st -> sim st0 Q2 (k x st) (k' x' st')) ->
    sim st0 Q2 (match r with Ret x st => k x st | Pan p => Pan p | OOF => OOF end)
               (match r' with Ret x st => k' x st | Pan p => Pan p | OOF => OOF end).
  Proof.
    intros H Hk. destruct r as [x st|p|], r' as [x' st'|p'|]; cbn in H; try contradiction.
    - destruct H as (H1 & H2 & H3). now apply Hk.
    - now subst.
    - exact Logic.I.
  Qed.
  Lemma sim_let {A B} st0 (Q2 : B -> B -> state -> Prop) (m : may A) (k k' : A -> res B) :
    (forall x, m = Val x -> sim st0 Q2 (k x) (k' x)) ->
    sim st0 Q2 (match m with Val x => k x | Die p => Pan p end) (match m with Val x => k' x | Die p => Pan p end).
  Proof. intros H. destruct m; [now apply H|apply sim_pan]. Qed.
  Lemma fail_ret st0 lo hi e st st' : G st st' -> grows st0 st -> sim st0 (QR lo hi) (Ret (Err e) st) (Ret (Err e) st').
  Proof. intros. apply sim_ret; auto. now split. Qed.
  Lemma skip_ret st0 lo hi st st' : lo <= hi -> G st st' -> grows st0 st ->
    sim st0 (QR lo hi) (Ret (Ok (SSkip 0)) st) (Ret (Ok (SSkip 0)) st').
  Proof. intros. apply sim_ret; auto. split; [reflexivity|]. cbn [lands]. lia. Qed.

  (* ---------- contexts and texts ---------- *)

  Definition win (c : ctx) : Prop := rs (c_off c) <= re (c_off c) <= L.

  Lemma add_fits b x y : x + y <= usize_max -> usize_add b x y = Some (x + y).
  Proof. intros H. unfold usize_add. destruct (N.leb_spec (x + y) usize_max); [reflexivity|lia]. Qed.
  Lemma sh_debug c k : win c -> k <= isize_bound -> debug_range E P' (shc c) k = debug_range E P c k.
  Proof.
    intros [H1 H2] Hk. pose proof far as Hf. unfold debug_range. cbn [shifted_ctx c_off shifted_range rs re].
    assert (Hb : isize_bound + isize_bound <= usize_max + 1) by (vm_compute; discriminate).
    rewrite !add_fits by lia. cbn [or_die].
    replace (if re (c_off c) + d <? rs (c_off c) + d + k then re (c_off c) + d else rs (c_off c) + d + k)
      with ((if re (c_off c) <? rs (c_off c) + k then re (c_off c) else rs (c_off c) + k) + d).
    - apply slice_shift. destruct (N.ltb_spec (re (c_off c)) (rs (c_off c) + k)); lia.
    - destruct (N.ltb_spec (re (c_off c)) (rs (c_off c) + k)), (N.ltb_spec (re (c_off c) + d) (rs (c_off c) + d + k)); lia.
  Qed.
  Lemma sh_dbg c k : win c -> k <= isize_bound -> dbg E P' (shc c) k = dbg E P c k.
  Proof. intros H Hk. unfold dbg. now rewrite sh_debug. Qed.
  Lemma small : 10 <= isize_bound.
  Proof. vm_compute. discriminate. Qed.

  Lemma sh_matches c p : win c ->
    match matches_str P c p with
    | Val (Some r) => matches_str P' (shc c) p = Val (Some (sr r)) /\ r = mkR (rs (c_off c)) (rs (c_off c) + slen p) /\
                      0 < slen p /\ re r <= re (c_off c)
    | Val None => matches_str P' (shc c) p = Val None
    | Die q => matches_str P' (shc c) p = Die q
    end.
  Proof.
    intros [H1 H2]. unfold matches_str. destruct (N.eqb_spec (slen p) 0); [reflexivity|].
    cbn [shifted_ctx c_off shifted_range rs re]. rewrite slice_shift by exact H2.
    destruct (src_slice P (rs (c_off c)) (re (c_off c))) as [w|q] eqn:Ew; [|reflexivity].
    destruct (starts_with p w) eqn:Es; [|reflexivity].
    apply slice_len in Ew as [_ Ew]; [|exact H2]. apply starts_len in Es.
    split; [|split; [reflexivity|split; [lia|cbn; lia]]].
    unfold clone_with_len, shifted_range. cbn [rs re]. do 3 f_equal. lia.
  Qed.
  Lemma sh_matches_at c p i : re (c_off c) <= L ->
    match matches_str_at P c p i with
    | Val (Some r) => matches_str_at P' (shc c) p (i + d) = Val (Some (sr r)) /\ r = mkR i (i + slen p) /\
                      0 < slen p /\ i + slen p <= re (c_off c)
    | Val None => matches_str_at P' (shc c) p (i + d) = Val None
    | Die q => matches_str_at P' (shc c) p (i + d) = Die q
    end.
  Proof.
    intros H2. unfold matches_str_at. cbn [shifted_ctx c_off shifted_range rs re].
    replace (re (c_off c) + d <=? i + d) with (re (c_off c) <=? i)
      by (destruct (N.leb_spec (re (c_off c)) i), (N.leb_spec (re (c_off c) + d) (i + d)); auto; lia).
    destruct (N.leb_spec (re (c_off c)) i); [reflexivity|]. cbn [orb].
    destruct (N.eqb_spec (slen p) 0); [reflexivity|].
    rewrite slice_shift by exact H2.
    destruct (src_slice P i (re (c_off c))) as [w|q] eqn:Ew; [|reflexivity].
    destruct (starts_with p w) eqn:Es; [|reflexivity].
    apply slice_len in Ew as [_ Ew]; [|exact H2]. apply starts_len in Es.
    split; [|split; [reflexivity|lia]].
    unfold shifted_range. cbn [rs re]. do 3 f_equal. lia.
  Qed.
  Lemma sh_regexp c f : win c -> sane_find f ->
    match matches_regexp P c f with
    | Val (Some r) => matches_regexp P' (shc c) f = Val (Some (sr r)) /\ rs r = rs (c_off c) /\ rs r <= re r <= re (c_off c)
    | Val None => matches_regexp P' (shc c) f = Val None
    | Die q => matches_regexp P' (shc c) f = Die q
    end.
  Proof.
    intros [H1 H2] Hf. unfold matches_regexp. cbn [shifted_ctx c_off shifted_range rs re]. rewrite slice_shift by exact H2.
    destruct (src_slice P (rs (c_off c)) (re (c_off c))) as [w|q] eqn:Ew; [|reflexivity].
    destruct (f w) as [[a b]|] eqn:Efw; [|reflexivity]. apply Hf in Efw.
    apply slice_len in Ew as [_ Ew]; [|exact H2].
    destruct (N.eqb_spec (a + rs (c_off c)) (rs (c_off c))), (N.eqb_spec (a + (rs (c_off c) + d)) (rs (c_off c) + d)); cbn [negb]; try lia; [|reflexivity].
    cbn [rs re]. split; [|lia]. unfold shifted_range. cbn [rs re]. do 3 f_equal; lia.
  Qed.
  Lemma sh_scan c ep esc : re (c_off c) <= L -> slen ep <> 0 -> forall f f' i p v,
    (N.to_nat (re (c_off c) - i) < f)%nat -> (N.to_nat (re (c_off c) - i) < f')%nat ->
    match seq_scan f P c ep esc i p v with
    | Val (Found j w) => seq_scan f' P' (shc c) ep esc (i + d) (p + d) v = Val (Found (j + d) w) /\
                         i <= j /\ j + slen ep <= re (c_off c)
    | Val NotFound => seq_scan f' P' (shc c) ep esc (i + d) (p + d) v = Val NotFound
    | Val ScanFuel => False
    | Die q => seq_scan f' P' (shc c) ep esc (i + d) (p + d) v = Die q
    end.
  Proof.
    intros H2 Hep. induction f as [|f IH]; intros f' i p v Hf Hf'; [lia|]. destruct f' as [|f']; [lia|].
    cbn [seq_scan]. cbn [shifted_ctx c_off shifted_range rs re].
    replace (re (c_off c) + d <=? i + d) with (re (c_off c) <=? i)
      by (destruct (N.leb_spec (re (c_off c)) i), (N.leb_spec (re (c_off c) + d) (i + d)); auto; lia).
    destruct (N.leb_spec (re (c_off c)) i) as [|Hi]; [reflexivity|].
    assert (Hp : (if p + d <? i + d then src_slice P' (p + d) (i + d) else Val []) = (if p <? i then src_slice P p i else Val [])).
    { destruct (N.ltb_spec p i), (N.ltb_spec (p + d) (i + d)); try lia; [apply slice_shift; lia|reflexivity]. }
    pose proof (sh_matches_at c ep i H2) as M1. change (mkCtx (c_debug c) (c_scope c) (c_stack c) (shifted_range d (c_off c)) (c_name c)) with (shc c) in *.
    destruct (matches_str_at P c ep i) as [[r|]|q].
    - destruct M1 as (-> & _ & _ & M1). rewrite Hp. destruct (if p <? i then src_slice P p i else Val []); [|reflexivity].
      split; [reflexivity|]. lia.
    - rewrite M1. pose proof (sh_matches_at c esc i H2) as M2.
      destruct (matches_str_at P c esc i) as [[r|]|q].
      + destruct M2 as (-> & -> & Hl & M2). rewrite Hp. destruct (if p <? i then src_slice P p i else Val []) as [w|q]; [|reflexivity].
        cbn [shifted_range rs re].
        specialize (IH f' (i + slen esc + 1) (i + slen esc) (v ++ w)).
        replace (i + slen esc + d + 1) with (i + slen esc + 1 + d) by lia.
        destruct (seq_scan f P c ep esc (i + slen esc + 1) (i + slen esc) (v ++ w)) as [[j u| |]|q]; try (apply IH; lia).
        destruct IH as (IH1 & IH2 & IH3); [lia|lia|]. split; [exact IH1|lia].
      + rewrite M2. replace (i + d + 1) with (i + 1 + d) by lia. specialize (IH f' (i + 1) p v).
        destruct (seq_scan f P c ep esc (i + 1) p v) as [[j u| |]|q]; try (apply IH; lia).
        destruct IH as (IH1 & IH2 & IH3); [lia|lia|]. split; [exact IH1|lia].
      + rewrite M2. reflexivity.
    - rewrite M1. reflexivity.
  Qed.

  (* ---------- tokens ---------- *)

  Lemma std_shift n r : re r <= L -> std_token P' n (sr r) = sht (std_token P n r).
  Proof. intros H. unfold std_token, shifted_token. cbn. now rewrite text_shift. Qed.
  Lemma std2_shift n r1 r2 : re r1 <= L -> re r2 <= L -> std_token2 P' n (sr r1) (sr r2) = sht (std_token2 P n r1 r2).
  Proof. intros H1 H2. unfold std_token2, shifted_token. cbn. now rewrite !text_shift. Qed.
  Lemma blank_text Q : range_text Q blank_range = [].
  Proof. reflexivity. Qed.
  Lemma missing_shift l t : add_missing_attrs l (sht t) = sht (add_missing_attrs l t).
  Proof.
    unfold add_missing_attrs. revert t. induction l as [|p l IH]; intros t; cbn [fold_left]; [reflexivity|].
    change (get_attr (fst p) (sht t)) with (get_attr (fst p) t). destruct (get_attr (fst p) t); [apply IH|exact (IH (set_attr (fst p) (snd p) t))].
  Qed.
  Lemma missing_same l t : tk_kids (add_missing_attrs l t) = tk_kids t /\ tk_mr (add_missing_attrs l t) = tk_mr t /\
    tk_cr (add_missing_attrs l t) = tk_cr t /\ tk_kind (add_missing_attrs l t) = tk_kind t /\ tk_flags (add_missing_attrs l t) = tk_flags t.
  Proof.
    unfold add_missing_attrs. revert t. induction l as [|p l IH]; intros t; cbn [fold_left]; [auto|].
    destruct (get_attr (fst p) t); [apply IH|exact (IH (set_attr (fst p) (snd p) t))].
  Qed.

  Lemma new_token st0 lo hi st st' t t' : G st st' -> grows st0 st -> t' = sht t -> inside t -> tk_kids t = [] ->
    rs (tk_mr t) < re (tk_mr t) -> lo <= rs (tk_mr t) -> re (tk_mr t) <= hi ->
    sim st0 (QR lo hi) (Ret (Ok (SToken (next_addr st))) (alloc st t)) (Ret (Ok (SToken (next_addr st'))) (alloc st' t')).
  Proof.
    intros Hg Hgr Ht Hi Hk Hm Hlo Hhi. apply sim_ret.
    - apply G_alloc; auto; [now left|]. intros k Hin. now rewrite Hk in Hin.
    - eapply grows_trans; [exact Hgr|apply grows_alloc].
    - split; [unfold next_addr; now rewrite (g_size _ _ Hg : List.length _ = List.length _)|]. cbn [lands]. unfold dn. rewrite tok_alloc_new.
      split; [split; [exact (g_base _ _ Hg)|now right]|]. auto.
  Qed.

  (* references *)
  Lemma sh_fetch st st' s f : G st st' -> placeless f -> fetch_value st' s f = fetch_value st s f.
  Proof.
    intros Hg Hf. destruct f as [v|n|m]; cbn [fetch_value]; try reflexivity.
    replace (sc_get st' s (hd [] (split "." n))) with (sc_get st s (hd [] (split "." n)))
      by (unfold sc_get, stack_of; now rewrite (g_scopes _ _ Hg)).
    destruct (sc_get st s (hd [] (split "." n))) as [[a|v|m]|]; try reflexivity.
    destruct (split "." n) as [|x [|y [|z l]]] eqn:Es; try reflexivity.
    apply split_named in Es. cbn [placeless] in Hf. specialize (Hf x y Es).
    assert (Ht : fetch_token (tok st' a) n y = fetch_token (tok st a) n y); [|now rewrite Ht].
    destruct (rel_any st st' a Hg) as [->| ->]; [|reflexivity].
    unfold fetch_token.
    destruct (str_eqb y "captured_value"); [reflexivity|]. destruct (str_eqb y "matched_value"); [reflexivity|].
    assert (Hno : forall p, In p places -> str_eqb y p = false).
    { intros p Hp. destruct (str_eqb y p) eqn:Ey; [|reflexivity]. apply str_eqb_eq in Ey. subst y. contradiction. }
    rewrite !Hno by (unfold places; cbn; tauto). reflexivity.
  Qed.
  Lemma loc_fetch st s f m : scopes_local st -> (forall x, f = FMatcher x -> local x) ->
    fetch_value st s f = Val (GMatcher m) -> local m.
  Proof.
    intros Hg Hf. destruct f as [v|n|x]; cbn [fetch_value]; [discriminate| |].
    - destruct (sc_get st s (hd [] (split "." n))) as [[a|v|y]|] eqn:Es; try discriminate.
      + destruct (split "." n) as [|x [|y [|z l]]]; try discriminate.
        destruct (fetch_token (tok st a) n y); discriminate.
      + destruct (split "." n) as [|x [|y l]]; discriminate.
      + intros H. injection H as <-. eapply (all_get local); eauto.
    - intros H. injection H as <-. now apply Hf.
  Qed.

  (* Discard *)
  Definition QS (lo hi : N) (x x' : success) (st : state) : Prop := x' = x /\ lands st lo hi x.
  Lemma sh_errors st st' : G st st' -> forall g a, error_tokens g st' a = error_tokens g st a.
  Proof.
    intros Hg. induction g as [|g IH]; intros a; [reflexivity|]. cbn [error_tokens].
    rewrite (rel_error _ _ a Hg), (rel_kids _ _ a Hg).
    generalize (Some (if is_error (tok st a) then [a] else [])). induction (tk_kids (tok st a)) as [|k l IHl]; intros o; cbn [fold_left]; [reflexivity|].
    rewrite IH. apply IHl.
  Qed.
  Lemma no_errors st st' : G st st' -> forall g a l, (base <= a)%nat -> error_tokens g st a = Some l -> l = [].
  Proof.
    intros Hg. induction g as [|g IH]; intros a l Hb H; [discriminate|]. cbn [error_tokens] in H.
    pose proof (fun k Hk => proj1 (proj1 (g_kids _ _ Hg a Hb k Hk))) as Hks.
    destruct (g_in _ _ Hg a Hb) as (_ & He & _). rewrite He in H. revert H.
    assert (Hn : forall ks, fold_left (fun acc k => match acc with Some l => match error_tokens g st k with Some l' => Some (l ++ l') | None => None end | None => None end) ks None = None).
    { clear. induction ks; auto. }
    induction (tk_kids (tok st a)) as [|k ks IHk]; cbn [fold_left]; [congruence|].
    destruct (error_tokens g st k) as [l'|] eqn:Ek; [|rewrite Hn; discriminate].
    rewrite (IH _ _ (Hks k (or_introl eq_refl)) Ek). apply IHk. intros x Hx. apply Hks. now right.
  Qed.
  Lemma sh_skip_token st0 lo hi a st st' : hi <= L -> G st st' -> grows st0 st -> lands st lo hi (SToken a) ->
    sim st0 (QS lo hi) (skip_token E P lo a st) (skip_token E P' (lo + d) a st').
  Proof.
    intros Hhi Hg Hgr (Ha & H1 & H2). unfold skip_token. rewrite (sh_errors _ _ Hg).
    replace (List.length (st_heap st')) with (List.length (st_heap st)) by (symmetry; exact (g_size _ _ Hg)).
    destruct (error_tokens (S (List.length (st_heap st))) st a) as [l|] eqn:El; [|apply sim_oof].
    apply (no_errors _ _ Hg) in El; [|apply Ha]. subst l. cbn [add_errors fold_left].
    rewrite (dn_shift _ _ a Hg Ha). cbn [shifted_token tk_mr shifted_range re].
    destruct (g_in _ _ Hg a (proj1 Ha)) as (_ & _ & (I1 & I2) & _).
    set (stop := re (tk_mr (tok st a))) in *.
    assert (Hs : forall z, z < isize_bound -> as_isize z = Z.of_N z).
    { intros z Hz. unfold as_isize. change 9223372036854775808 with isize_bound. destruct (N.ltb_spec z isize_bound); [reflexivity|lia]. }
    pose proof far as Hf. rewrite !Hs by lia.
    replace (Z.of_N (stop + d) - Z.of_N (lo + d))%Z with (Z.of_N stop - Z.of_N lo)%Z by lia.
    unfold isize_sub. replace (Z.of_N (stop + d) - Z.of_N (lo + d))%Z with (Z.of_N stop - Z.of_N lo)%Z by lia.
    assert (Hb : isize_bound = 9223372036854775808) by reflexivity.
    replace ((-9223372036854775808 <=? Z.of_N stop - Z.of_N lo)%Z && (Z.of_N stop - Z.of_N lo <=? 9223372036854775807)%Z) with true
      by (symmetry; apply andb_true_iff; split; apply Z.leb_le; lia).
    cbn [or_die]. apply sim_ret.
    - apply G_alloc; [exact Hg| | |intros k []].
      + left. change (mkR (lo + d) (stop + d)) with (sr (mkR lo stop)). apply std_shift. cbn. lia.
      + unfold inside. cbn. repeat split; lia.
    - eapply grows_trans; [exact Hgr|apply grows_alloc].
    - split; [reflexivity|]. cbn [lands]. lia.
  Qed.
  Lemma sh_discard st0 lo hi r st st' : hi <= L -> G st st' -> grows st0 st ->
    match r with Ok x => lands st lo hi x | Err _ => True end ->
    sim st0 (QR lo hi) (discard_result E P lo r st) (discard_result E P' (lo + d) r st').
  Proof.
    intros Hhi Hg Hgr Hl.
    assert (Hp : forall p, lands st lo hi p -> sim st0 (QS lo hi) (discard_payload E P lo p st) (discard_payload E P' (lo + d) p st')).
    { intros [a|a|z|n p|n p| |] H; cbn [discard_payload]; try (now apply sh_skip_token); try (now apply sim_ret); apply sim_pan. }
    destruct r as [[a|a|z|n p|n p| |]|e]; cbn [discard_result]; try now apply sim_ret.
    - apply (sim_bind st0 st0 (QS lo hi)); [now apply sh_skip_token|]. intros x x' st1 st1' G1 R1 [-> H1]. now apply sim_ret.
    - apply (sim_bind st0 st0 (QS lo hi)); [now apply sh_skip_token|]. intros x x' st1 st1' G1 R1 [-> H1]. now apply sim_ret.
    - apply (sim_bind st0 st0 (QS lo hi)); [apply Hp; exact Hl|]. intros x x' st1 st1' G1 R1 [-> H1]. now apply sim_ret.
    - apply (sim_bind st0 st0 (QS lo hi)); [apply Hp; exact Hl|]. intros x x' st1 st1' G1 R1 [-> H1]. now apply sim_ret.
  Qed.

  (* Sequence *)
  Lemma sh_sequence x y z n c s st st' : G st st' -> win c -> placeless x -> placeless y -> placeless z ->
    sim st (QR (rs (c_off c)) (re (c_off c))) (exec_sequence E P x y z n c s st) (exec_sequence E P' x y z n (shc c) s st').
  Proof.
    intros Hg Hc Hx Hy Hz. unfold exec_sequence. rewrite !(sh_fetch _ _ s _ Hg) by assumption.
    assert (Hw : win (clone_with_name c n)) by exact Hc.
    change (clone_with_name (shc c) n) with (shc (clone_with_name c n)).
    change (c_off c) with (c_off (clone_with_name c n)). set (c1 := clone_with_name c n) in *. clearbody c1. clear c Hc.
    destruct (fetch_value st s x) as [[sp|m]|p]; [|apply fail_ret; auto using grows_refl|apply sim_pan].
    destruct (slen sp =? 0); [apply sim_pan|].
    destruct (fetch_value st s y) as [[ep|m]|p]; [|apply fail_ret; auto using grows_refl|apply sim_pan].
    destruct (N.eqb_spec (slen ep) 0) as [|Hep]; [apply sim_pan|].
    destruct (fetch_value st s z) as [[xp|m]|p]; [|apply fail_ret; auto using grows_refl|apply sim_pan].
    pose proof (sh_matches c1 sp Hw) as Hm. destruct Hw as [Hw1 Hw2].
    destruct (matches_str P c1 sp) as [[r|]|p]; [| |rewrite Hm; apply sim_pan].
    - destruct Hm as (-> & -> & Hsp & Hm). cbn [re] in Hm. cbn [shifted_range re].
      assert (Hl : forall k, slen (p_src P) <= slen k -> (N.to_nat (re (c_off c1) - (rs (c_off c1) + slen sp)) < S (List.length k))%nat).
      { intros k Hk. rewrite !slen_nat in *. lia. }
      pose proof (sh_scan c1 ep xp Hw2 Hep (S (List.length (p_src P))) (S (List.length (p_src P'))) (rs (c_off c1) + slen sp)
        (rs (c_off c1) + slen sp) [] (Hl _ (N.le_refl _))) as Hs.
      assert (Hl' : slen (p_src P) <= slen (p_src P')) by (rewrite Hsrc, !slen_app; lia).
      specialize (Hs (Hl _ Hl')).
      destruct (seq_scan (S (List.length (p_src P))) P c1 ep xp (rs (c_off c1) + slen sp) (rs (c_off c1) + slen sp) []) as [[i v| |]|p].
      + destruct Hs as (Es & Hi1 & Hi2). cbn [re]. rewrite Es.
        cbn [shifted_ctx c_off shifted_range rs re].
        change (mkCtx (c_debug c1) (c_scope c1) (c_stack c1) (shifted_range d (c_off c1)) (c_name c1)) with (shc c1).
        replace (i + d + slen ep - (rs (c_off c1) + d)) with (i + slen ep - rs (c_off c1)) by lia.
        pose proof far as Hf. rewrite sh_dbg by (try split; auto; lia). apply sim_let. intros _ _.
        apply new_token; auto using grows_refl; cbn [set_attr tk_mr tk_kids std_token2 rs re]; try lia.
        * replace (rs (c_off c1) + d + slen sp) with (rs (c_off c1) + slen sp + d) by lia.
          replace (i + d + slen ep) with (i + slen ep + d) by lia.
          change (mkR (rs (c_off c1) + slen sp + d) (i + d)) with (sr (mkR (rs (c_off c1) + slen sp) i)).
          change (mkR (rs (c_off c1) + d) (i + slen ep + d)) with (sr (mkR (rs (c_off c1)) (i + slen ep))).
          rewrite std2_shift by (cbn; lia). reflexivity.
        * unfold inside. cbn. repeat split; lia.
      + cbn [re]. rewrite Hs. rewrite sh_dbg by (try split; auto using small). apply sim_let. intros _ _. apply fail_ret; auto using grows_refl.
      + destruct Hs.
      + cbn [re]. rewrite Hs. apply sim_pan.
    - rewrite Hm. rewrite sh_dbg by (try split; auto using small). apply sim_let. intros _ _. apply fail_ret; auto using grows_refl.
  Qed.

  (* ---------- Program ---------- *)

  Definition sh0 (r : range) : range := if rs r =? usize_max then r else sr r.
  Definition shp (ps : pst) : pst := mkPst (ps_off ps + d) (ps_kids ps) (sh0 (ps_cr ps)) (sh0 (ps_mr ps)).
  (* nothing collected, or a range between the bounds *)
  Definition okr (lo hi : N) (r : range) : Prop := r = mkR usize_max 0 \/ (lo <= rs r /\ rs r <= re r /\ re r <= hi).
  Record fine (st : state) (lo hi : N) (ps : pst) : Prop := mkFine {
    f_off : lo <= ps_off ps <= hi;
    f_mr : okr lo hi (ps_mr ps);
    f_cr : okr 0 L (ps_cr ps);
    f_kids : forall k, In k (ps_kids ps) -> dn st k /\ rs (ps_mr ps) <= rs (tk_mr (tok st k)) /\
               re (tk_mr (tok st k)) <= re (ps_mr ps)
  }.
  Lemma fine_grows st st1 lo hi ps : grows st st1 -> fine st lo hi ps -> fine st1 lo hi ps.
  Proof.
    intros [_ Hg] [H1 H2 H3 H4]. constructor; auto. intros k Hk. destruct (H4 k Hk) as (D & X & Y).
    destruct (Hg k D) as [D1 ->]. auto.
  Qed.
  Lemma max_far : isize_bound < usize_max.
  Proof. reflexivity. Qed.
  Lemma contain_ok lo hi r t : hi <= L -> okr lo hi r -> lo <= rs t -> rs t <= re t -> re t <= hi ->
    contain (sh0 r) (sr t) = sh0 (contain r t) /\ okr lo hi (contain r t) /\
    rs (contain r t) <= rs t /\ re t <= re (contain r t) /\ rs (contain r t) <= rs r /\ re r <= re (contain r t).
  Proof.
    intros Hhi Hr H1 H2 H3. pose proof far as Hf. pose proof max_far as Hm.
    destruct Hr as [->|(R1 & R2 & R3)].
    - unfold contain, sh0. cbn [rs re shifted_range]. rewrite N.eqb_refl. cbn [rs re].
      destruct (N.ltb_spec (rs t) usize_max); [|lia]. destruct (N.ltb_spec (rs t + d) usize_max); [|lia].
      destruct (N.eqb_spec (rs t) usize_max); [lia|].
      destruct (N.ltb_spec 0 (re t)), (N.ltb_spec 0 (re t + d)); cbn [rs re shifted_range]; try lia.
      + split; [reflexivity|]. split; [right; cbn; lia|]. lia.
      + assert (re t = 0) by lia. replace (re t) with 0 by lia. split; [reflexivity|]. split; [right; cbn; lia|lia].
      + assert (re t = 0) by lia. assert (d = 0) by lia. replace (re t) with 0 by lia.
        split; [unfold shifted_range; cbn; f_equal; lia|]. split; [right; cbn; lia|lia].
    - unfold contain, sh0. destruct (N.eqb_spec (rs r) usize_max); [lia|]. cbn [shifted_range rs re].
      destruct (N.ltb_spec (rs t) (rs r)), (N.ltb_spec (rs t + d) (rs r + d)); try lia;
        destruct (N.ltb_spec (re r) (re t)), (N.ltb_spec (re r + d) (re t + d)); try lia; cbn [rs re].
      all: match goal with |- context [?x =? usize_max] => destruct (N.eqb_spec x usize_max) end; [lia|].
      all: split; [reflexivity|]; split; [right; cbn; lia|lia].
  Qed.

  Definition QP (pt : addr) (T0 : token) (lo hi : N) (ps ps' : pst) (st : state) : Prop :=
    ps' = shp ps /\ fine st lo hi ps /\ tok st pt = T0.

  Section Programs.
  Variables (pt : addr) (T0 : token) (lo hi : N) (st0 : state).
  Hypothesis Hhi : hi <= L.
  Hypothesis Hpend : pending T0.
  Hypothesis Hstd : tk_kind T0 = KStandard /\ is_error T0 = false.
  Hypothesis Hpt : (heap_size st0 <= pt)%nat.
  Hypothesis Hbase : (base <= heap_size st0)%nat.

  Definition now (st st' : state) : Prop := G st st' /\ grows st0 st /\ tok st pt = T0 /\ (pt < heap_size st)%nat.
  Lemma now_grows st st' st1 st1' : now st st' -> G st1 st1' -> grows st st1 -> now st1 st1'.
  Proof.
    intros (H1 & H2 & H3 & H4) H5 H6. split; [exact H5|]. split; [eapply grows_trans; eauto|].
    destruct H6 as [[K1 K2] K3]. split; [|lia]. destruct (K2 pt H4) as [K|K]; [|congruence].
    destruct K as [_ K]. rewrite H3 in K. now apply not_done in K.
  Qed.

  Definition QPs (st1 : state) (ps ps' : pst) (st : state) : Prop := ps' = shp ps /\ fine st lo hi ps /\ grows st1 st.
  (* the sequence of states inside the program *)
  Definition sip {A} (Q : A -> A -> state -> Prop) (r r' : res A) : Prop :=
    match r, r' with
    | Ret x st, Ret x' st' => now st st' /\ Q x x' st
    | Pan p, Pan p' => p' = p
    | OOF, OOF => True
    | _, _ => False
    end.
  Lemma sip_bind {A B} (Q : A -> A -> state -> Prop) (Q2 : B -> B -> state -> Prop) r r' (k k' : A -> state -> res B) :
    sip Q r r' ->
    (forall x x' st st', now st st' -> Q x x' st -> sip Q2 (k x st) (k' x' st')) ->
    sip Q2 (match r with Ret x st => k x st | Pan p => Pan p | OOF => OOF end)
           (match r' with Ret x st => k' x st | Pan p => Pan p | OOF => OOF end).
  Proof.
    intros H Hk. destruct r as [x st|p|], r' as [x' st'|p'|]; cbn in H; try contradiction.
    - destruct H as (H1 & H2). now apply Hk.
    - now subst.
    - exact Logic.I.
  Qed.
  Lemma sip_out {A B} (Q : A -> A -> state -> Prop) (Q2 : B -> B -> state -> Prop) r r' (k k' : A -> state -> res B) :
    sip Q r r' ->
    (forall x x' st st', now st st' -> Q x x' st -> sim st0 Q2 (k x st) (k' x' st')) ->
    sim st0 Q2 (match r with Ret x st => k x st | Pan p => Pan p | OOF => OOF end)
               (match r' with Ret x st => k' x st | Pan p => Pan p | OOF => OOF end).
  Proof.
    intros H Hk. destruct r as [x st|p|], r' as [x' st'|p'|]; cbn in H; try contradiction.
    - destruct H as (H1 & H2). now apply Hk.
    - now subst.
    - exact Logic.I.
  Qed.

  Lemma sh_add a b ps st st' : now st st' -> fine st lo hi ps -> lands st lo hi (SToken a) ->
    sip (QPs st) (add_token P pt a b true ps st) (add_token P' pt a b true (shp ps) st').
  Proof.
    intros Hn Hfi (Hd & H1 & H2). pose proof Hn as (Hg & _ & _ & Hsz). unfold add_token.
    rewrite (rel_error _ _ a Hg). destruct (g_in _ _ Hg a (proj1 Hd)) as (I1 & I2 & I3 & I4). rewrite I2. cbn [negb andb].
    rewrite (dn_shift _ _ a Hg Hd). cbn [shifted_token tk_mr tk_cr shp ps_off ps_kids ps_cr ps_mr].
    cbn [shifted_range re].
    replace (re (tk_mr (tok st a)) + d =? ps_off ps + d) with (re (tk_mr (tok st a)) =? ps_off ps)
      by (destruct (N.eqb_spec (re (tk_mr (tok st a))) (ps_off ps)), (N.eqb_spec (re (tk_mr (tok st a)) + d) (ps_off ps + d)); auto; lia).
    rewrite andb_true_r. destruct (b && (re (tk_mr (tok st a)) =? ps_off ps)); [reflexivity|].
    destruct Hfi as [F1 F2 F3 F4].
    destruct (contain_ok lo hi (ps_mr ps) (tk_mr (tok st a)) Hhi F2 H1 (proj1 I3) H2) as (C1 & C2 & C3 & C4 & C5 & C6).
    destruct (contain_ok 0 L (ps_cr ps) (tk_cr (tok st a)) (N.le_refl _) F3 (N.le_0_l _) (proj1 I4) (proj2 I4)) as (D1 & D2 & _).
    assert (Hgs : grows st (set_tok st a (set_parent (Some pt) (tok st a)))) by (apply grows_set; [exact Hd|exact (proj2 Hd)|reflexivity]).
    split.
    - eapply now_grows; [exact Hn| |exact Hgs]. apply G_set; auto.
      + split; [apply Hd|now apply done_lt].
      + apply (g_in _ _ Hg a). apply Hd.
      + apply (g_kids _ _ Hg a). apply Hd.
      + intros _. split; [exact (proj2 Hd)|reflexivity].
    - split.
      + unfold shp. cbn [ps_off ps_kids ps_cr ps_mr]. fold (sr (tk_cr (tok st a))) (sr (tk_mr (tok st a))).
        change (mkR (rs (tk_mr (tok st a)) + d) (re (tk_mr (tok st a)) + d)) with (sr (tk_mr (tok st a))).
        change (mkR (rs (tk_cr (tok st a)) + d) (re (tk_cr (tok st a)) + d)) with (sr (tk_cr (tok st a))).
        now rewrite C1, D1.
      + split; [|exact Hgs]. eapply fine_grows; [exact Hgs|]. constructor; cbn [ps_off ps_kids ps_cr ps_mr]; auto; [lia|].
        intros k Hk. apply in_app_or in Hk as [Hk|[<-|[]]].
        * destruct (F4 k Hk) as (X & Y & Z). split; [exact X|lia].
        * split; [exact Hd|lia].
  Qed.
  Lemma no_pin st st' a : G st st' -> dn st a -> should_discard (tok st a) = false /\ should_discard (tok st' a) = false.
  Proof.
    intros Hg Hd. destruct (g_in _ _ Hg a (proj1 Hd)) as (I1 & _). unfold should_discard.
    rewrite (rel_kind _ _ a Hg), I1. auto.
  Qed.
  Lemma sh_handle a b ps st st' : now st st' -> fine st lo hi ps -> lands st lo hi (SToken a) ->
    sip (QPs st) (handle_token P pt a b true ps st) (handle_token P' pt a b true (shp ps) st').
  Proof.
    intros Hn Hf Ha. unfold handle_token. destruct (no_pin st st' a (proj1 Hn) (proj1 Ha)) as [-> ->]. now apply sh_add.
  Qed.
  Lemma sh_extract_kids self l : forall ps st st', now st st' -> fine st lo hi ps ->
    (forall k, In k l -> lands st lo hi (SToken k)) ->
    sip (QPs st) (extract_children P pt self true l ps st) (extract_children P' pt self true l (shp ps) st').
  Proof.
    induction l as [|k l IH]; intros ps st st' Hn Hf Hk; cbn [extract_children].
    { split; [exact Hn|]. split; [reflexivity|]. split; [exact Hf|apply grows_refl]. }
    destruct (no_pin st st' k (proj1 Hn) (proj1 (Hk k (or_introl eq_refl)))) as [-> ->].
    destruct (Nat.eqb k self); [reflexivity|].
    apply (sip_bind (QPs st)); [apply sh_add; auto; apply Hk; now left|].
    intros ps1 ps1' st1 st1' Hn1 (-> & Hf1 & Hg1).
    assert (Hx : sip (QPs st1) (extract_children P pt self true l ps1 st1) (extract_children P' pt self true l (shp ps1) st1')).
    { apply IH; auto. intros x Hx. eapply lands_grows; [exact Hg1|]. apply Hk. now right. }
    revert Hx. unfold sip. destruct (extract_children P pt self true l ps1 st1), (extract_children P' pt self true l (shp ps1) st1'); auto.
    intros (A1 & A2 & A3 & A4). split; [exact A1|]. split; [exact A2|]. split; [exact A3|]. eapply grows_trans; eauto.
  Qed.
  Lemma sh_extract a ps st st' : now st st' -> fine st lo hi ps -> lands st lo hi (SProxy a) ->
    sip (QPs st) (handle_extract P pt a true ps st) (handle_extract P' pt a true (shp ps) st').
  Proof.
    intros Hn Hfi (Hd & H1 & H2). pose proof (proj1 Hn) as Hg. unfold handle_extract.
    destruct (no_pin st st' a Hg Hd) as [-> ->]. cbn [andb negb].
    rewrite (dn_shift _ _ a Hg Hd). cbn [shifted_token tk_mr tk_cr tk_kids].
    destruct (g_in _ _ Hg a (proj1 Hd)) as (I1 & I2 & I3 & I4). destruct Hfi as [F1 F2 F3 F4].
    destruct (contain_ok lo hi (ps_mr ps) (tk_mr (tok st a)) Hhi F2 H1 (proj1 I3) H2) as (C1 & C2 & C3 & C4 & C5 & C6).
    destruct (contain_ok 0 L (ps_cr ps) (tk_cr (tok st a)) (N.le_refl _) F3 (N.le_0_l _) (proj1 I4) (proj2 I4)) as (D1 & D2 & _).
    cbn [shp ps_off ps_kids ps_cr ps_mr]. rewrite C1, D1. cbn [shifted_range re].
    change (mkPst (re (tk_mr (tok st a)) + d) (ps_kids ps) (sh0 (contain (ps_cr ps) (tk_cr (tok st a)))) (sh0 (contain (ps_mr ps) (tk_mr (tok st a)))))
      with (shp (mkPst (re (tk_mr (tok st a))) (ps_kids ps) (contain (ps_cr ps) (tk_cr (tok st a))) (contain (ps_mr ps) (tk_mr (tok st a))))).
    apply sh_extract_kids; auto.
    - constructor; cbn [ps_off ps_kids ps_cr ps_mr]; auto; [lia|]. intros k Hk. destruct (F4 k Hk) as (X & Y & Z). split; [exact X|lia].
    - intros k Hk. destruct (g_kids _ _ Hg a (proj1 Hd) k Hk) as (X & Y & Z). cbn [lands]. split; [exact X|lia].
  Qed.
  Lemma sh_skip z ps st st' : now st st' -> fine st lo hi ps -> lands st (ps_off ps) hi (SSkip z) ->
    sip (QPs st) (handle_skip E lo z ps st) (handle_skip E (lo + d) z (shp ps) st').
  Proof.
    intros Hn [F1 F2 F3 F4] Hz. cbn [lands] in Hz. unfold handle_skip. cbn [shp ps_off ps_kids ps_cr ps_mr].
    pose proof far as Hf. pose proof max_far as Hm.
    assert (Hu : as_usize z = Z.to_N z).
    { unfold as_usize. rewrite Z.mod_small; [reflexivity|].
      assert (Hum : usize_mod = usize_max + 1) by reflexivity. lia. }
    rewrite Hu, !add_fits by lia. cbn [or_die]. split; [exact Hn|].
    destruct (contain_ok lo hi (ps_mr ps) (mkR lo (ps_off ps + Z.to_N z)) Hhi F2) as (C1 & C2 & C3 & C4 & C5 & C6); cbn [rs re]; try lia.
    split; [|split; [|apply grows_refl]].
    - unfold shp. cbn [ps_off ps_kids ps_cr ps_mr]. rewrite <- C1. unfold shifted_range. cbn [rs re].
      replace (ps_off ps + Z.to_N z + d) with (ps_off ps + d + Z.to_N z) by lia. reflexivity.
    - constructor; cbn [ps_off ps_kids ps_cr ps_mr]; auto; [lia|]. intros k Hk. destruct (F4 k Hk) as (X & Y & Z). split; [exact X|lia].
  Qed.
  Lemma lands_wider st a lo' x : lo <= a -> lo' = lo -> lands st a hi x -> lands st lo' hi x.
  Proof.
    intros H ->. induction x; cbn [lands]; auto; [intros (HX&?&?); split; [exact HX|lia]|intros (HX&?&?); split; [exact HX|lia]|lia].
  Qed.
  Lemma sh_payload p ps st st' : now st st' -> fine st lo hi ps -> lands st (ps_off ps) hi p ->
    sip (QPs st) (handle_payload E P pt lo p ps st) (handle_payload E P' pt (lo + d) p (shp ps) st').
  Proof.
    intros Hn Hf Hl. pose proof (f_off _ _ _ _ Hf) as Ho.
    assert (Hw := fun x => lands_wider st (ps_off ps) lo x (proj1 Ho) eq_refl).
    destruct p; cbn [handle_payload]; try (split; [exact Hn|split; [reflexivity|split; [exact Hf|apply grows_refl]]]).
    - apply sh_handle; auto.
    - apply sh_extract; auto.
    - now apply sh_skip.
  Qed.
  Lemma sh_finalize i ps n b st st' : now st st' -> fine st lo hi ps ->
    sim st0 (QR lo hi) (finalize P i pt ps n b st) (finalize P' i pt (shp ps) n b st').
  Proof.
    intros (Hg & Hgr & HT & Hsz) [F1 F2 F3 F4]. unfold finalize. cbn [shp ps_cr ps_mr ps_kids].
    pose proof far as Hf. pose proof max_far as Hm.
    assert (Hs0 : forall r l h, okr l h r -> h <= L -> (rs (sh0 r) =? usize_max) = (rs r =? usize_max)).
    { intros r l h Hr Hh. unfold sh0. destruct (N.eqb_spec (rs r) usize_max) as [->|Hx]; [apply N.eqb_refl|].
      destruct Hr as [->|Hr]; [now cbn in Hx|]. cbn [shifted_range rs]. apply N.eqb_neq. lia. }
    rewrite (Hs0 _ _ _ F2 Hhi), (Hs0 _ _ _ F3 (N.le_refl _)).
    assert (Hfail : sim st0 (QR lo hi) (Ret (Err FFail) st) (Ret (Err FFail) st')) by now apply fail_ret.
    assert (Hc : sim st0 (QR lo hi)
      (if (rs (ps_cr ps) =? usize_max) || (rs (ps_mr ps) =? usize_max) then Ret (Err FFail) st
       else match ps_kids ps with
            | [] => Ret (Err FFail) st
            | _ => Ret (Ok (SToken pt)) (modify st pt (fun t => set_mr P (ps_mr ps) (set_cr P (ps_cr ps) (set_kids (ps_kids ps) t))))
            end)
      (if (rs (ps_cr ps) =? usize_max) || (rs (ps_mr ps) =? usize_max) then Ret (Err FFail) st'
       else match ps_kids ps with
            | [] => Ret (Err FFail) st'
            | _ => Ret (Ok (SToken pt)) (modify st' pt (fun t => set_mr P' (sh0 (ps_mr ps)) (set_cr P' (sh0 (ps_cr ps)) (set_kids (ps_kids ps) t))))
            end)).
    { destruct (N.eqb_spec (rs (ps_cr ps)) usize_max) as [|Ncr]; cbn [orb]; [exact Hfail|].
      destruct (N.eqb_spec (rs (ps_mr ps)) usize_max) as [|Nmr]; cbn [orb]; [exact Hfail|].
      destruct F2 as [F2|F2]; [rewrite F2 in Nmr; now cbn in Nmr|]. destruct F3 as [F3|F3]; [rewrite F3 in Ncr; now cbn in Ncr|].
      destruct (ps_kids ps) as [|k l] eqn:Ek; [exact Hfail|].
      unfold sh0. destruct (N.eqb_spec (rs (ps_mr ps)) usize_max); [contradiction|]. destruct (N.eqb_spec (rs (ps_cr ps)) usize_max); [contradiction|].
      unfold modify. assert (Hnd : ~ dn st pt) by (intros [_ Hx]; rewrite HT in Hx; now apply not_done in Hx).
      apply sim_ret.
      - apply G_set; auto.
        + lia.
        + destruct (rel_any _ _ pt Hg) as [->| ->]; rewrite HT; unfold set_mr, set_cr, set_kids, shifted_token; cbn;
            rewrite (proj1 Hstd), !text_shift by lia; reflexivity.
        + rewrite HT. unfold inside, is_error in *. cbn. destruct Hstd as [-> He]. repeat split; auto; lia.
        + intros Hd. contradiction.
      - apply grows_fin; auto. 
      - split; [reflexivity|]. cbn [lands]. unfold dn. rewrite tok_set_same by exact Hsz. split; [split; [lia|left; cbn; discriminate]|]. cbn. lia. }
    destruct b; [|exact Hc]. destruct (pi_iter i) as [[l h]|]; [|exact Hc].
    destruct ((l =? 0) && (n =? 0) && match ps_kids ps with [] => true | _ => false end); [apply skip_ret; auto; lia|].
    destruct (n <? l); [exact Hfail|exact Hc].
  Qed.

  Variables rec rec' : recT.
  Hypothesis Hrec : forall m c s st st', local m -> win c -> G st st' ->
    sim st (QR (rs (c_off c)) (re (c_off c))) (rec m c s st) (rec' m (shc c) s st').
  Hypothesis Hquiet : forall m c s st, m_consuming m = false -> local m ->
    match rec m c s st with Ret r _ => r = Ok (SSkip 0) | _ => True end.

  Definition QRun (x x' : ctl * pst) (st : state) (st' : state) : Prop :=
    match x with
    | (CRet r, ps) => x' = (CRet r, shp ps) /\ G st st' /\ grows st0 st /\ match r with Ok y => lands st lo hi y | Err _ => True end
    | (k, ps) => x' = (k, shp ps) /\ now st st' /\ fine st lo hi ps /\ match k with CAct y => lands st (ps_off ps) hi y | _ => True end
    end.
  Definition srun (r r' : res (ctl * pst)) : Prop :=
    match r, r' with
    | Ret x st, Ret x' st' => QRun x x' st st'
    | Pan p, Pan p' => p' = p
    | OOF, OOF => True
    | _, _ => False
    end.
  Lemma sip_run (Q : pst -> pst -> state -> Prop) r r' (k k' : pst -> state -> res (ctl * pst)) :
    sip Q r r' ->
    (forall x x' st st', now st st' -> Q x x' st -> srun (k x st) (k' x' st')) ->
    srun (match r with Ret x st => k x st | Pan p => Pan p | OOF => OOF end)
         (match r' with Ret x st => k' x st | Pan p => Pan p | OOF => OOF end).
  Proof.
    intros H Hk. destruct r as [x st|p|], r' as [x' st'|p'|]; cbn in H; try contradiction.
    - destruct H as (H1 & H2). now apply Hk.
    - now subst.
    - exact Logic.I.
  Qed.

  Lemma run_ret r ps st st' : G st st' -> grows st0 st -> match r with Ok y => lands st lo hi y | Err _ => True end ->
    srun (Ret (CRet r, ps) st) (Ret (CRet r, shp ps) st').
  Proof. intros. cbn. auto. Qed.
  Lemma run_act y ps st st' : now st st' -> fine st lo hi ps -> lands st (ps_off ps) hi y ->
    srun (Ret (CAct y, ps) st) (Ret (CAct y, shp ps) st').
  Proof. intros. cbn. auto. Qed.
  Lemma sh_patterns i c s n pats : re (c_off c) = hi -> (forall m, In m pats -> local m) ->
    forall ps st st', now st st' -> fine st lo hi ps ->
    srun (run_patterns E P rec i c s pt lo n pats ps st) (run_patterns E P' rec' i (shc c) s pt (lo + d) n pats (shp ps) st').
  Proof.
    intros Hc. induction pats as [|m pats IH]; intros Hp ps st st' Hn Hf; cbn [run_patterns].
    { cbn. auto. }
    assert (IH' : forall ps st st', now st st' -> fine st lo hi ps ->
      srun (run_patterns E P rec i c s pt lo n pats ps st) (run_patterns E P' rec' i (shc c) s pt (lo + d) n pats (shp ps) st'))
      by (apply IH; intros x Hx; apply Hp; now right). clear IH.
    assert (Hm : local m) by (apply Hp; now left).
    set (cc := with_start c (ps_off ps)).
    change (with_start (shc c) (ps_off (shp ps))) with (shc cc).
    change (push_tok (shc cc) pt) with (shc (push_tok cc pt)).
    assert (Hw : win (push_tok cc pt)).
    { pose proof (f_off _ _ _ _ Hf) as Ho. unfold win. cbn. rewrite Hc. lia. }
    pose proof (Hrec m (push_tok cc pt) s st st' Hm Hw (proj1 Hn)) as HR.
    pose proof (Hquiet m (push_tok cc pt) s st) as HQ.
    destruct (rec m (push_tok cc pt) s st) as [r st1|p|] eqn:Er, (rec' m (shc (push_tok cc pt)) s st') as [r' st1'|p'|]; cbn in HR; try contradiction; [|now subst|exact Logic.I].
    destruct HR as (G1 & R1 & -> & HL). cbn [c_off push_tok cc with_start rs re] in HL. rewrite Hc in HL.
    pose proof (now_grows _ _ _ _ Hn G1 R1) as Hn1. pose proof (fine_grows _ _ _ _ _ R1 Hf) as Hf1.
    pose proof (f_off _ _ _ _ Hf) as Ho.
    assert (Hwid := fun x => lands_wider st1 (ps_off ps) lo x (proj1 Ho) eq_refl).
    pose proof (proj1 (proj2 Hn1)) as Hgr1.
    destruct r as [[a|a|z|b p|b p| |]|e].
    - destruct (no_pin st1 st1' a G1 (proj1 HL)) as [-> ->].
      destruct (m_consuming m); [|now specialize (HQ eq_refl Hm)].
      destruct (pi_stop i); [apply run_ret; auto|].
      apply (sip_run (QPs st1)); [apply sh_handle; auto|]. intros x x' st2 st2' N2 (-> & F2 & _). now apply IH'.
    - destruct (no_pin st1 st1' a G1 (proj1 HL)) as [-> ->].
      destruct (m_consuming m); [|now specialize (HQ eq_refl Hm)].
      destruct (pi_stop i); [apply run_ret; auto|].
      apply (sip_run (QPs st1)); [apply sh_extract; auto|]. intros x x' st2 st2' N2 (-> & F2 & _). now apply IH'.
    - destruct ((0 <? z)%Z && pi_stop i); [apply run_ret; auto|].
      destruct (m_consuming m); [|now apply IH'].
      apply (sip_run (QPs st1)); [now apply sh_skip|]. intros x x' st2 st2' N2 (-> & F2 & _). now apply IH'.
    - apply run_act; auto.
    - apply run_act; auto.
    - apply run_act; auto.
    - apply run_act; auto.
    - rewrite (sh_dbg cc 10) by (auto using small).
      destruct (dbg E P cc 10); [|reflexivity].
      destruct e as [|e]; [|apply run_ret; auto]. destruct (pi_stop i); [now apply IH'|].
      destruct (pi_iter i) as [r|]; [|apply run_ret; auto].
      pose proof (sh_finalize i ps n false st1 st1' Hn1 Hf1) as HF.
      destruct (finalize P i pt ps n false st1) as [x st2|p|], (finalize P' i pt (shp ps) n false st1') as [x' st2'|p'|]; cbn in HF; try contradiction; [|now subst|exact Logic.I].
      destruct HF as (A1 & A2 & -> & A4). apply run_ret; auto.
  Qed.

  Lemma sh_iterate i c s pats : re (c_off c) = hi -> (forall m, In m pats -> local m) ->
    forall f left n ps st st', now st st' -> fine st lo hi ps ->
    sim st0 (QR lo hi) (iterate f E P rec pats i c s pt lo left n ps st)
                       (iterate f E P' rec' pats i (shc c) s pt (lo + d) left n (shp ps) st').
  Proof.
    intros Hc Hp. induction f as [|f IH]; intros left n ps st st' Hn Hf; cbn [iterate].
    - destruct (left =? 0); [now apply sh_finalize|apply sim_oof].
    - destruct (left =? 0); [now apply sh_finalize|].
      pose proof (sh_patterns i c s n pats Hc Hp ps st st' Hn Hf) as HR.
      destruct (run_patterns E P rec i c s pt lo n pats ps st) as [[k ps1] st1|p|],
        (run_patterns E P' rec' i (shc c) s pt (lo + d) n pats (shp ps) st') as [x' st1'|p'|]; cbn in HR; try contradiction;
        try (now destruct k); [|now subst|exact Logic.I].
      destruct k as [|x|r].
      + destruct HR as (-> & N1 & F1 & _). now apply IH.
      + destruct HR as (-> & N1 & F1 & HL).
        destruct x as [a|a|z|b p|b p| |]; try apply sim_pan.
        * destruct (pi_stop i).
          { apply sim_ret; [apply N1|apply N1|]. split; [reflexivity|].
            eapply (lands_wider st1 (ps_off ps1)); [apply (f_off _ _ _ _ F1)|reflexivity|exact HL]. }
          eapply (sip_out (QPs st1)); [now apply sh_payload|]. intros ps2 ps2' st2 st2' N2 (-> & F2 & _).
          apply (sim_bind st0 st0 (QR lo hi)); [now apply sh_finalize|]. intros r r' st3 st3' G3 R3 [-> HL3].
          destruct (is_target i b); [now apply sim_ret|]. destruct r; now apply sim_ret.
        * destruct (pi_stop i).
          { apply sim_ret; [apply N1|apply N1|]. split; [reflexivity|].
            eapply (lands_wider st1 (ps_off ps1)); [apply (f_off _ _ _ _ F1)|reflexivity|exact HL]. }
          eapply (sip_out (QPs st1)); [now apply sh_payload|]. intros ps2 ps2' st2 st2' N2 (-> & F2 & _).
          destruct (is_target i b); [now apply IH|now apply sh_finalize].
        * now apply sh_finalize.
      + destruct HR as (-> & G1 & R1 & HL). now apply sim_ret.
  Qed.
  End Programs.

  Section Steps.
  Variables rec rec' : recT.
  Hypothesis Hrec : forall m c s st st', local m -> win c -> G st st' ->
    sim st (QR (rs (c_off c)) (re (c_off c))) (rec m c s st) (rec' m (shc c) s st').
  Hypothesis Hquiet : forall m c s st, m_consuming m = false -> local m ->
    match rec m c s st with Ret r _ => r = Ok (SSkip 0) | _ => True end.

  Lemma sh_program f pats i c s st st' : win c -> (forall m, In m pats -> local m) -> G st st' ->
    sim st (QR (rs (c_off c)) (re (c_off c))) (exec_program f E P rec pats i c s st) (exec_program f E P' rec' pats i (shc c) s st').
  Proof.
    intros Hc Hp Hg. unfold exec_program.
    change (clone_with_name (shc c) (pi_name i)) with (shc (clone_with_name c (pi_name i))).
    assert (Hw : win (clone_with_name c (pi_name i))) by exact Hc.
    change (c_off c) with (c_off (clone_with_name c (pi_name i))). set (c1 := clone_with_name c (pi_name i)) in *. clearbody c1. clear c Hc.
    set (T0 := std_token P (pi_name i) blank_range).
    change (std_token P' (pi_name i) blank_range) with T0.
    replace (next_addr st') with (next_addr st) by (symmetry; exact (g_size _ _ Hg)).
    change (init_pst (rs (c_off (shc c1)))) with (shp (init_pst (rs (c_off c1)))).
    change (rs (c_off (shc c1))) with (rs (c_off c1) + d).
    assert (Hpend : pending T0) by (repeat split).
    assert (Hstd : tk_kind T0 = KStandard /\ is_error T0 = false) by (split; reflexivity).
    destruct Hw as [W1 W2].
    assert (Ha : G (alloc st T0) (alloc st' T0)).
    { apply G_alloc; auto; [right; now split| |intros k []]. unfold inside. cbn. repeat split; lia. }
    apply (sh_iterate (next_addr st) T0 (rs (c_off c1)) (re (c_off c1)) st W2 Hpend Hstd (Nat.le_refl _) (g_base _ _ Hg) rec rec' Hrec Hquiet i c1 s pats eq_refl Hp).
    - split; [exact Ha|]. split; [apply grows_alloc|]. split; [apply tok_alloc_new|]. rewrite heap_size_alloc. unfold next_addr, heap_size. lia.
    - constructor; cbn [init_pst ps_off ps_mr ps_cr ps_kids]; [lia|now left|now left|intros k []].
  Qed.

  Lemma G_scopes st st' st1 st1' : G st st' -> st_heap st1 = st_heap st -> st_heap st1' = st_heap st' ->
    st_scopes st1' = st_scopes st1 -> scopes_local st1 -> G st1 st1' /\ grows st st1.
  Proof. intros. split; [eapply G_heap; eauto|now apply grows_heap]. Qed.
  Lemma same_set st st' s n v : st_scopes st' = st_scopes st -> st_scopes (sc_set st' s n v) = st_scopes (sc_set st s n v).
  Proof. intros H. unfold sc_set, set_stack, stack_of. cbn [st_scopes]. now rewrite H. Qed.
  Lemma G_setv st st' s n v : G st st' -> (forall m, v = VMatcher m -> local m) ->
    G (sc_set st s n v) (sc_set st' s n v) /\ grows st (sc_set st s n v).
  Proof.
    intros Hg Hv. apply G_scopes with st'; auto.
    - apply same_set. apply (g_scopes _ _ Hg).
    - apply (all_set local); [apply (g_local _ _ Hg)|exact Hv].
  Qed.
  Lemma G_before m s st st' : G st st' -> local m -> G (before_exec m s st) (before_exec m s st') /\ grows st (before_exec m s st).
  Proof.
    intros Hg Hm. unfold before_exec. destruct (m_custom m); [|split; [exact Hg|apply grows_refl]].
    apply G_setv; auto. intros x H. now injection H as <-.
  Qed.
  Lemma G_register s ms : (forall m, In m ms -> local m) -> forall st st', G st st' ->
    G (fold_left (fun st m => sc_set st s (m_name m) (VMatcher m)) ms st) (fold_left (fun st m => sc_set st s (m_name m) (VMatcher m)) ms st') /\
    grows st (fold_left (fun st m => sc_set st s (m_name m) (VMatcher m)) ms st).
  Proof.
    induction ms as [|m ms IH]; intros Hm st st' Hg; cbn [fold_left]; [split; [exact Hg|apply grows_refl]|].
    destruct (G_setv st st' s (m_name m) (VMatcher m) Hg) as [G1 R1].
    { intros x H. injection H as <-. apply Hm. now left. }
    destruct (IH (fun x Hx => Hm x (or_intror Hx)) _ _ G1) as [G2 R2]. split; [exact G2|]. exact (grows_trans _ _ _ R1 R2).
  Qed.

  Lemma sh_step f m c s st st' : local m -> win c -> G st st' ->
    sim st (QR (rs (c_off c)) (re (c_off c))) (step f E P rec m c s st) (step f E P' rec' m (shc c) s st').
  Proof.
    intros Hm Hc Hg0. unfold step.
    destruct (G_before m s st st' Hg0 Hm) as [Hg Hb]. eapply sim_from; [exact Hb|].
    set (st1 := before_exec m s st) in *. set (st1' := before_exec m s st') in *. clearbody st1 st1'. clear st st' Hg0 Hb.
    rename st1 into st. rename st1' into st'.
    change (clone_with_name (shc c) (m_name m)) with (shc (clone_with_name c (m_name m))).
    assert (Hn : win (clone_with_name c (m_name m))) by exact Hc.
    inversion Hm as [m0 Hu Hparts]; subst m0.
    pose proof (grows_refl st) as Hr.
    assert (Hlo : rs (c_off c) <= re (c_off c)) by apply Hc.
    assert (HhL : re (c_off c) <= L) by apply Hc.
    destruct m as [pats i|p n b|r n b|x y z n b|m1|m1|m1| |msg|msg|n|m1 k|m1 g|om off n b|p n b|n|l|t n b|os m1|m1 n b|m1|om dm|k n b cs];
      cbn [parts own_local] in *; cbv zeta; try contradiction.
    - now apply sh_program.
    - rewrite (sh_fetch _ _ s _ Hg) by assumption. destruct (fetch_value st s p) as [[v|m]|q]; [|now apply fail_ret|apply sim_pan].
      change (c_off c) with (c_off (clone_with_name c n)). change (win (clone_with_name c n)) in Hn. cbn [m_name]. set (c1 := clone_with_name c n) in *. clearbody c1.
      pose proof (sh_matches c1 v Hn) as HM.
      destruct (matches_str P c1 v) as [[r|]|q].
      + destruct HM as (-> & -> & H1 & H2). rewrite sh_dbg by (auto using small). apply sim_let. intros _ _.
        destruct Hn as [N1 N2]. cbn [re] in H2.
        apply new_token; auto; cbn; try lia.
        * apply std_shift. cbn. lia.
        * unfold inside. cbn. repeat split; lia.
      + rewrite HM. rewrite sh_dbg by (auto using small). apply sim_let. intros _ _. now apply fail_ret.
      + rewrite HM. apply sim_pan.
    - change (c_off c) with (c_off (clone_with_name c n)). change (win (clone_with_name c n)) in Hn. cbn [m_name]. set (c1 := clone_with_name c n) in *. clearbody c1.
      pose proof (sh_regexp c1 r Hn Hu) as HM.
      destruct (matches_regexp P c1 r) as [[q|]|q].
      + destruct HM as (-> & H1 & H2). cbn [shifted_range rs re]. destruct Hn as [N1 N2].
        destruct (N.eqb_spec (rs q) (re q)), (N.eqb_spec (rs q + d) (re q + d)); try lia.
        * rewrite sh_dbg by (try split; auto using small). apply sim_let. intros _ _. now apply skip_ret.
        * apply new_token; auto; cbn; try lia.
          -- change (mkR (rs q + d) (re q + d)) with (sr q). apply std_shift. lia.
          -- unfold inside. cbn. repeat split; lia.
      + rewrite HM. rewrite sh_dbg by (auto using small). apply sim_let. intros _ _. now apply fail_ret.
      + rewrite HM. apply sim_pan.
    - apply sh_sequence; auto; apply Hu.
    - eapply sim_bind; [apply Hrec; auto; apply Hparts; now left|]. intros r r' s1 s1' G1 R1 [-> HL].
      destruct r as [[a|a|z|q p|q p| |]|[|e]]; try (now apply fail_ret); try (now apply sim_ret); [|now apply skip_ret].
      destruct (z =? 0)%Z; [now apply sim_ret|now apply fail_ret].
    - eapply sim_bind; [apply Hrec; auto; apply Hparts; now left|]. intros r r' s1 s1' G1 R1 [-> HL].
      destruct r as [y|[|e]]; try (now apply sim_ret). now apply skip_ret.
    - eapply sim_bind; [apply Hrec; auto; apply Hparts; now left|]. intros r r' s1 s1' G1 R1 [-> HL].
      apply (sh_discard st (rs (c_off c)) (re (c_off c))); auto.
    - now apply skip_ret.
    - apply sim_ret; auto. now split.
    - destruct g as [k|msg|msg|msg|msg|l|n| | | | |]; cbn in Hu; try contradiction.
      + eapply sim_bind; [apply Hrec; auto; apply Hparts; now left|]. intros r r' s1 s1' G1 R1 [-> HL].
        assert (Hok : forall a, lands s1 (rs (c_off c)) (re (c_off c)) (SToken a) ->
          sim st (QR (rs (c_off c)) (re (c_off c))) (Ret (Ok (SToken a)) (modify s1 a (add_missing_attrs l))) (Ret (Ok (SToken a)) (modify s1' a (add_missing_attrs l)))).
        { intros a Ha. destruct (G_touch s1 s1' a (add_missing_attrs l) (add_missing_attrs l) G1) as [G2 R2].
          - apply Ha.
          - apply missing_shift.
          - intros t. destruct (missing_same l t) as (K1 & K2 & _). auto.
          - unfold inside, is_error. destruct (missing_same l (tok s1 a)) as (K1 & -> & -> & -> & ->). auto.
          - apply sim_ret; [exact G2|exact (grows_trans _ _ _ R1 R2)|]. split; [reflexivity|]. eapply lands_grows; eauto. }
        destruct r as [[a|a|z|q p|q p| |]|e]; try (now apply sim_ret); now apply Hok.
      + eapply sim_bind; [apply Hrec; auto; apply Hparts; now left|]. intros r r' s1 s1' G1 R1 [-> HL].
        assert (Hok : forall a, lands s1 (rs (c_off c)) (re (c_off c)) (SToken a) ->
          sim st (QR (rs (c_off c)) (re (c_off c))) (Ret (Ok (SToken a)) (modify s1 a (set_tname n))) (Ret (Ok (SToken a)) (modify s1' a (set_tname n)))).
        { intros a Ha. destruct (G_touch s1 s1' a (set_tname n) (set_tname n) G1) as [G2 R2]; auto.
          - apply Ha.
          - apply sim_ret; [exact G2|exact (grows_trans _ _ _ R1 R2)|]. split; [reflexivity|]. eapply lands_grows; eauto. }
        destruct r as [[a|a|z|q p|q p| |]|e]; try (now apply sim_ret); now apply Hok.
    - destruct p as [m1|v].
      + eapply sim_bind; [apply Hrec; auto; apply Hparts; now left|]. intros r r' s1 s1' G1 R1 [-> HL].
        destruct r as [[a|a|z|q p|q p| |]|e]; try now apply sim_ret.
        destruct (G_setv s1 s1' s n (VToken a) G1) as [G2 R2]; [discriminate|].
        apply sim_ret; [exact G2|exact (grows_trans _ _ _ R1 R2)|]. split; [reflexivity|]. eapply lands_grows; eauto.
      + destruct (G_setv st st' s n (VString v) Hg) as [G2 R2]; [discriminate|]. now apply skip_ret.
    - now apply skip_ret.
    - destruct (G_register s l Hparts st st' Hg) as [G2 R2]. now apply skip_ret.
    - rewrite (sh_fetch _ _ s _ Hg) by assumption. destruct (fetch_value st s t) as [[v|m]|q] eqn:Ef; [| |apply sim_pan].
      + replace (sc_get st' s v) with (sc_get st s v) by (unfold sc_get, stack_of; now rewrite (g_scopes _ _ Hg)).
        destruct (sc_get st s v) as [[a|w|m]|] eqn:Es; try (now apply fail_ret).
        apply (Hrec m (clone_with_name c n)); auto. eapply (all_get local); eauto. apply (g_local _ _ Hg).
      + apply (Hrec m (clone_with_name c n)); auto. eapply loc_fetch; eauto; [apply (g_local _ _ Hg)|]. intros x ->. apply Hparts. now left.
    - destruct os as [s1|].
      + apply (Hrec m1 (clone_with_name c (m_name (MSetScope (Some s1) m1)))); auto. apply Hparts. now left.
      + change (c_scope (shc c)) with (c_scope c).
        destruct (G_scopes st st' (sc_push st (c_scope c)) (sc_push st' (c_scope c)) Hg) as [G1 R1]; try reflexivity.
        { unfold sc_push, set_stack, stack_of. cbn [st_scopes]. now rewrite (g_scopes _ _ Hg). }
        { apply (all_push local). apply (g_local _ _ Hg). }
        eapply sim_bind; [apply Hrec; auto; apply Hparts; now left|]. intros r r' s2 s2' G2 R2 [-> HL].
        destruct (G_scopes s2 s2' (sc_pop s2 (c_scope c)) (sc_pop s2' (c_scope c)) G2) as [G3 R3]; try reflexivity.
        { unfold sc_pop, set_stack, stack_of. cbn [st_scopes]. now rewrite (g_scopes _ _ G2). }
        { apply (all_pop local). apply (g_local _ _ G2). }
        apply sim_ret; [exact G3|eapply grows_trans; [exact R1|eapply grows_trans; eauto]|].
        split; [reflexivity|]. destruct r; [|exact Logic.I]. eapply lands_grows; eauto.
    - eapply sim_bind; [apply Hrec; auto; apply Hparts; now left|]. intros r r' s1 s1' G1 R1 [-> HL].
      destruct r as [[a|a|z|q p|q p| |]|e]; try now apply sim_ret.
      + destruct p; now apply sim_ret.
      + destruct p; now apply sim_ret.
    - eapply sim_bind; [apply Hrec; auto; apply Hparts; now left|]. intros r r' s1 s1' G1 R1 [-> HL].
      destruct r as [[a|a|z|q p|q p| |]|e]; try now apply sim_ret.
      + cbn in HL. destruct HL as (Hd & H1 & H2). rewrite (dn_shift _ _ a G1 Hd).
        cbn [shifted_token tk_mr]. destruct (g_in _ _ G1 a (proj1 Hd)) as (_ & _ & I3 & _).
        apply sim_ret.
        * apply G_alloc; auto.
          -- left. rewrite std2_shift by lia. reflexivity.
          -- unfold inside. cbn. repeat split; lia.
          -- intros k [<-|[]]. cbn. split; [exact Hd|lia].
        * eapply grows_trans; [exact R1|apply grows_alloc].
        * split; [unfold next_addr; now rewrite (g_size _ _ G1 : List.length _ = List.length _)|].
          cbn [lands]. unfold dn. rewrite tok_alloc_new. split; [split; [exact (g_base _ _ G1)|left; cbn; discriminate]|]. cbn. auto.
      + cbn in HL. destruct HL as (Hd & H1 & H2). rewrite (dn_shift _ _ a G1 Hd).
        cbn [shifted_token tk_mr]. destruct (g_in _ _ G1 a (proj1 Hd)) as (I1 & I2 & I3 & I4).
        destruct (G_touch s1 s1' a (set_cr P (tk_mr (tok s1 a))) (set_cr P' (sr (tk_mr (tok s1 a)))) G1 Hd) as [G2 R2].
        * intros t. unfold set_cr, shifted_token. cbn. rewrite text_shift by lia. reflexivity.
        * intros t. split; reflexivity.
        * intros _. unfold inside. cbn. repeat split; auto; lia.
        * apply sim_ret; [exact G2|exact (grows_trans _ _ _ R1 R2)|]. split; [reflexivity|].
          apply (lands_grows s1); [exact R2|]. cbn. auto.
    - destruct om as [m1|].
      + change (with_debug (shc (clone_with_name c (m_name (MDebug (Some m1) dm)))) dm) with (shc (with_debug (clone_with_name c (m_name (MDebug (Some m1) dm))) dm)).
        rewrite sh_debug by (auto using small). apply sim_let. intros _ _.
        apply (Hrec m1 (with_debug (clone_with_name c (m_name (MDebug (Some m1) dm))) dm)); auto. apply Hparts. now left.
      + rewrite sh_debug by (auto using small). apply sim_let. intros _ _. now apply skip_ret.
  Qed.
  End Steps.

  Lemma sh_quiet f m c s st : m_consuming m = false -> local m ->
    match exec f E P m c s st with Ret r _ => r = Ok (SSkip 0) | _ => True end.
  Proof.
    intros Hm Hl. destruct f as [|f]; [exact Logic.I|]. cbn [exec]. inversion Hl as [m0 Hu _]; subst m0.
    destruct m as [pats i|p n b|r n b|x y z n b|m1|m1|m1| |msg|msg|n|m1 k|m1 g|om off n b|p n b|n|l|t n b|os m1|m1 n b|m1|om dm|k n b cs];
      cbn [m_consuming own_local] in *; try discriminate; try contradiction; try reflexivity.
    destruct p; [discriminate|reflexivity].
  Qed.
  Lemma sh_exec : forall f m c s st st', local m -> win c -> G st st' ->
    sim st (QR (rs (c_off c)) (re (c_off c))) (exec f E P m c s st) (exec f E P' m (shc c) s st').
  Proof.
    induction f as [|f IH]; intros m c s st st' Hm Hc Hg; cbn [exec]; [apply sim_oof|].
    apply sh_step; auto. intros. now apply sh_quiet.
  Qed.

  Lemma G_start st : base = heap_size st -> scopes_local st -> G st st.
  Proof.
    intros Hh Hl. assert (Ht : forall a, (base <= a)%nat -> tok st a = dead_token).
    { intros a Ha. unfold tok. rewrite nth_overflow; [reflexivity|]. rewrite Hh in Ha. exact Ha. }
    constructor; auto.
    - lia.
    - intros a Ha. rewrite Ht by exact Ha. right. split; [reflexivity|]. repeat split.
    - intros a Ha. rewrite Ht by exact Ha. unfold inside. cbn. repeat split; lia.
    - intros a Ha. rewrite Ht by exact Ha. intros k [].
  Qed.
  Lemma G_tree st st' : G st st' -> forall roots l, preorder st roots l -> (forall a, In a roots -> dn st a) ->
    preorder st' roots l /\ forall b, In b l -> tok st' b = sht (tok st b).
  Proof.
    intros Hg. induction 1 as [|a roots l1 l2 H1 IH1 H2 IH2]; intros Hd; [split; [constructor|intros b []]|].
    assert (Ha : tok st' a = sht (tok st a)) by (apply (dn_shift _ _ a Hg); apply Hd; now left).
    destruct IH1 as [A1 B1]; [intros k Hk; apply (g_kids _ _ Hg a (proj1 (Hd a (or_introl eq_refl))) k Hk)|].
    destruct IH2 as [A2 B2]; [intros k Hk; apply Hd; now right|].
    split.
    - constructor; [rewrite Ha; exact A1|exact A2].
    - intros b [<-|Hb]; [exact Ha|]. apply in_app_or in Hb. destruct Hb; auto.
  Qed.
  Lemma lands_done st lo hi x a : lands st lo hi x -> bears x a -> dn st a.
  Proof. induction x; cbn [lands bears]; try easy; intros H ->; apply H. Qed.
  Lemma sh_window m c s st : base = heap_size st -> scopes_local st -> local m -> win c ->
    (forall r st1, Runs E P m c s st r st1 -> exists st2, Runs E P' m (shc c) s st r st2 /\ same_but_shifted d r st1 st2) /\
    (forall r st2, Runs E P' m (shc c) s st r st2 -> exists st1, Runs E P m c s st r st1 /\ same_but_shifted d r st1 st2) /\
    (forall p, Panics E P m c s st p <-> Panics E P' m (shc c) s st p) /\
    (Diverges E P m c s st <-> Diverges E P' m (shc c) s st).
  Proof.
    intros Hh Hs Hm Hc. pose proof (G_start st Hh Hs) as Hg.
    assert (HR : forall n r st1 r' st2, exec n E P m c s st = Ret r st1 -> exec n E P' m (shc c) s st = Ret r' st2 ->
      r' = r /\ same_but_shifted d r st1 st2).
    { intros n r st1 r' st2 H1 H2. pose proof (sh_exec n m c s st st Hm Hc Hg) as H. rewrite H1, H2 in H.
      destruct H as (G1 & _ & -> & HL). split; [reflexivity|]. split; [apply (g_scopes _ _ G1)|].
      intros x a l -> Hb Hp. apply (G_tree _ _ G1 _ _ Hp). intros b [<-|[]]. eapply lands_done; eauto. }
    pose proof (fun n => sh_exec n m c s st st Hm Hc Hg) as HE. split; [|split; [|split]].
    - intros r st1 [n Hn]. specialize (HE n). rewrite Hn in HE.
      destruct (exec n E P' m (shc c) s st) as [r' st2|p|] eqn:E2; cbn [sim] in HE; try contradiction.
      destruct (HR n r st1 r' st2 Hn E2) as [-> H]. exists st2. split; [now exists n|exact H].
    - intros r st2 [n Hn]. specialize (HE n). rewrite Hn in HE.
      destruct (exec n E P m c s st) as [r' st1|p|] eqn:E2; cbn [sim] in HE; try contradiction.
      destruct (HR n r' st1 r st2 E2 Hn) as [-> H]. exists st1. split; [now exists n|exact H].
    - intros p. split; intros [n Hn]; exists n; specialize (HE n); rewrite Hn in HE.
      + destruct (exec n E P' m (shc c) s st); cbn [sim] in HE; try contradiction. now subst.
      + destruct (exec n E P m c s st); cbn [sim] in HE; try contradiction. now subst.
    - split; intros H n; specialize (HE n); rewrite (H n) in HE.
      + destruct (exec n E P' m (shc c) s st); cbn [sim] in HE; try contradiction. reflexivity.
      + destruct (exec n E P m c s st); cbn [sim] in HE; try contradiction. reflexivity.
  Qed.
End Shift.

Section Results.
  Variables (E : env) (P P' : parser) (pre post : str).
  Hypothesis Hsrc : p_src P' = pre ++ p_src P ++ post.
  Hypothesis Hascii : ascii_only (p_src P').
  Hypothesis Hlen : slen (p_src P') < isize_bound.
  Variables (m : matcher) (c : ctx) (s : sid) (st : state).
  Hypothesis Hw : rs (c_off c) <= re (c_off c) <= slen (p_src P).
  Hypothesis Hm : local m.
  Hypothesis Hs : scopes_local st.
  Let all := sh_window E P P' pre post Hsrc Hascii Hlen (heap_size st) m c s st eq_refl Hs Hm Hw.
  Lemma window_runs r st1 : Runs E P m c s st r st1 ->
    exists st2, Runs E P' m (shifted_ctx (slen pre) c) s st r st2 /\ same_but_shifted (slen pre) r st1 st2.
  Proof. exact (proj1 all r st1). Qed.
  Lemma window_only r st2 : Runs E P' m (shifted_ctx (slen pre) c) s st r st2 ->
    exists st1, Runs E P m c s st r st1 /\ same_but_shifted (slen pre) r st1 st2.
  Proof. exact (proj1 (proj2 all) r st2). Qed.
  Lemma window_panics p : Panics E P m c s st p <-> Panics E P' m (shifted_ctx (slen pre) c) s st p.
  Proof. exact (proj1 (proj2 (proj2 all)) p). Qed.
  Lemma window_diverges : Diverges E P m c s st <-> Diverges E P' m (shifted_ctx (slen pre) c) s st.
  Proof. exact (proj2 (proj2 (proj2 all))). Qed.
End Results.

(* ---------- a sample ---------- *)

Fixpoint tails (n : str) : list str := match n with [] => [] | _ :: l => l :: tails l end.
Lemma tails_in x sub : In sub (tails (x ++ lit "." ++ sub)).
Proof. induction x as [|a x IH]; [now left|]. cbn [app tails]. now right. Qed.
Lemma placeless_check n : existsb (fun t => existsb (str_eqb t) places) (tails n) = false -> placeless (FFetch n).
Proof.
  intros H x sub -> Hs. assert (Ht : existsb (fun t => existsb (str_eqb t) places) (tails (x ++ lit "." ++ sub)) = true).
  { apply existsb_exists. exists sub. split; [apply tails_in|]. apply existsb_exists. exists sub. split; [exact Hs|]. now apply str_eqb_eq. }
  congruence.
Qed.
Definition echo : matcher :=
  Program_ [MStore (SPMatcher (MSequence (FStr "'") (FStr "'") (FStr "\") "Word" false)) "k" false;
            MDiscard (Equals_ "=");
            MProgram [MEquals (FFetch "k.captured_value") "Again" false] (mkPI "Loop" (Some (1, usize_max)) false false)].
Lemma echo_local : local echo.
Proof.
  assert (Hf : placeless (FFetch "k.captured_value")) by (apply placeless_check; reflexivity).
  repeat match goal with
  | H : False |- _ => destruct H
  | H : _ \/ _ |- local _ => destruct H as [<-|H]
  | |- local _ => apply lo_all; [cbn; auto|cbn [parts echo Program_ Equals_ In]; intros ? ?]
  end.
Qed.
