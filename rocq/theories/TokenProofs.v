(* Comparing tokens and results, and what the methods of tokens do (C70, C72). *)
From Verif Require Import DecimalProofs.
From Verif Require Import SpecMore Facts ImportProofs.
From Verif Require Export SpecPrint.
From Coq Require Import Lia.
Open Scope string_scope.
Open Scope list_scope.
Open Scope N_scope.

(* ---------- comparing ---------- *)

Lemma range_eqb_eq r q : range_eqb r q = true <-> r = q.
Proof.
  destruct r as [a b], q as [x y]. unfold range_eqb. cbn. rewrite andb_true_iff, !N.eqb_eq.
  split; [intros [-> ->]; reflexivity|now injection 1 as -> ->].
Qed.
Lemma token_eqb_eq t u : token_eqb t u = true <-> same_place t u.
Proof. unfold token_eqb, same_place. rewrite !andb_true_iff, str_eqb_eq, !range_eqb_eq. tauto. Qed.
Lemma parse_error_eqb_eq e f : parse_error_eqb e f = true <-> e = f.
Proof.
  destruct e as [m r], f as [k q]. unfold parse_error_eqb. cbn. rewrite andb_true_iff, str_eqb_eq.
  destruct r as [r|], q as [q|]; try rewrite range_eqb_eq.
  - split; [intros [-> ->]; reflexivity|now injection 1 as -> ->].
  - split; [now intros [_ ?]|discriminate].
  - split; [now intros [_ ?]|discriminate].
  - split; [now intros [-> _]|now injection 1 as ->].
Qed.
Lemma failure_eqb_eq e f : failure_eqb e f = true <-> e = f.
Proof.
  destruct e as [|e], f as [|f]; cbn; try (split; [discriminate|discriminate]); [tauto|].
  rewrite parse_error_eqb_eq. split; [now intros ->|now injection 1].
Qed.
Lemma success_eqb_eq st1 st2 : forall x y, success_eqb st1 st2 x y = true <-> same_success st1 st2 x y.
Proof.
  induction x; intros y; destruct y; cbn [success_eqb];
    try (split; [discriminate|intros H; inversion H]).
  - rewrite token_eqb_eq. split; [now constructor|now inversion 1].
  - rewrite token_eqb_eq. split; [now constructor|now inversion 1].
  - rewrite Z.eqb_eq. split; [intros ->; constructor|now inversion 1].
  - rewrite andb_true_iff, str_eqb_eq, IHx. split; [intros [-> H]; now constructor|inversion 1; auto].
  - rewrite andb_true_iff, str_eqb_eq, IHx. split; [intros [-> H]; now constructor|inversion 1; auto].
  - split; [constructor|reflexivity].
  - split; [constructor|reflexivity].
Qed.
Lemma mres_eqb_eq st1 st2 r q : mres_eqb st1 st2 r q = true <-> same_result st1 st2 r q.
Proof.
  destruct r as [x|e], q as [y|f]; cbn [mres_eqb]; try (split; [discriminate|intros H; inversion H]).
  - rewrite success_eqb_eq. split; [now constructor|now inversion 1].
  - rewrite failure_eqb_eq. split; [intros ->; constructor|now inversion 1].
Qed.

Lemma same_success_refl st x : same_success st st x x.
Proof. induction x; constructor; auto; repeat split. Qed.
Lemma same_success_sym st1 st2 x y : same_success st1 st2 x y -> same_success st2 st1 y x.
Proof. induction 1; constructor; auto; unfold same_place in *; intuition congruence. Qed.
Lemma same_success_trans st1 st2 st3 x y : same_success st1 st2 x y ->
  forall z, same_success st2 st3 y z -> same_success st1 st3 x z.
Proof.
  induction 1; intros z' Hz; inversion Hz; subst; constructor; auto; unfold same_place in *; intuition congruence.
Qed.
Lemma mres_equal_equivalence :
  (forall st r, mres_eqb st st r r = true) /\
  (forall st1 st2 r q, mres_eqb st1 st2 r q = true -> mres_eqb st2 st1 q r = true) /\
  (forall st1 st2 st3 r q p, mres_eqb st1 st2 r q = true -> mres_eqb st2 st3 q p = true -> mres_eqb st1 st3 r p = true).
Proof.
  split; [|split].
  - intros st r. apply mres_eqb_eq. destruct r; constructor. apply same_success_refl.
  - intros st1 st2 r q H. apply mres_eqb_eq in H. apply mres_eqb_eq. inversion H; constructor. now apply same_success_sym.
  - intros st1 st2 st3 r q p H G. apply mres_eqb_eq in H, G. apply mres_eqb_eq.
    inversion H; subst; inversion G; subst; constructor. eapply same_success_trans; eauto.
Qed.

(* what is run in another store compares equal *)
Lemma moved_tok H0 S0 st a : tok (moved_state H0 S0 st) (moved_addr H0 a) = moved_token H0 (tok st a) \/
  (heap_size st <= a)%nat /\ tok (moved_state H0 S0 st) (moved_addr H0 a) = dead_token.
Proof.
  unfold tok, moved_state, moved_addr. cbn [st_heap]. rewrite app_nth2 by lia.
  replace (List.length H0 + a - List.length H0)%nat with a by lia.
  destruct (Nat.lt_ge_cases a (heap_size st)) as [H|H]; [left|right; split; [exact H|]].
  - rewrite (nth_indep _ dead_token (moved_token H0 dead_token)) by (now rewrite map_length). apply map_nth.
  - apply nth_overflow. now rewrite map_length.
Qed.
Lemma moved_place H0 S0 st a : same_place (tok st a) (tok (moved_state H0 S0 st) (moved_addr H0 a)).
Proof.
  destruct (moved_tok H0 S0 st a) as [->|[H ->]]; [repeat split|].
  unfold tok. rewrite nth_overflow by exact H. repeat split.
Qed.
Lemma moved_equal H0 S0 st r : mres_eqb st (moved_state H0 S0 st) r (moved_result H0 r) = true.
Proof.
  apply mres_eqb_eq. destruct r as [x|e]; cbn; constructor. induction x; cbn; constructor; auto using moved_place.
Qed.

(* ---------- attributes ---------- *)

Lemma set_attribute_spec k v t : let (old, t') := set_attribute k v t in
  old = get_attr k t /\ get_attr k t' = Some v /\ (forall k', k' <> k -> get_attr k' t' = get_attr k' t) /\
  tk_kind t' = tk_kind t /\ tk_cr t' = tk_cr t /\ tk_mr t' = tk_mr t /\ tk_name t' = tk_name t /\
  tk_value t' = tk_value t /\ tk_cvalue t' = tk_cvalue t /\ tk_mvalue t' = tk_mvalue t /\
  tk_parent t' = tk_parent t /\ tk_kids t' = tk_kids t /\ tk_flags t' = tk_flags t.
Proof.
  cbn. split; [reflexivity|]. unfold get_attr. cbn [tk_attrs set_attr].
  split; [apply assoc_get_set_same|]. split; [|repeat split].
  intros k' Hk. apply assoc_get_set_other. congruence.
Qed.
Lemma has_attribute_iff k t : has_attribute k t = true <-> exists v, get_attr k t = Some v.
Proof. unfold has_attribute. destruct (get_attr k t); split; eauto; [discriminate|intros [? ?]; discriminate]. Qed.
Lemma attribute_equals_iff k v t : attribute_equals k v t = true <-> get_attr k t = Some v.
Proof.
  unfold attribute_equals. destruct (get_attr k t) as [w|]; [|split; discriminate].
  rewrite str_eqb_eq. split; [now intros ->|now injection 1].
Qed.

(* ---------- values ---------- *)

Lemma get_value_spec t v : get_value t = v <->
  match get_attr "__value" t, tk_value t with
  | Some w, _ => v = w
  | None, Some w => v = w
  | None, None => v = tk_cvalue t
  end.
Proof.
  unfold get_value, get_cvalue. destruct (get_attr "__value" t); [split; congruence|].
  destruct (tk_value t); [split; congruence|]. destruct (tk_kind t); split; congruence.
Qed.
Lemma set_value_spec v t : get_attr "__value" t = None ->
  get_value (set_value v t) = match v with [] => tk_cvalue t | _ => v end.
Proof.
  intros H. unfold get_value. change (get_attr "__value" (set_value v t)) with (get_attr "__value" t). rewrite H.
  destruct v; cbn [set_value tk_value]; [|reflexivity].
  unfold get_cvalue. change (get_attr "__value" (set_value [] t)) with (get_attr "__value" t). rewrite H.
  cbn [set_value tk_kind tk_cvalue]. now destruct (tk_kind t).
Qed.
Lemma set_value_hidden v w t : get_attr "__value" t = Some w -> get_value (set_value v t) = w.
Proof. intros H. unfold get_value. change (get_attr "__value" (set_value v t)) with (get_attr "__value" t). now rewrite H. Qed.

(* ---------- flags ---------- *)

Lemma high_bits n i : n < 256 -> 8 <= i -> N.testbit n i = false.
Proof.
  intros Hn Hi. destruct (N.eq_dec n 0) as [->|H0]; [apply N.bits_0|].
  apply N.bits_above_log2. assert (N.log2 n < 8); [|lia]. apply N.log2_lt_pow2; [lia|exact Hn].
Qed.
Lemma low_bits i : i < 8 -> N.testbit 255 i = true.
Proof.
  intros Hi. change 255 with (N.ones 8). now apply N.ones_spec_low.
Qed.
Lemma enable_bits f t i : N.testbit (tk_flags (enable_flags f t)) i = N.testbit (tk_flags t) i || N.testbit f i.
Proof. cbn. apply N.lor_spec. Qed.
Lemma disable_bits f t i : tk_flags t < 256 -> f < 256 ->
  N.testbit (tk_flags (disable_flags f t)) i = N.testbit (tk_flags t) i && negb (N.testbit f i).
Proof.
  intros Ht Hf. cbn. rewrite N.land_spec, N.lxor_spec.
  destruct (N.lt_ge_cases i 8) as [Hi|Hi].
  - rewrite low_bits by exact Hi. now rewrite xorb_true_r.
  - now rewrite (high_bits _ _ Ht Hi).
Qed.
Lemma flags_enabled_iff f t : flags_enabled f t = true <-> exists i, N.testbit (tk_flags t) i = true /\ N.testbit f i = true.
Proof.
  unfold flags_enabled. rewrite negb_true_iff, N.eqb_neq. split.
  - intros H. exists (N.log2 (N.land (tk_flags t) f)). pose proof (N.bit_log2 _ H) as Hb.
    now rewrite N.land_spec, andb_true_iff in Hb.
  - intros (i & H1 & H2) H. pose proof (N.land_spec (tk_flags t) f i) as Hl. rewrite H, N.bits_0, H1, H2 in Hl. discriminate.
Qed.
Lemma flags_small f g t : tk_flags t < 256 -> f < 256 -> g < 256 ->
  tk_flags (enable_flags f t) < 256 /\ tk_flags (disable_flags f t) < 256 /\ tk_flags (set_flags g t) < 256.
Proof.
  assert (Hs : forall n, (forall i, 8 <= i -> N.testbit n i = false) -> n < 256).
  { intros n Hn. destruct (N.eq_dec n 0) as [->|H0]; [lia|].
    change 256 with (2 ^ 8). apply N.log2_lt_pow2; [lia|].
    destruct (N.lt_ge_cases (N.log2 n) 8) as [H|H]; [exact H|]. apply Hn in H. rewrite N.bit_log2 in H; [discriminate|exact H0]. }
  intros Ht Hf Hg. split; [|split; [|exact Hg]]; apply Hs; intros i Hi.
  - rewrite enable_bits, (high_bits _ _ Ht Hi), (high_bits _ _ Hf Hi). reflexivity.
  - rewrite disable_bits by assumption. now rewrite (high_bits _ _ Ht Hi).
Qed.

(* ---------- children ---------- *)

Lemma find_first {A} (f : A -> bool) l a : find f l = Some a <->
  exists x y, l = x ++ a :: y /\ f a = true /\ forall b, In b x -> f b = false.
Proof.
  induction l as [|b l IH]; cbn [find].
  - split; [discriminate|]. intros (x & y & H & _). destruct x; discriminate.
  - destruct (f b) eqn:Eb.
    + split.
      * injection 1 as <-. exists [], l. split; [reflexivity|]. split; [exact Eb|intros ? []].
      * intros (x & y & H & Ha & Hx). destruct x as [|b' x]; injection H as <- ->; [reflexivity|].
        rewrite (Hx b) in Eb; [discriminate|now left].
    + rewrite IH. split.
      * intros (x & y & -> & Ha & Hx). exists (b :: x), y. split; [reflexivity|]. split; [exact Ha|].
        intros b' [<-|H]; auto.
      * intros (x & y & H & Ha & Hx). destruct x as [|b' x]; injection H as <- ->; [congruence|].
        exists x, y. split; [reflexivity|]. split; [exact Ha|]. intros b' Hb. apply Hx. now right.
Qed.
Lemma find_child_iff st t name a : find_child st t name = Some a <->
  exists x y, tk_kids t = x ++ a :: y /\ tk_name (tok st a) = name /\ forall b, In b x -> tk_name (tok st b) <> name.
Proof.
  unfold find_child. rewrite find_first. split; intros (x & y & H1 & H2 & H3); exists x, y; split; auto;
    rewrite str_eqb_eq in *; split; auto; intros b Hb; specialize (H3 b Hb); now apply str_eqb_neq.
Qed.
Lemma has_child_iff st t name : has_child st t name = true <-> exists a, In a (tk_kids t) /\ tk_name (tok st a) = name.
Proof.
  unfold has_child. destruct (find_child st t name) as [a|] eqn:H.
  - split; [|reflexivity]. intros _. apply find_child_iff in H as (x & y & H1 & H2 & _). exists a. split; [|exact H2].
    rewrite H1. apply in_or_app. right. now left.
  - split; [discriminate|]. intros (a & Ha & Hn). unfold find_child in H.
    apply (find_none _ _ H) in Ha. now apply str_eqb_neq in Ha.
Qed.
Lemma find_fuzzy_iff st t r a : find_child_fuzzy st t r = Some a <->
  exists x y, tk_kids t = x ++ a :: y /\ (exists p, r (tk_name (tok st a)) = Some p) /\
    forall b, In b x -> r (tk_name (tok st b)) = None.
Proof.
  unfold find_child_fuzzy. rewrite find_first. split; intros (x & y & H1 & H2 & H3); exists x, y; split; auto; split.
  - destruct (r (tk_name (tok st a))); [eauto|discriminate].
  - intros b Hb. specialize (H3 b Hb). now destruct (r (tk_name (tok st b))).
  - destruct H2 as [p ->]. reflexivity.
  - intros b Hb. now rewrite (H3 b Hb).
Qed.
(* the lists of alternatives that stand for `^(a|b|...)$` *)
Lemma find_among_fuzzy st t names r :
  (forall s, (exists p, r s = Some p) <-> exists n, In n names /\ s = lit n) ->
  find_child_among st t names = find_child_fuzzy st t r.
Proof.
  intros H. unfold find_child_among, find_child_fuzzy.
  assert (Hf : forall k, existsb (fun n => str_eqb (tk_name (tok st k)) (lit n)) names =
    match r (tk_name (tok st k)) with Some _ => true | None => false end).
  { intros k. destruct (r (tk_name (tok st k))) as [p|] eqn:Er.
    - destruct (proj1 (H _) (ex_intro _ p Er)) as (n & Hn & Hk). apply existsb_exists. exists n. split; [exact Hn|].
      rewrite Hk. apply str_eqb_refl.
    - apply not_true_iff_false. intros He. apply existsb_exists in He as (n & Hn & Hk). apply str_eqb_eq in Hk.
      destruct (proj2 (H (tk_name (tok st k)))) as [p Hp]; [eauto|congruence]. }
  induction (tk_kids t) as [|k l IH]; cbn [find]; [reflexivity|]. rewrite Hf.
  now destruct (r (tk_name (tok st k))).
Qed.
Lemma add_child_spec st a t name : tk_kids (add_child a t) = tk_kids t ++ [a] /\
  find_child st (add_child a t) name =
    match find_child st t name with
    | Some b => Some b
    | None => if str_eqb (tk_name (tok st a)) name then Some a else None
    end.
Proof.
  split; [reflexivity|]. unfold find_child. cbn [add_child set_kids tk_kids].
  induction (tk_kids t) as [|k l IH]; cbn [find app]; [reflexivity|]. now destruct (str_eqb (tk_name (tok st k)) name).
Qed.

(* ---------- comparing results of executions ---------- *)

Lemma elsewhere_equal H0 S0 U E E' P m c c' s st r st1 :
  movable H0 S0 U E E' -> e_checks E' = e_checks E ->
  calls_only U m -> moved_ctx H0 S0 c c' -> scopes_call_only U st ->
  Runs E P m c s st r st1 ->
  exists r' st1', Runs E' P (moved_matcher S0 m) c' (moved_sid S0 s) (moved_state H0 S0 st) r' st1' /\
    mres_eqb st1 st1' r r' = true.
Proof.
  intros HU HE Hm Hc Hs H. exists (moved_result H0 r), (moved_state H0 S0 st1). split; [|apply moved_equal].
  exact (moved_does H0 S0 U E E' P m c c' s st (Done r st1) HU HE Hm Hc Hs H).
Qed.
Lemma equal_texts P t u : truthful P t -> truthful P u -> tk_kind t = KStandard -> tk_kind u = KStandard ->
  token_eqb t u = true -> tk_cvalue t = tk_cvalue u /\ tk_mvalue t = tk_mvalue u.
Proof.
  intros Ht Hu Kt Ku H. apply token_eqb_eq in H as (_ & Hc & Hm).
  destruct (Ht Kt) as [-> ->], (Hu Ku) as [-> ->]. now rewrite Hc, Hm.
Qed.

(* ---------- texts ---------- *)

Lemma set_texts_spec v t :
  tk_cvalue (set_cvalue v t) = v /\ tk_mvalue (set_cvalue v t) = tk_mvalue t /\
  tk_mvalue (set_mvalue v t) = v /\ tk_cvalue (set_mvalue v t) = tk_cvalue t /\
  forall u, u = set_cvalue v t \/ u = set_mvalue v t ->
  tk_kind u = tk_kind t /\ tk_cr u = tk_cr t /\ tk_mr u = tk_mr t /\ tk_name u = tk_name t /\
  tk_value u = tk_value t /\ tk_parent u = tk_parent t /\ tk_kids u = tk_kids t /\
  tk_attrs u = tk_attrs t /\ tk_flags u = tk_flags t.
Proof. repeat (split; [reflexivity|]). intros u [->| ->]; repeat split. Qed.

Lemma show_range_spec r : exists x y, decimal (rs r) x /\ decimal (re r) y /\ show_range r = lit "[" ++ x ++ lit "-" ++ y ++ lit "]".
Proof. exists (dec (rs r)), (dec (re r)). auto using dec_decimal. Qed.
