(* Characters of UTF-8 text, regular expressions of ReEngine, and the two
   readings of BoundsProofs: any text and UTF-8 text (C45, C46). *)
From Verif Require Export BoundsProofs ReEngine.
Open Scope string_scope.
Open Scope list_scope.
Open Scope N_scope.

(* ---------- cutting UTF-8 text ---------- *)

Lemma lead_not_cont x k : utf8_lead x k -> ~ continuation x.
Proof. unfold utf8_lead, continuation. lia. Qed.
Lemma lead_det x k k' : utf8_lead x k -> utf8_lead x k' -> k = k'.
Proof. unfold utf8_lead. lia. Qed.

Definition starts_char (s : str) : Prop := match s with [] => True | x :: _ => ~ continuation x end.
Lemma utf8_starts s : utf8 s -> starts_char s.
Proof. destruct 1 as [|x l r Hx]; [exact I|]. cbn. eapply lead_not_cont; eauto. Qed.

Lemma app_cut {A} (l1 : list A) : forall l2 r1 r2, l1 ++ r1 = l2 ++ r2 ->
  (exists m, l2 = l1 ++ m /\ r1 = m ++ r2) \/ (exists x m, l1 = l2 ++ x :: m /\ r2 = x :: m ++ r1).
Proof.
  induction l1 as [|a l1 IH]; intros l2 r1 r2 H; cbn [app] in H.
  - left. exists l2. split; [reflexivity|exact H].
  - destruct l2 as [|b l2]; cbn [app] in H.
    + right. exists a, l1. split; [reflexivity|now symmetry].
    + injection H as -> H. destruct (IH _ _ _ H) as [(m & -> & ->)|(x & m & -> & ->)].
      * left. now exists m.
      * right. now exists x, m.
Qed.

Lemma utf8_cut s : utf8 s -> forall pre post, s = pre ++ post -> starts_char post -> utf8 pre /\ utf8 post.
Proof.
  induction 1 as [|x l r Hx Hl Hr IH]; intros pre post E Hp.
  - symmetry in E. apply app_eq_nil in E as [-> ->]. split; constructor.
  - destruct pre as [|y pre]; cbn [app] in E.
    + subst post. split; [constructor|now constructor].
    + injection E as <- E. apply app_cut in E as [(m & -> & ->)|(z & m & -> & ->)].
      * destruct (IH m post eq_refl Hp) as [H1 H2]. split; [now constructor|exact H2].
      * exfalso. apply Hp. apply Hl. apply in_or_app. right. now left.
Qed.

Lemma utf8_strip v : utf8 v -> forall rest, utf8 (v ++ rest) -> utf8 rest.
Proof.
  induction 1 as [|x l r Hx Hl Hr IH]; intros rest H; [exact H|].
  cbn [app] in H. rewrite <- app_assoc in H.
  inversion H as [|x' l' r' Hx' Hl' Hr' [E1 E2]]. subst x'.
  apply app_inj_len in E2 as [-> ->]; [now apply IH|].
  rewrite !slen_length. f_equal. eapply lead_det; eauto.
Qed.

Lemma boundary_starts pre post : char_boundary (pre ++ post) (slen pre) -> pre = [] \/ starts_char post.
Proof.
  intros [H|(pre' & post' & E & L & H)].
  - left. destruct pre; [reflexivity|]. rewrite slen_cons in H. lia.
  - right. apply app_inj_len in E as [-> ->]; [exact H|auto].
Qed.
Lemma starts_boundary pre post : starts_char post -> char_boundary (pre ++ post) (slen pre).
Proof. intros H. right. exists pre, post. auto. Qed.

Lemma utf8_after pre post : utf8 (pre ++ post) -> char_boundary (pre ++ post) (slen pre) -> utf8 post.
Proof.
  intros Hu H. apply boundary_starts in H as [->|H]; [exact Hu|].
  now destruct (utf8_cut _ Hu pre post eq_refl H).
Qed.
Lemma utf8_slice src a b w : utf8 src -> slice src a b = Some w -> utf8 w.
Proof.
  intros Hu H. apply slice_iff in H as ((pre & post & -> & L1 & L2) & B1 & B2).
  rewrite <- L1 in B1. pose proof (utf8_after _ _ Hu B1) as H1.
  destruct w as [|x w]; [constructor|].
  apply (utf8_cut _ H1 (x :: w) post eq_refl).
  rewrite app_assoc in B2. rewrite <- L2 in B2. apply boundary_starts in B2 as [B2|B2]; [|exact B2].
  apply app_eq_nil in B2 as [_ B2]. discriminate.
Qed.
Lemma slice_boundaries src a b w : slice src a b = Some w -> char_boundary src a /\ char_boundary src b.
Proof. intros H. now apply slice_iff in H. Qed.

(* a boundary of a window of the source is one of the source *)
Lemma window_boundary src a b w k : slice src a b = Some w -> char_boundary w k -> char_boundary src (a + k).
Proof.
  intros H Hk. apply slice_iff in H as ((pre & post & -> & L1 & L2) & B1 & B2).
  destruct Hk as [->|(w1 & w2 & -> & L3 & H3)]; [now rewrite N.add_0_r|].
  destruct w2 as [|x w2].
  - rewrite app_nil_r in *. rewrite slen_app in L2. now replace (a + k) with b by lia.
  - right. exists (pre ++ w1), ((x :: w2) ++ post). rewrite slen_app.
    split; [now rewrite <- !app_assoc|]. split; [lia|exact H3].
Qed.

Lemma utf8_literal src v rest a b : utf8 src -> utf8 v -> slice src a b = Some (v ++ rest) ->
  char_boundary src (a + slen v).
Proof.
  intros Hu Hv H. eapply window_boundary; [exact H|]. apply starts_boundary. apply utf8_starts.
  eapply utf8_strip; [exact Hv|]. exact (utf8_slice _ _ _ _ Hu H).
Qed.

(* ---------- regular expressions ---------- *)

Definition weight (l : list (N * N)) : N := fold_right (fun p n => snd p + n) 0 l.
Lemma weight_app l1 l2 : weight (l1 ++ l2) = weight l1 + weight l2.
Proof. induction l1 as [|p l1 IH]; cbn; [reflexivity|]. unfold weight in *. rewrite IH. lia. Qed.

(* [n] bytes are a number of characters at the start of [s] *)
Definition cuts (s : list (N * N)) (n : N) : Prop := exists l1 l2, s = l1 ++ l2 /\ weight l1 = n.
Lemma cuts_zero s : cuts s 0.
Proof. exists [], s. split; reflexivity. Qed.
Lemma cuts_cons p s n : cuts s n -> cuts (p :: s) (snd p + n).
Proof. intros (l1 & l2 & -> & <-). exists (p :: l1), l2. split; reflexivity. Qed.
Lemma cuts_le s n : cuts s n -> n <= weight s.
Proof. intros (l1 & l2 & -> & <-). rewrite weight_app. lia. Qed.

Lemma star_cuts c k : (forall s n, k s = Some n -> cuts s n) -> forall s n, star c k s = Some n -> cuts s n.
Proof.
  intros Hk. induction s as [|[x l] s IH]; intros n H; cbn [star] in H; [auto|].
  destruct (c x); [|auto]. destruct (star c k s) as [n'|]; [|auto]. injection H as <-.
  apply (cuts_cons (x, l)). auto.
Qed.
Lemma items_cuts r : forall s n, match_items r s = Some n -> cuts s n.
Proof.
  induction r as [|[c|c] r IH]; intros s n H; cbn [match_items] in H.
  - injection H as <-. apply cuts_zero.
  - destruct s as [|[x l] s]; [discriminate|]. destruct (c x); [|discriminate].
    destruct (match_items r s) as [n'|] eqn:En; [|discriminate]. injection H as <-. apply (cuts_cons (x, l)). auto.
  - eapply star_cuts; [|exact H]. exact IH.
Qed.
Lemma alts_cuts r : forall s n, match_alts r s = Some n -> cuts s n.
Proof.
  induction r as [|a r IH]; intros s n H; cbn [match_alts] in H; [discriminate|].
  destruct (match_items a s) as [n'|] eqn:En; [|auto]. injection H as <-. eapply items_cuts; eauto.
Qed.
Lemma find_cuts r : forall s pos a b, find_from r pos s = Some (a, b) ->
  exists n, a <= b /\ b = pos + n /\ cuts s n.
Proof.
  induction s as [|[x l] s IH]; intros pos a b H; cbn [find_from] in H.
  - destruct (match_alts r []) as [n|] eqn:En; [|discriminate]. injection H as <- <-.
    exists n. split; [lia|]. split; [reflexivity|]. eapply alts_cuts; eauto.
  - destruct (match_alts r _) as [n|] eqn:En.
    + injection H as <- <-. exists n. split; [lia|]. split; [reflexivity|]. eapply alts_cuts; eauto.
    + apply IH in H as (n & H1 & H2 & H3). exists (l + n). split; [exact H1|]. split; [lia|]. now apply (cuts_cons (x, l)).
Qed.

Lemma decode_weight : forall n s, (List.length s < n)%nat -> weight (decode s) = slen s.
Proof.
  induction n as [|n IH]; intros s Hn; [lia|].
  destruct s as [|a s1]; [reflexivity|]. cbn [decode List.length] in *.
  destruct (_ <? 192); [cbn [weight fold_right snd]; fold (weight (decode s1)); rewrite IH by lia; rewrite slen_cons; lia|].
  destruct s1 as [|b s2]; [reflexivity|]. cbn [List.length] in *.
  destruct (_ <? 224); [cbn [weight fold_right snd]; fold (weight (decode s2)); rewrite IH by lia; rewrite !slen_cons; lia|].
  destruct s2 as [|c s3]; [reflexivity|]. cbn [List.length] in *.
  destruct (_ <? 240); [cbn [weight fold_right snd]; fold (weight (decode s3)); rewrite IH by lia; rewrite !slen_cons; lia|].
  destruct s3 as [|d s4]; [reflexivity|]. cbn [List.length] in *.
  cbn [weight fold_right snd]; fold (weight (decode s4)); rewrite IH by lia; rewrite !slen_cons; lia.
Qed.

Lemma decode_char x l r : utf8_lead x (List.length l) ->
  exists u, decode (x :: l ++ r) = (u, 1 + slen l) :: decode r.
Proof.
  intros H. rewrite slen_length. unfold utf8_lead in H.
  destruct l as [|a [|b [|c [|d l]]]]; cbn [List.length app decode] in *.
  - destruct (N.ltb_spec (N_of_ascii x) 192); [eexists; reflexivity|lia].
  - destruct (N.ltb_spec (N_of_ascii x) 192); [lia|]. destruct (N.ltb_spec (N_of_ascii x) 224); [eexists; reflexivity|lia].
  - destruct (N.ltb_spec (N_of_ascii x) 192); [lia|]. destruct (N.ltb_spec (N_of_ascii x) 224); [lia|].
    destruct (N.ltb_spec (N_of_ascii x) 240); [eexists; reflexivity|lia].
  - destruct (N.ltb_spec (N_of_ascii x) 192); [lia|]. destruct (N.ltb_spec (N_of_ascii x) 224); [lia|].
    destruct (N.ltb_spec (N_of_ascii x) 240); [lia|]. eexists; reflexivity.
  - lia.
Qed.

Lemma utf8_cuts w : utf8 w -> forall n, cuts (decode w) n -> exists w1 w2, w = w1 ++ w2 /\ slen w1 = n /\ utf8 w2.
Proof.
  induction 1 as [|x l r Hx Hl Hr IH]; intros n (l1 & l2 & E & <-).
  - symmetry in E. apply app_eq_nil in E as [-> ->]. exists [], []. repeat split; constructor.
  - destruct (decode_char x l r Hx) as [u Hu]. rewrite Hu in E. destruct l1 as [|p l1]; cbn [app] in E.
    + exists [], (x :: l ++ r). split; [reflexivity|]. split; [reflexivity|]. now constructor.
    + assert (E2 : p = (u, 1 + slen l) /\ decode r = l1 ++ l2) by (split; congruence).
      destruct E2 as [-> E2]. destruct (IH (weight l1)) as (w1 & w2 & -> & L & Hw); [now exists l1, l2|].
      exists (x :: l ++ w1), w2. split; [cbn [app]; now rewrite <- app_assoc|]. split; [|exact Hw].
      change (weight ((u, 1 + slen l) :: l1)) with (1 + slen l + weight l1). rewrite slen_cons, slen_app, L. lia.
Qed.

Lemma re_find_sane r : sane_find (re_find r).
Proof.
  intros w a b H. unfold re_find in H. apply find_cuts in H as (n & H1 & H2 & H3).
  apply cuts_le in H3. rewrite (decode_weight (S (List.length w))) in H3 by lia. lia.
Qed.
Lemma re_find_utf8 r : utf8_find (re_find r).
Proof.
  intros w a b Hw H. split; [eapply re_find_sane; eauto|].
  unfold re_find in H. apply find_cuts in H as (n & H1 & H2 & H3). rewrite N.add_0_l in H2. subst b.
  destruct (utf8_cuts _ Hw _ H3) as (w1 & w2 & -> & <- & H4). apply starts_boundary. now apply utf8_starts.
Qed.

(* ---------- the two readings ---------- *)


Lemma result_trees pos lo hi st r : result_fits pos lo hi st r -> forall a, In a (result_tokens r) -> tree_fits pos lo hi st a.
Proof.
  intros H. destruct r as [x|e]; cbn [result_tokens result_fits] in *; [|intros a []].
  destruct x as [a|a|z|n p|n p| |]; cbn [success_tokens success_fits] in *; try (intros b [<-|[]]; exact H); try (intros b []);
    destruct p; cbn [success_tokens success_fits] in *; try contradiction; try (intros b [<-|[]]; exact H); try (intros b []).
Qed.

Lemma keeps_any E P m c s st r st' : tame E ->
  fitting (p_src P) (fun _ => True) (fun _ => True) sane_find E -> slen (p_src P) < isize_bound ->
  bounded (fun _ => True) sane_find m -> scopes_bounded (fun _ => True) sane_find st ->
  rs (c_off c) <= re (c_off c) <= slen (p_src P) ->
  Runs E P m c s st r st' ->
  result_fits (fun _ => True) (rs (c_off c)) (re (c_off c)) st' r.
Proof.
  intros HE Hf Hl Hm Hs Hc H. eapply runs_keeps; eauto.
  - intros f w a b me Hok Hsl Hfw. apply Hok in Hfw. split; [lia|exact I].
  - split; [exact Hc|auto].
Qed.

Lemma keeps_utf8 E P m c s st r st' : tame E -> utf8 (p_src P) ->
  fitting (p_src P) (char_boundary (p_src P)) utf8 utf8_find E -> slen (p_src P) < isize_bound ->
  bounded utf8 utf8_find m -> scopes_bounded utf8 utf8_find st ->
  sliceable (p_src P) (c_off c) ->
  Runs E P m c s st r st' ->
  result_fits (char_boundary (p_src P)) (rs (c_off c)) (re (c_off c)) st' r.
Proof.
  intros HE Hu Hf Hl Hm Hs (C1 & C2 & C3 & C4) H. eapply runs_keeps; eauto.
  - intros. eapply slice_boundaries; eauto.
  - intros. eapply utf8_literal; eauto.
  - intros f w a b me Hok Hsl Hfw. apply Hok in Hfw as [F1 F2]; [|eapply utf8_slice; eauto].
    split; [lia|]. eapply window_boundary; eauto.
  - split; auto.
Qed.

Lemma re_find_both r : sane_find (re_find r) /\ utf8_find (re_find r).
Proof. split; [apply re_find_sane|apply re_find_utf8]. Qed.

Section Any.
  Variables (E : env) (P : parser) (m : matcher) (c : ctx) (s : sid) (st : state) (r : mres) (st' : state).
  Hypothesis HE : tame E.
  Hypothesis Hf : fitting (p_src P) (fun _ => True) (fun _ => True) sane_find E.
  Hypothesis Hl : slen (p_src P) < isize_bound.
  Hypothesis Hm : bounded (fun _ => True) sane_find m.
  Hypothesis Hs : scopes_bounded (fun _ => True) sane_find st.
  Hypothesis Hc : rs (c_off c) <= re (c_off c) <= slen (p_src P).
  Hypothesis H : Runs E P m c s st r st'.

  Lemma ranges_any : forall a, In a (result_tokens r) -> exists l, preorder st' [a] l /\ forall x, In x l ->
    rs (c_off c) <= rs (tk_mr (tok st' x)) /\ rs (tk_mr (tok st' x)) <= rs (tk_cr (tok st' x)) /\
    rs (tk_cr (tok st' x)) <= re (tk_cr (tok st' x)) /\ re (tk_cr (tok st' x)) <= re (tk_mr (tok st' x)) /\
    re (tk_mr (tok st' x)) <= re (c_off c).
  Proof.
    intros a Ha. pose proof (keeps_any _ _ _ _ _ _ _ _ HE Hf Hl Hm Hs Hc H) as Hr.
    destruct (result_trees _ _ _ _ _ Hr a Ha) as (l & Hp & Hx). exists l. split; [exact Hp|].
    intros x Hin. destruct (Hx x Hin) as [(T1 & T2 & T3 & _) _]. lia.
  Qed.
  Lemma monotone_any :
    (forall a, In a (result_tokens r) ->
       rs (c_off c) <= rs (tk_mr (tok st' a)) /\ rs (tk_mr (tok st' a)) <= re (tk_mr (tok st' a)) /\
       re (tk_mr (tok st' a)) <= re (c_off c)) /\
    (forall z, r = Ok (SSkip z) \/ (exists n, r = Ok (SBreak n (SSkip z)) \/ r = Ok (SContinue n (SSkip z))) ->
       (0 <= z)%Z /\ (Z.of_N (rs (c_off c)) + z <= Z.of_N (re (c_off c)))%Z).
  Proof.
    pose proof (keeps_any _ _ _ _ _ _ _ _ HE Hf Hl Hm Hs Hc H) as Hr. split.
    - intros a Ha. pose proof (result_trees _ _ _ _ _ Hr a Ha) as Ht. apply tree_root in Ht as [(T1 & T2 & T3 & _) _]. lia.
    - intros z Hz. assert (Hf' : success_fits (fun _ => True) (rs (c_off c)) (re (c_off c)) st' (SSkip z)).
      { destruct Hz as [->|(n & [->| ->])]; exact Hr. }
      destruct Hf' as (F1 & F2 & _). lia.
  Qed.
  Lemma order_any : forall a l x, In a (result_tokens r) -> preorder st' [a] l -> In x l -> kids_fit st' x.
  Proof.
    intros a l x Ha Hp Hx. pose proof (keeps_any _ _ _ _ _ _ _ _ HE Hf Hl Hm Hs Hc H) as Hr.
    destruct (result_trees _ _ _ _ _ Hr a Ha) as (l' & Hp' & Hx'). rewrite (preorder_det _ _ _ Hp _ Hp') in Hx.
    now apply Hx'.
  Qed.
End Any.

Lemma ranges_utf8 E P m c s st r st' : tame E -> utf8 (p_src P) ->
  fitting (p_src P) (char_boundary (p_src P)) utf8 utf8_find E -> slen (p_src P) < isize_bound ->
  bounded utf8 utf8_find m -> scopes_bounded utf8 utf8_find st ->
  sliceable (p_src P) (c_off c) ->
  Runs E P m c s st r st' ->
  result_fits (char_boundary (p_src P)) (rs (c_off c)) (re (c_off c)) st' r /\
  forall a, In a (result_tokens r) -> exists l, preorder st' [a] l /\ forall x, In x l ->
    sliceable (p_src P) (tk_mr (tok st' x)) /\ sliceable (p_src P) (tk_cr (tok st' x)).
Proof.
  intros HE Hu Hf Hl Hm Hs Hc H. pose proof (keeps_utf8 _ _ _ _ _ _ _ _ HE Hu Hf Hl Hm Hs Hc H) as Hr.
  split; [exact Hr|]. intros a Ha. destruct (result_trees _ _ _ _ _ Hr a Ha) as (l & Hp & Hx). exists l.
  split; [exact Hp|]. intros x Hin. destruct (Hx x Hin) as [(T1 & T2 & T3 & T4 & T5 & T6 & T7 & _) _].
  destruct Hc as (_ & Hc & _). unfold sliceable. repeat split; auto; lia.
Qed.
