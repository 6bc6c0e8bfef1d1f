(* Equals, Matches, Sequence (C07-C11). *)
From Verif Require Export Basics.
Open Scope string_scope.
Open Scope list_scope.
Open Scope N_scope.

Lemma dbg_quiet E P c n : c_debug c = 0 -> dbg E P c n = Val tt.
Proof. intros H. unfold dbg. now rewrite H. Qed.

Lemma has_prefix_iff p t : starts_with p t = true <-> has_prefix p t.
Proof. apply starts_with_iff. Qed.

Lemma set_stack_heap st s l : st_heap (set_stack st s l) = st_heap st.
Proof. reflexivity. Qed.

Lemma before_heap m s st : st_heap (before_exec m s st) = st_heap st.
Proof. unfold before_exec. destruct (m_custom m); reflexivity. Qed.
Lemma before_scopes m s st :
  st_scopes (before_exec m s st) = scopes_after st s (m_custom m) (m_name m) m.
Proof. unfold before_exec, scopes_after. destruct (m_custom m); reflexivity. Qed.
Lemma before_plain m s st : m_custom m = false -> before_exec m s st = st.
Proof. unfold before_exec. intros ->. reflexivity. Qed.

Lemma state_eta st : mkSt (st_heap st) (st_scopes st) = st.
Proof. now destruct st. Qed.

Lemma before_state m s st :
  before_exec m s st = mkSt (st_heap st) (scopes_after st s (m_custom m) (m_name m) m).
Proof. rewrite <- before_scopes, <- (before_heap m s st). symmetry. apply state_eta. Qed.

(* ---------- C07 ---------- *)

Lemma equals_found E P v name custom c s st rest :
  c_debug c = 0 -> sliceable (p_src P) (c_off c) -> v <> [] ->
  window (p_src P) (rs (c_off c)) (re (c_off c)) (v ++ rest) ->
  let m := MEquals (FStr v) name custom in
  exists t,
    Runs E P m c s st (Ok (SToken (List.length (st_heap st))))
         (mkSt (st_heap st ++ [t]) (scopes_after st s custom name m))
    /\ plain_token t name (mkR (rs (c_off c)) (rs (c_off c) + slen v))
    /\ (ascii_only (p_src P) -> tk_cvalue t = v /\ tk_mvalue t = v).
Proof.
  intros Hd Hs Hv W m. set (r := mkR (rs (c_off c)) (rs (c_off c) + slen v)).
  assert (Hm : matches_str P (clone_with_name c name) v = Val (Some r)).
  { apply matches_str_some. cbn [clone_with_name c_off]. split; [exact Hs|]. split; [exact Hv|]. eauto. }
  exists (std_token P name r). split; [|split].
  - exists 1%nat. cbn [exec step m fetch_value]. fold m. cbn [m_name m].
    rewrite Hm, dbg_quiet by assumption.
    unfold alloc, next_addr. rewrite before_heap, before_scopes. reflexivity.
  - unfold plain_token. cbn. auto 20.
  - intros Ha. cbn [std_token tk_cvalue tk_mvalue].
    assert (range_text P r = v) as ->; [|auto].
    apply range_text_ascii; [assumption|]. destruct W as (pre & post & W1 & W2 & W3).
    exists pre, (rest ++ post). rewrite <- app_assoc in W1. cbn. rewrite slen_app. repeat split; auto; lia.
Qed.

Lemma equals_not_found E P v name custom c s st :
  c_debug c = 0 -> sliceable (p_src P) (c_off c) ->
  v = [] \/ (~ exists rest, window (p_src P) (rs (c_off c)) (re (c_off c)) (v ++ rest)) ->
  let m := MEquals (FStr v) name custom in
  Runs E P m c s st (Err FFail) (mkSt (st_heap st) (scopes_after st s custom name m)).
Proof.
  intros Hd Hs Hv m.
  assert (Hm : matches_str P (clone_with_name c name) v = Val None).
  { apply matches_str_none. cbn. destruct Hv; auto. }
  exists 1%nat. cbn [exec step m fetch_value]. fold m. cbn [m_name m].
  rewrite Hm, dbg_quiet by assumption.
  rewrite before_state. reflexivity.
Qed.

Lemma equals_panics E P v name custom c s st :
  v <> [] -> ~ sliceable (p_src P) (c_off c) ->
  Panics E P (MEquals (FStr v) name custom) c s st PSlice.
Proof.
  intros Hv Hs. assert (Hm : matches_str P (clone_with_name c name) v = Die PSlice).
  { apply matches_str_die. auto. }
  exists 1%nat. cbn [exec step fetch_value m_name]. now rewrite Hm.
Qed.

(* ---------- C08 ---------- *)

Lemma matches_found E P f name custom c s st w n :
  sliceable (p_src P) (c_off c) ->
  window (p_src P) (rs (c_off c)) (re (c_off c)) w -> f w = Some (0, n) -> n <> 0 ->
  let m := MMatches f name custom in
  exists t,
    Runs E P m c s st (Ok (SToken (List.length (st_heap st))))
         (mkSt (st_heap st ++ [t]) (scopes_after st s custom name m))
    /\ plain_token t name (mkR (rs (c_off c)) (rs (c_off c) + n))
    /\ (ascii_only (p_src P) -> n <= slen w ->
        exists rest, w = tk_cvalue t ++ rest /\ slen (tk_cvalue t) = n /\ tk_mvalue t = tk_cvalue t).
Proof.
  intros Hs W Hf Hn m. set (r := mkR (rs (c_off c)) (rs (c_off c) + n)).
  assert (Hm : matches_regexp P (clone_with_name c name) f = Val (Some r)).
  { apply matches_regexp_some. cbn. split; [exact Hs|]. exists w, n. auto. }
  exists (std_token P name r). split; [|split].
  - exists 1%nat. cbn [exec step m]. fold m. cbn [m_name m]. rewrite Hm. cbn [rs re r].
    destruct (N.eqb_spec (rs (c_off c)) (rs (c_off c) + n)); [lia|].
    unfold alloc, next_addr. rewrite before_heap, before_scopes. reflexivity.
  - unfold plain_token. cbn. auto 20.
  - intros Ha Hl. cbn [std_token tk_cvalue tk_mvalue].
    destruct (split_at_N n w Hl) as (u & t & Ew & Lu). exists t.
    assert (range_text P r = u) as ->; [|auto].
    apply range_text_ascii; [assumption|]. destruct W as (pre & post & W1 & W2 & W3).
    exists pre, (t ++ post). rewrite Ew, <- app_assoc in W1. cbn. rewrite slen_app. repeat split; auto; lia.
Qed.

Lemma matches_empty E P f name custom c s st w :
  c_debug c = 0 -> sliceable (p_src P) (c_off c) ->
  window (p_src P) (rs (c_off c)) (re (c_off c)) w -> f w = Some (0, 0) ->
  let m := MMatches f name custom in
  Runs E P m c s st (Ok (SSkip 0)) (mkSt (st_heap st) (scopes_after st s custom name m)).
Proof.
  intros Hd Hs W Hf m.
  assert (Hm : matches_regexp P (clone_with_name c name) f
               = Val (Some (mkR (rs (c_off c)) (rs (c_off c) + 0)))).
  { apply matches_regexp_some. cbn. split; [exact Hs|]. exists w, 0. auto. }
  exists 1%nat. cbn [exec step m]. fold m. cbn [m_name m]. rewrite Hm. cbn [rs re].
  rewrite N.add_0_r, N.eqb_refl, dbg_quiet by assumption.
  rewrite before_state. reflexivity.
Qed.

Lemma matches_not_found E P f name custom c s st w :
  c_debug c = 0 -> sliceable (p_src P) (c_off c) ->
  window (p_src P) (rs (c_off c)) (re (c_off c)) w -> (forall n, f w <> Some (0, n)) ->
  let m := MMatches f name custom in
  Runs E P m c s st (Err FFail) (mkSt (st_heap st) (scopes_after st s custom name m)).
Proof.
  intros Hd Hs W Hf m.
  assert (Hm : matches_regexp P (clone_with_name c name) f = Val None).
  { apply matches_regexp_none. cbn. split; [exact Hs|]. intros w' W'.
    now rewrite (window_unique _ _ _ _ _ W' W). }
  exists 1%nat. cbn [exec step m]. fold m. cbn [m_name m]. rewrite Hm, dbg_quiet by assumption.
  rewrite before_state. reflexivity.
Qed.

(* ---------- C09: sequences ---------- *)

Lemma window_split s a b u v :
  window s a b (u ++ v) -> window s a (a + slen u) u /\ window s (a + slen u) b v.
Proof.
  intros (pre & post & E & L1 & L2). split.
  - exists pre, (v ++ post). rewrite slen_app. rewrite <- app_assoc in E. repeat split; auto; lia.
  - exists (pre ++ u), post. rewrite !slen_app in *. rewrite <- !app_assoc in *. repeat split; auto; lia.
Qed.

Lemma window_join s a b d u v : window s a b u -> window s b d v -> window s a d (u ++ v).
Proof.
  intros (pre & post & E & L1 & L2) (pre' & post' & E' & L1' & L2').
  assert (pre ++ u = pre' /\ post = v ++ post') as [E1 E2].
  { apply app_inj_len; [|rewrite L2, L1'; reflexivity]. rewrite <- app_assoc, <- E, <- E'. reflexivity. }
  subst pre' post. exists pre, post'. rewrite <- !app_assoc in *. auto.
Qed.

Lemma window_empty s a b : window s a b [] -> a = b.
Proof. intros W. apply window_len in W. rewrite slen_nil in W. lia. Qed.

Lemma matches_at_slice P c pat off t :
  window (p_src P) off (re (c_off c)) t -> t <> [] ->
  char_boundary (p_src P) off -> char_boundary (p_src P) (re (c_off c)) ->
  matches_str_at P c pat off
  = Val (if negb (slen pat =? 0) && starts_with pat t then Some (mkR off (off + slen pat)) else None).
Proof.
  intros W Ht B1 B2. unfold matches_str_at, src_slice.
  apply window_len in W as L. apply slen_pos in Ht.
  destruct (N.leb_spec (re (c_off c)) off); [lia|]. cbn [orb].
  destruct (slen pat =? 0); [reflexivity|].
  assert (slice (p_src P) off (re (c_off c)) = Some t) as -> by (apply slice_iff; auto).
  cbn. destruct (starts_with pat t); reflexivity.
Qed.

Section Scan.
  Variables (P : parser) (c : ctx) (ep esc : str).
  Hypothesis Hascii : ascii_only (p_src P).
  Hypothesis Hep : ep <> [].

  Lemma bnd s a : window (p_src P) a (re (c_off c)) s ->
    char_boundary (p_src P) a /\ char_boundary (p_src P) (re (c_off c)).
  Proof. intros W. apply window_len in W. split; apply ascii_boundary; auto; lia. Qed.

  Lemma pending prev index p :
    window (p_src P) prev index p ->
    (if prev <? index then src_slice P prev index else Val []) = Val p.
  Proof.
    intros W. apply window_len in W as L. destruct (N.ltb_spec prev index).
    - unfold src_slice. assert (slice (p_src P) prev index = Some p) as ->; [|reflexivity].
      apply slice_iff. repeat split; auto; apply ascii_boundary; auto; lia.
    - assert (p = []) as -> by (apply slen_0; lia). reflexivity.
  Qed.

  Lemma no_prefix p t : ~ has_prefix p t -> starts_with p t = false.
  Proof. rewrite <- has_prefix_iff. destruct (starts_with p t); congruence. Qed.

  Lemma seq_scan_found text raw v : scans ep esc text raw v ->
    forall f index prev p parts,
    (List.length text < f)%nat ->
    window (p_src P) index (re (c_off c)) text -> window (p_src P) prev index p ->
    seq_scan f P c ep esc index prev parts = Val (Found (index + slen raw) (parts ++ p ++ v)).
  Proof.
    assert (Hne : forall t, ep ++ t <> []) by (intros t H; apply app_eq_nil in H as [H _]; auto).
    induction 1 as [t|x t raw v Hp He Hs IH|x t raw v Hp He Hs IH]; intros f index prev p parts Hf W Wp.
    - destruct f as [|f]; [lia|]. cbn [seq_scan]. apply window_len in W as L.
      assert (0 < slen (ep ++ t)) by (apply slen_pos; auto).
      destruct (N.leb_spec (re (c_off c)) index); [lia|].
      destruct (bnd _ _ W) as [B1 B2]. rewrite (matches_at_slice P c ep index (ep ++ t)) by auto.
      apply slen_pos in Hep. destruct (N.eqb_spec (slen ep) 0); [lia|].
      rewrite starts_with_app. cbn [negb andb]. rewrite (pending _ _ _ Wp).
      rewrite slen_nil, N.add_0_r, app_nil_r. reflexivity.
    - destruct f as [|f]; [lia|]. cbn [seq_scan]. apply window_len in W as L.
      rewrite slen_app, slen_cons in L.
      destruct (N.leb_spec (re (c_off c)) index); [lia|].
      destruct (bnd _ _ W) as [B1 B2].
      assert (esc ++ x :: t <> []) by (intros X; apply app_eq_nil in X as [X _]; auto).
      rewrite (matches_at_slice P c ep index (esc ++ x :: t)) by auto.
      rewrite (no_prefix _ _ Hp), andb_false_r.
      rewrite (matches_at_slice P c esc index (esc ++ x :: t)) by auto.
      apply slen_pos in He as Le. destruct (N.eqb_spec (slen esc) 0); [lia|].
      rewrite starts_with_app. cbn [negb andb]. rewrite (pending _ _ _ Wp). cbn [re].
      apply window_split in W as [W1 W2]. change (x :: t) with ([x] ++ t) in W2.
      apply window_split in W2 as [W2 W3]. rewrite (slen_cons x []), slen_nil in W2, W3.
      rewrite (IH f (index + slen esc + 1) (index + slen esc) [x] (parts ++ p)).
      + rewrite slen_app, slen_cons. f_equal. f_equal; [lia|]. rewrite <- !app_assoc. reflexivity.
      + rewrite app_length in Hf. cbn [List.length] in Hf. lia.
      + replace (index + slen esc + 1) with (index + slen esc + (1 + 0)) by lia. exact W3.
      + replace (index + slen esc + 1) with (index + slen esc + (1 + 0)) by lia. exact W2.
    - destruct f as [|f]; [lia|]. cbn [seq_scan]. apply window_len in W as L.
      rewrite slen_cons in L.
      destruct (N.leb_spec (re (c_off c)) index); [lia|].
      destruct (bnd _ _ W) as [B1 B2].
      rewrite (matches_at_slice P c ep index (x :: t)) by (auto; discriminate).
      rewrite (no_prefix _ _ Hp), andb_false_r.
      rewrite (matches_at_slice P c esc index (x :: t)) by (auto; discriminate).
      assert (negb (slen esc =? 0) && starts_with esc (x :: t) = false) as ->.
      { destruct (N.eqb_spec (slen esc) 0) as [|Hn]; [reflexivity|]. cbn [negb andb].
        apply no_prefix, He. intros ->. now rewrite slen_nil in Hn. }
      change (x :: t) with ([x] ++ t) in W. apply window_split in W as [W1 W2].
      rewrite (slen_cons x []), slen_nil in W1, W2.
      rewrite (IH f (index + 1) prev (p ++ [x]) parts).
      + rewrite slen_cons. f_equal. f_equal; [lia|]. rewrite <- !app_assoc. reflexivity.
      + cbn [List.length] in Hf. lia.
      + replace (index + 1) with (index + (1 + 0)) by lia. exact W2.
      + eapply window_join; [exact Wp|]. replace (index + 1) with (index + (1 + 0)) by lia. exact W1.
  Qed.

  Lemma seq_scan_end f index prev parts :
    (0 < f)%nat -> re (c_off c) <= index ->
    seq_scan f P c ep esc index prev parts = Val NotFound.
  Proof.
    intros Hf H. destruct f as [|f]; [lia|]. cbn [seq_scan].
    destruct (N.leb_spec (re (c_off c)) index); [reflexivity|lia].
  Qed.

  Lemma seq_scan_not_found : forall n text, (List.length text <= n)%nat ->
    (forall raw v, ~ scans ep esc text raw v) ->
    forall f index prev p parts,
    (List.length text < f)%nat ->
    window (p_src P) index (re (c_off c)) text -> window (p_src P) prev index p ->
    seq_scan f P c ep esc index prev parts = Val NotFound.
  Proof.
    induction n as [|n IH]; intros text Hn Hno f index prev p parts Hf W Wp.
    { destruct text; [|cbn in Hn; lia]. apply window_empty in W.
      apply seq_scan_end; [cbn in Hf; lia|lia]. }
    destruct text as [|x t].
    { apply window_empty in W. apply seq_scan_end; [cbn in Hf; lia|lia]. }
    destruct f as [|f]; [lia|]. cbn [seq_scan]. apply window_len in W as L.
    destruct (N.leb_spec (re (c_off c)) index); [reflexivity|].
    destruct (bnd _ _ W) as [B1 B2].
    rewrite (matches_at_slice P c ep index (x :: t)) by (auto; discriminate).
    assert (~ has_prefix ep (x :: t)) as Hp.
    { intros [u Hu]. rewrite Hu in Hno. eapply Hno. constructor. }
    rewrite (no_prefix _ _ Hp), andb_false_r.
    rewrite (matches_at_slice P c esc index (x :: t)) by (auto; discriminate).
    destruct (N.eqb_spec (slen esc) 0) as [E0|E0]; cbn [negb andb].
    - change (x :: t) with ([x] ++ t) in W. apply window_split in W as [W1 W2].
      rewrite (slen_cons x []), slen_nil in W1, W2.
      cbn [List.length] in *. eapply (IH t) with (p := p ++ [x]); try lia.
      + intros raw v Hs. apply (Hno (x :: raw) (x :: v)). constructor; auto.
        intros X. exfalso. apply X, slen_0, E0.
      + replace (index + 1) with (index + (1 + 0)) by lia. exact W2.
      + eapply window_join; [exact Wp|]. replace (index + 1) with (index + (1 + 0)) by lia. exact W1.
    - destruct (starts_with esc (x :: t)) eqn:Es.
      + rewrite (pending _ _ _ Wp). cbn [re]. apply has_prefix_iff in Es as [u Eu].
        destruct u as [|y u].
        * apply seq_scan_end; [cbn [List.length] in Hf; lia|]. rewrite Eu, app_nil_r in L. lia.
        * rewrite Eu in *. apply window_split in W as [W1 W2]. change (y :: u) with ([y] ++ u) in W2.
          apply window_split in W2 as [W2 W3]. rewrite (slen_cons y []), slen_nil in W2, W3.
          rewrite app_length in *. cbn [List.length] in *.
          eapply (IH u) with (p := [y]); try lia.
          -- intros raw v Hs. apply (Hno (esc ++ y :: raw) (y :: v)). constructor; auto.
             intros ->. now rewrite slen_nil in E0.
          -- replace (index + slen esc + 1) with (index + slen esc + (1 + 0)) by lia. exact W3.
          -- replace (index + slen esc + 1) with (index + slen esc + (1 + 0)) by lia. exact W2.
      + change (x :: t) with ([x] ++ t) in W. apply window_split in W as [W1 W2].
        rewrite (slen_cons x []), slen_nil in W1, W2.
        cbn [List.length] in *. eapply (IH t) with (p := p ++ [x]); try lia.
        * intros raw v Hs. apply (Hno (x :: raw) (x :: v)). constructor; auto.
          intros _ X. apply has_prefix_iff in X. congruence.
        * replace (index + 1) with (index + (1 + 0)) by lia. exact W2.
        * eapply window_join; [exact Wp|]. replace (index + 1) with (index + (1 + 0)) by lia. exact W1.
  Qed.
End Scan.

(* the scan never runs out of fuel, whatever the source *)
Lemma seq_scan_fuel P c ep esc : forall f index prev parts,
  (N.to_nat (re (c_off c) - index) < f)%nat ->
  seq_scan f P c ep esc index prev parts <> Val ScanFuel.
Proof.
  induction f as [|f IH]; intros index prev parts Hf; [lia|]. cbn [seq_scan].
  destruct (N.leb_spec (re (c_off c)) index); [discriminate|].
  destruct (matches_str_at P c ep index) as [[r|]|p]; [| |discriminate].
  - destruct (if prev <? index then src_slice P prev index else Val []); discriminate.
  - destruct (matches_str_at P c esc index) as [[r|]|p] eqn:Er; [| |discriminate].
    + destruct (if prev <? index then src_slice P prev index else Val []); [|discriminate].
      apply IH. unfold matches_str_at in Er.
      destruct (_ || _); [discriminate|]. destruct (src_slice P index (re (c_off c))); [|discriminate].
      destruct (starts_with _ _); [|discriminate]. injection Er as <-. cbn [re]. lia.
    + apply IH. lia.
Qed.

Lemma matches_str_slice P c pat w :
  slice (p_src P) (rs (c_off c)) (re (c_off c)) = Some w -> pat <> [] ->
  matches_str P c pat = Val (if starts_with pat w then Some (clone_with_len (c_off c) (slen pat)) else None).
Proof.
  intros H Hn. unfold matches_str, src_slice. rewrite H. apply slen_pos in Hn.
  destruct (N.eqb_spec (slen pat) 0); [lia|]. cbn. now destruct (starts_with pat w).
Qed.

Lemma src_length_window P a b w : window (p_src P) a b w -> (List.length w <= List.length (p_src P))%nat.
Proof. intros (pre & post & -> & _). rewrite !app_length. lia. Qed.

Lemma sequence_token E P sp ep esc name custom c s st text raw v :
  ascii_only (p_src P) -> c_debug c = 0 -> sp <> [] -> ep <> [] ->
  window (p_src P) (rs (c_off c)) (re (c_off c)) (sp ++ text) ->
  scans ep esc text raw v ->
  let m := MSequence (FStr sp) (FStr ep) (FStr esc) name custom in
  let inner := rs (c_off c) + slen sp in
  exists t,
    Runs E P m c s st (Ok (SToken (List.length (st_heap st))))
         (mkSt (st_heap st ++ [t]) (scopes_after st s custom name m))
    /\ tk_name t = name
    /\ tk_mr t = mkR (rs (c_off c)) (inner + slen raw + slen ep)
    /\ tk_cr t = mkR inner (inner + slen raw)
    /\ get_value t = v /\ tk_cvalue t = raw /\ tk_mvalue t = sp ++ raw ++ ep
    /\ tk_kind t = KStandard /\ tk_kids t = [] /\ tk_parent t = None /\ tk_flags t = 0
    /\ tk_attrs t = [(lit "__value", v)] /\ tk_value t = None.
Proof.
  intros Ha Hd Hsp Hep W Hsc m inner.
  assert (Hs : slice (p_src P) (rs (c_off c)) (re (c_off c)) = Some (sp ++ text)).
  { apply slice_iff. apply window_len in W as L. repeat split; auto; apply ascii_boundary; auto; lia. }
  assert (Hm : matches_str P (clone_with_name c name) sp = Val (Some (clone_with_len (c_off c) (slen sp)))).
  { rewrite (matches_str_slice _ _ _ (sp ++ text)); auto. cbn. now rewrite starts_with_app. }
  pose proof (window_split _ _ _ _ _ W) as [Wsp Wt].
  assert (Hrun : seq_scan (S (List.length (p_src P))) P (clone_with_name c name) ep esc inner inner []
                 = Val (Found (inner + slen raw) ([] ++ [] ++ v))).
  { apply (seq_scan_found P (clone_with_name c name) ep esc Ha Hep text raw v Hsc).
    - apply src_length_window in Wt. lia.
    - exact Wt.
    - destruct Wt as (pre & post & Wt1 & Wt2 & Wt3). exists pre, (text ++ post).
      rewrite app_nil_r. auto. }
  cbn [app] in Hrun.
  assert (Htext : exists rest, text = raw ++ ep ++ rest).
  { clear - Hsc. induction Hsc as [t|x t raw v Hp He Hs [r IH]|x t raw v Hp He Hs [r IH]].
    - now exists t.
    - exists r. rewrite IH, <- app_assoc. reflexivity.
    - exists r. now rewrite IH. }
  destruct Htext as [rest Htext].
  set (t := set_attr "__value" v (std_token2 P name (mkR inner (inner + slen raw))
             (mkR (rs (c_off c)) (inner + slen raw + slen ep)))).
  exists t. split.
  - exists 1%nat. cbn [exec step m]. fold m. unfold exec_sequence. cbn [fetch_value].
    apply slen_pos in Hsp as Lsp. apply slen_pos in Hep as Lep.
    destruct (N.eqb_spec (slen sp) 0); [lia|]. destruct (N.eqb_spec (slen ep) 0); [lia|].
    rewrite Hm. cbn [clone_with_len re]. cbn [clone_with_name c_off]. fold inner.
    unfold clone_with_len. cbn [re]. fold inner.
    change (mkCtx _ _ _ _ _) with (clone_with_name c name). rewrite Hrun.
    rewrite dbg_quiet by assumption. unfold alloc, next_addr.
    rewrite before_heap, before_scopes. reflexivity.
  - cbn [t set_attr std_token2 tk_name tk_mr tk_cr tk_cvalue tk_mvalue tk_kind tk_kids tk_parent tk_flags tk_attrs tk_value].
    split; [reflexivity|]. split; [reflexivity|]. split; [reflexivity|].
    split; [unfold get_value, get_attr; cbn; reflexivity|].
    rewrite Htext in W. destruct W as (pre & post & W1 & W2 & W3).
    split; [|split; [|auto 10]].
    + apply range_text_ascii; [assumption|]. cbn [rs re].
      exists (pre ++ sp), (ep ++ rest ++ post). rewrite !slen_app, W2. unfold inner.
      split; [rewrite W1, <- !app_assoc; reflexivity|lia].
    + apply range_text_ascii; [assumption|]. cbn [rs re].
      exists pre, (rest ++ post). rewrite !slen_app, W2. unfold inner.
      split; [rewrite W1, <- !app_assoc; reflexivity|lia].
Qed.
Lemma sequence_found E P sp ep esc name custom c s st text raw v :
  ascii_only (p_src P) -> c_debug c = 0 -> sp <> [] -> ep <> [] ->
  window (p_src P) (rs (c_off c)) (re (c_off c)) (sp ++ text) ->
  scans ep esc text raw v ->
  let m := MSequence (FStr sp) (FStr ep) (FStr esc) name custom in
  let inner := rs (c_off c) + slen sp in
  exists t,
    Runs E P m c s st (Ok (SToken (List.length (st_heap st))))
         (mkSt (st_heap st ++ [t]) (scopes_after st s custom name m))
    /\ tk_name t = name
    /\ tk_mr t = mkR (rs (c_off c)) (inner + slen raw + slen ep)
    /\ tk_cr t = mkR inner (inner + slen raw)
    /\ get_value t = v /\ tk_cvalue t = raw /\ tk_mvalue t = sp ++ raw ++ ep
    /\ tk_kind t = KStandard /\ tk_kids t = [] /\ tk_parent t = None /\ tk_flags t = 0.
Proof.
  intros Ha Hd Hsp Hep W Hsc m inner.
  destruct (sequence_token E P sp ep esc name custom c s st text raw v Ha Hd Hsp Hep W Hsc)
    as (t & T1 & T2 & T3 & T4 & T5 & T6 & T7 & T8 & T9 & T10 & T11 & _).
  exists t. auto 12.
Qed.

Lemma sequence_not_found E P sp ep esc name custom c s st w :
  ascii_only (p_src P) -> c_debug c = 0 -> sp <> [] -> ep <> [] ->
  window (p_src P) (rs (c_off c)) (re (c_off c)) w ->
  (forall text raw v, w = sp ++ text -> ~ scans ep esc text raw v) ->
  let m := MSequence (FStr sp) (FStr ep) (FStr esc) name custom in
  Runs E P m c s st (Err FFail) (mkSt (st_heap st) (scopes_after st s custom name m)).
Proof.
  intros Ha Hd Hsp Hep W Hno m.
  assert (Hs : slice (p_src P) (rs (c_off c)) (re (c_off c)) = Some w).
  { apply slice_iff. apply window_len in W as L. repeat split; auto; apply ascii_boundary; auto; lia. }
  assert (Hst : mkSt (st_heap st) (scopes_after st s custom name m) = before_exec m s st).
  { rewrite before_state. reflexivity. }
  exists 1%nat. cbn [exec step m]. fold m. unfold exec_sequence. cbn [fetch_value].
  apply slen_pos in Hsp as Lsp. apply slen_pos in Hep as Lep.
  destruct (N.eqb_spec (slen sp) 0); [lia|]. destruct (N.eqb_spec (slen ep) 0); [lia|].
  rewrite (matches_str_slice P (clone_with_name c name) sp w Hs Hsp).
  destruct (starts_with sp w) eqn:Esp.
  - apply has_prefix_iff in Esp as [text ->]. cbn [clone_with_name c_off clone_with_len re].
    pose proof (window_split _ _ _ _ _ W) as [Wsp Wt].
    change (mkCtx _ _ _ _ _) with (clone_with_name c name).
    erewrite (seq_scan_not_found P (clone_with_name c name) ep esc Ha (List.length text) text) with (p := []).
    + rewrite dbg_quiet by assumption. now rewrite Hst.
    + lia.
    + intros raw v. now apply Hno.
    + apply src_length_window in Wt. lia.
    + exact Wt.
    + destruct Wt as (pre & post & Wt1 & Wt2 & Wt3). exists pre, (text ++ post).
      rewrite app_nil_r. auto.
  - rewrite dbg_quiet by assumption. now rewrite Hst.
Qed.

(* ---------- C10 ---------- *)

Lemma quoted_scans q e : q <> e -> forall s rest,
  scans [q] [e] (flat_map (fun x => if Ascii.eqb x q || Ascii.eqb x e then [e; x] else [x]) s ++ q :: rest)
        (flat_map (fun x => if Ascii.eqb x q || Ascii.eqb x e then [e; x] else [x]) s) s.
Proof.
  intros Hqe. induction s as [|x s IH]; intros rest; cbn [flat_map app].
  - apply (scan_end [q] [e] rest).
  - destruct (Ascii.eqb_spec x q) as [->|Hq]; [|destruct (Ascii.eqb_spec x e) as [->|He]]; cbn [orb app].
    + apply (scan_escape [q] [e] q); [|discriminate|apply IH].
      intros [t H]. injection H as H _. congruence.
    + apply (scan_escape [q] [e] e); [|discriminate|apply IH].
      intros [t H]. injection H as H _. congruence.
    + apply scan_byte; [| |apply IH].
      * intros [t H]. injection H as H _. congruence.
      * intros _ [t H]. injection H as H _. congruence.
Qed.

Lemma quoted_round_trip E P q e text name custom c s st pre post mid :
  ascii_only (p_src P) -> c_debug c = 0 -> q <> e ->
  p_src P = pre ++ quoted q e text ++ mid ++ post ->
  c_off c = mkR (slen pre) (slen (pre ++ quoted q e text ++ mid)) ->
  let m := MSequence (FStr [q]) (FStr [q]) (FStr [e]) name custom in
  exists t,
    Runs E P m c s st (Ok (SToken (List.length (st_heap st))))
         (mkSt (st_heap st ++ [t]) (scopes_after st s custom name m))
    /\ get_value t = text
    /\ tk_mr t = mkR (slen pre) (slen pre + slen (quoted q e text))
    /\ tk_mvalue t = quoted q e text.
Proof.
  intros Ha Hd Hqe Hsrc Hoff m.
  set (raw := flat_map (fun x => if Ascii.eqb x q || Ascii.eqb x e then [e; x] else [x]) text).
  assert (Hq : quoted q e text = [q] ++ raw ++ [q]) by reflexivity.
  destruct (sequence_found E P [q] [q] [e] name custom c s st (raw ++ q :: mid) raw text)
    as (t & Hr & Hn & Hmr & Hcr & Hv & Hcv & Hmv & _); auto; try discriminate.
  - rewrite Hoff. cbn [rs re]. exists pre, post. split; [|split; [reflexivity|]].
    + rewrite Hsrc, Hq. rewrite <- !app_assoc. cbn [app]. reflexivity.
    + f_equal. rewrite Hq, <- !app_assoc. reflexivity.
  - now apply quoted_scans.
  - exists t. split; [exact Hr|]. split; [exact Hv|]. rewrite Hoff in *. cbn [rs re] in *.
    split; [|rewrite Hmv, Hq; reflexivity].
    rewrite Hmr, Hq, !slen_app. f_equal. lia.
Qed.

(* ---------- C11 ---------- *)

Lemma seq_scan_panics P c ep esc text y t : ep <> [] ->
  passes ep esc text (y :: t) -> continuation y ->
  forall f index prev parts,
  (List.length text < f)%nat -> 0 < index -> prev <= index ->
  window (p_src P) index (re (c_off c)) text ->
  seq_scan f P c ep esc index prev parts = Die PSlice.
Proof.
  intros Hep Hpass Hy. remember (y :: t) as u eqn:Eu.
  induction Hpass as [u|x u v Hp He Hs IH|x u v Hp He Hs IH]; intros f index prev parts Hf Hi Hprev W;
    destruct f as [|f]; try lia; cbn [seq_scan]; apply window_len in W as L.
  - subst u. rewrite slen_cons in L.
    destruct (N.leb_spec (re (c_off c)) index); [lia|].
    unfold matches_str_at. destruct (N.leb_spec (re (c_off c)) index); [lia|]. cbn [orb].
    apply slen_pos in Hep. destruct (N.eqb_spec (slen ep) 0); [lia|].
    unfold src_slice. assert (slice (p_src P) index (re (c_off c)) = None) as ->; [|reflexivity].
    apply slice_none. intros (_ & _ & B & _). cbn [rs] in B.
    destruct B as [B|(pre & post & Ep & Lp & B)]; [lia|].
    destruct W as (pre' & post' & W1 & W2 & W3). rewrite Ep in W1.
    apply app_inj_len in W1 as [-> ->]; [|lia]. cbn [app] in B. contradiction.
  - assert (esc ++ x :: u <> []) by (intros X; apply app_eq_nil in X as [X _]; auto).
    assert (0 < slen (esc ++ x :: u)) by now apply slen_pos.
    destruct (N.leb_spec (re (c_off c)) index); [lia|].
    unfold matches_str_at. destruct (N.leb_spec (re (c_off c)) index); [lia|]. cbn [orb].
    apply slen_pos in Hep. destruct (N.eqb_spec (slen ep) 0); [lia|].
    unfold src_slice at 1. destruct (slice (p_src P) index (re (c_off c))) as [w|] eqn:Es; [|reflexivity].
    cbn [or_die]. assert (w = esc ++ x :: u) as ->.
    { apply slice_iff in Es as [W' _]. eapply window_unique; eauto. }
    rewrite (no_prefix _ _ Hp).
    apply slen_pos in He as Le. destruct (N.eqb_spec (slen esc) 0); [lia|].
    unfold src_slice at 1. rewrite Es. cbn [or_die]. rewrite starts_with_app. cbn [re].
    destruct (if prev <? index then src_slice P prev index else Val []) as [part|p] eqn:Ep.
    + change (x :: u) with ([x] ++ u) in W. rewrite app_assoc in W. apply window_split in W as [_ W].
      rewrite slen_app, (slen_cons x []), slen_nil in W.
      apply IH; auto; try lia.
      * rewrite app_length in Hf. cbn [List.length] in Hf. lia.
      * replace (index + slen esc + 1) with (index + (slen esc + (1 + 0))) by lia. exact W.
    + destruct (prev <? index); [|discriminate]. unfold src_slice in Ep.
      revert Ep. destruct (slice _ prev index); [discriminate|]. unfold or_die. congruence.
  - rewrite slen_cons in L. destruct (N.leb_spec (re (c_off c)) index); [lia|].
    unfold matches_str_at. destruct (N.leb_spec (re (c_off c)) index); [lia|]. cbn [orb].
    apply slen_pos in Hep. destruct (N.eqb_spec (slen ep) 0); [lia|].
    unfold src_slice at 1. destruct (slice (p_src P) index (re (c_off c))) as [w|] eqn:Es; [|reflexivity].
    cbn [or_die]. assert (w = x :: u) as ->.
    { apply slice_iff in Es as [W' _]. eapply window_unique; eauto. }
    rewrite (no_prefix _ _ Hp).
    change (x :: u) with ([x] ++ u) in W. apply window_split in W as [_ W].
    rewrite (slen_cons x []), slen_nil in W.
    assert (seq_scan f P c ep esc (index + 1) prev parts = Die PSlice) as Hgo.
    { cbn [List.length] in Hf. apply IH; auto; lia. }
    destruct (N.eqb_spec (slen esc) 0) as [E0|E0]; [exact Hgo|].
    unfold src_slice at 1. rewrite Es. cbn [or_die].
    rewrite no_prefix; [exact Hgo|]. apply He. intros ->. now rewrite slen_nil in E0.
Qed.

Lemma sequence_panics E P sp ep esc name custom c s st text y t :
  sp <> [] -> ep <> [] -> sliceable (p_src P) (c_off c) ->
  window (p_src P) (rs (c_off c)) (re (c_off c)) (sp ++ text) ->
  passes ep esc text (y :: t) -> continuation y ->
  Panics E P (MSequence (FStr sp) (FStr ep) (FStr esc) name custom) c s st PSlice.
Proof.
  intros Hsp Hep Hsl W Hp Hy.
  assert (Hs : slice (p_src P) (rs (c_off c)) (re (c_off c)) = Some (sp ++ text)).
  { apply slice_iff. split; [exact W|]. destruct Hsl as (_ & _ & B1 & B2). auto. }
  exists 1%nat. cbn [exec step]. unfold exec_sequence. cbn [fetch_value].
  apply slen_pos in Hsp as Lsp. apply slen_pos in Hep as Lep.
  destruct (N.eqb_spec (slen sp) 0); [lia|]. destruct (N.eqb_spec (slen ep) 0); [lia|].
  rewrite (matches_str_slice P (clone_with_name c name) sp (sp ++ text) Hs Hsp).
  rewrite starts_with_app. cbn [clone_with_name c_off clone_with_len re].
  pose proof (window_split _ _ _ _ _ W) as [Wsp Wt].
  change (mkCtx _ _ _ _ _) with (clone_with_name c name).
  rewrite (seq_scan_panics P (clone_with_name c name) ep esc text y t); auto; try lia.
  apply src_length_window in Wt. lia.
Qed.

Lemma sequence_empty_start E P fe fx name custom c s st :
  Panics E P (MSequence (FStr []) fe fx name custom) c s st
         (PMessage "Sequence `start` pattern of """" makes no sense").
Proof. exists 1%nat. reflexivity. Qed.

Lemma sequence_empty_end E P sp fx name custom c s st : sp <> [] ->
  Panics E P (MSequence (FStr sp) (FStr []) fx name custom) c s st
         (PMessage "Sequence `end` pattern of """" makes no sense").
Proof.
  intros H. exists 1%nat. cbn [exec step]. unfold exec_sequence. cbn [fetch_value].
  apply slen_pos in H. destruct (N.eqb_spec (slen sp) 0); [lia|]. reflexivity.
Qed.
