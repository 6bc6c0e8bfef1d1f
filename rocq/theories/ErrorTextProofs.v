(* The text of an error, also when its place ends before it begins. *)
From Verif Require Import TextProofs.
From Coq Require Import Sorted.
Open Scope string_scope.
Open Scope list_scope.
Open Scope N_scope.

Lemma columns_any r : forall l ln fc lc,
  StronglySorted N.lt l -> (forall e, In e l -> ln < e <= re r) ->
  ln <= rs r \/ fc <> 0 ->
  exists ln' fc',
    columns_loop r l ln fc lc = (ln', fc', lc) /\
    (ln' = ln /\ l = [] \/ In ln' l) /\ (forall e, In e l -> e <= ln') /\ ln <= ln' /\
    (fc <> 0 -> fc' = fc) /\
    (fc = 0 ->
       (fc' = 0 /\ ln' <= rs r) \/
       (rs r < ln' /\ exists k, fc' = (rs r - k) + 1 /\ k <= rs r /\ (k = ln \/ In k l)
                    /\ forall e, In e l -> e <= rs r -> e <= k)).
Proof.
  induction l as [|e l IH]; intros ln fc lc Hs He Hln; cbn [columns_loop].
  - exists ln, fc. split; [reflexivity|]. split; [auto|]. split; [easy|]. split; [lia|].
    split; [auto|]. intros ->. left. split; [reflexivity|]. destruct Hln; [lia|congruence].
  - inversion Hs as [|e' l' Hs' Hlt]; subst. rewrite Forall_forall in Hlt.
    assert (He0 := He e (or_introl eq_refl)).
    destruct (N.ltb_spec (re r) e); [lia|].
    set (fc1 := if (fc =? 0) && (rs r <? e) then rs r - ln + 1 else fc).
    destruct (IH e fc1 lc) as (ln' & fc' & E1 & E2 & E3 & E4 & E5 & E6); auto.
    { intros x Hx. specialize (Hlt x Hx). specialize (He x (or_intror Hx)). lia. }
    { unfold fc1. destruct (N.eqb_spec fc 0); cbn [andb]; [|right; auto].
      destruct (N.ltb_spec (rs r) e); [right; lia|left; lia]. }
    exists ln', fc'. split; [exact E1|].
    split. { right. destruct E2 as [[-> _]|E2]; [now left|now right]. }
    split. { intros x [<-|Hx]; [lia|auto]. }
    split; [lia|]. split.
    + intros Hfc. rewrite E5; unfold fc1; destruct (N.eqb_spec fc 0); try easy.
    + intros ->. unfold fc1 in *. cbn [N.eqb andb] in *.
      destruct (N.ltb_spec (rs r) e) as [Hlt2|Hge].
      * right. rewrite E5 by lia. split; [lia|]. exists ln.
        destruct Hln; [|congruence]. repeat split; auto.
        intros x [<-|Hx] Hle; [lia|]. specialize (Hlt x Hx); lia.
      * destruct (E6 eq_refl) as [[H1 H2]|(H1 & k & H2 & H3 & H4 & H5)]; [left; auto|].
        right. split; [exact H1|]. exists k. repeat split; auto.
        -- destruct H4 as [->|H4]; right; [now left|now right].
        -- intros x [<-|Hx] Hle; [|auto]. destruct H4 as [->|H4]; [lia|]. specialize (Hlt _ H4); lia.
Qed.

Lemma get_columns_any E P r :
  sliceable (p_src P) (mkR 0 (re r)) -> rs r < usize_max -> re r < usize_max ->
  exists b ls le,
    window (p_src P) 0 (re r) b /\ line_start b (rs r) ls /\ line_start b (re r) le /\
    get_columns E P r = Val (rs r - ls + 1, N.max (rs r - ls + 1) (re r - le + 1)).
Proof.
  intros Hs Hm0 Hm. destruct (sliceable_slice _ _ Hs) as (b & Eb & Wb). cbn [rs re] in *.
  assert (slen b = re r) as Lb by (apply window_len in Wb; lia).
  destruct (newline_ends_facts b) as [Ss Si].
  destruct (columns_any r (newline_ends 0 b) 0 0 0 Ss) as (ln & fc & E1 & E2 & E3 & E4 & _ & E6).
  { intros e He. apply Si in He as (i & Hi & ->). apply ends_line_lt in Hi. lia. }
  { left; lia. }
  specialize (E6 eq_refl).
  set (k := if rs r <? ln then rs r + 1 - fc else ln).
  assert (Hk : line_start b (rs r) k /\ (rs r < ln -> fc = rs r - k + 1) /\ (ln <= rs r -> fc = 0 /\ k = ln)).
  { unfold k. destruct E6 as [[-> H]|(H & k' & -> & Hk1 & Hk2 & Hk3)].
    - destruct (N.ltb_spec (rs r) ln); [lia|]. split; [|split; [lia|auto]].
      split; [lia|]. split.
      + destruct E2 as [[-> _]|E2]; [now left|]. right. now apply Si.
      + intros i Hi Hle. apply E3, Si. eauto.
    - destruct (N.ltb_spec (rs r) ln); [|lia]. replace (rs r + 1 - (rs r - k' + 1)) with k' by lia.
      split; [|split; [auto|lia]]. split; [lia|]. split.
      + destruct Hk2 as [->|Hk2]; [now left|]. right. now apply Si.
      + intros i Hi Hle. apply Hk3; [|exact Hle]. apply Si. eauto. }
  destruct Hk as (Hk & Hk1 & Hk2).
  assert (Hln : line_start b (re r) ln /\ ln <= re r).
  { assert (ln <= re r).
    { destruct E2 as [[-> _]|E2]; [lia|]. apply Si in E2 as (i & Hi & ->). apply ends_line_lt in Hi. lia. }
    split; [|assumption]. split; [assumption|]. split.
    - destruct E2 as [[-> _]|E2]; [now left|]. right. now apply Si.
    - intros i Hi Hle. apply E3, Si. eauto. }
  destruct Hln as [Hln Hln'].
  exists b, k, ln. do 3 (split; [assumption|]).
  unfold get_columns, src_slice. rewrite Eb. cbn [or_die]. rewrite E1.
  assert (Hadd : forall x, x < usize_max -> usize_add (e_checks E) x 1 = Some (x + 1)).
  { intros x Hx. unfold usize_add. destruct (N.leb_spec (x + 1) usize_max); [reflexivity|lia]. }
  assert (Hif : forall x, (if ln =? 0 then x else x - ln) = x - ln).
  { intros x. destruct (N.eqb_spec ln 0) as [->|]; lia. }
  rewrite !Hif. rewrite (Hadd (re r - ln)) by lia. cbn [N.eqb or_die].
  assert (Hfc : (if fc =? 0 then or_die POverflow (usize_add (e_checks E) (rs r - ln) 1) else Val fc)
                = Val (rs r - k + 1)).
  { destruct (N.lt_ge_cases (rs r) ln) as [H|H].
    - rewrite (Hk1 H). destruct (N.eqb_spec (rs r - k + 1) 0); [lia|reflexivity].
    - destruct (Hk2 H) as [-> ->]. cbn [N.eqb]. rewrite Hadd by lia. reflexivity. }
  rewrite Hfc. f_equal. f_equal.
  destruct (N.ltb_spec (re r - ln + 1) (rs r - k + 1)); lia.
Qed.

Lemma error_string_any E P msg r : sliceable (p_src P) (mkR 0 (rs r)) -> sliceable (p_src P) (mkR 0 (re r)) -> rs r < usize_max -> re r < usize_max ->
  exists text, error_text P msg r text /\ error_string E P msg r = Val text.
Proof.
  intros Ha Hb Hn Hm.
  destruct (get_lines_spec P r Ha Hb) as (a & b & la & lb & Wa & Wb & La & Lb & EL).
  destruct (get_columns_any E P r) as (b' & ls & le & Wb' & Ls & Le & EC); auto.
  assert (b' = b) as -> by (eapply window_unique; eauto).
  eexists. split.
  - exists a, b, la, lb, ls, le, (span_str (la, lb)), (span_str (rs r - ls + 1, N.max (rs r - ls + 1) (re r - le + 1))).
    repeat (split; [first [assumption|apply span_str_spec]|]). reflexivity.
  - unfold error_string. rewrite EL, EC. reflexivity.
Qed.
