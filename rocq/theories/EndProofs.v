(* Readings are unique, and what ends has one. *)
From Verif Require Import AtomProofs CombProofs MapProofs WrapProofs ScopeProofs ProgramProofs SeesProofs MatchProofs ReadProofs SteadyProofs SaneProofs Spec SpecScript SpecSyntax SpecMatch SpecSteady.
Open Scope string_scope.
Open Scope list_scope.
Open Scope N_scope.

(* ---------- readings are unique ---------- *)

Section Lengths.
  Local Transparent slen.
  Lemma slen_same (u v : str) : slen u = slen v -> List.length u = List.length v.
  Proof. unfold slen. lia. Qed.
  Lemma split_at n (w : str) : n <= slen w -> exists u r, w = u ++ r /\ slen u = n.
  Proof.
    intros H. exists (firstn (N.to_nat n) w), (skipn (N.to_nat n) w). split; [symmetry; apply firstn_skipn|].
    unfold slen in *. rewrite firstn_length. lia.
  Qed.
  Lemma slen_none c (u : str) : slen (c :: u) = 0 -> False.
  Proof. unfold slen. cbn. lia. Qed.
End Lengths.

Lemma scans_one ep esc text raw v : ep <> [] -> scans ep esc text raw v -> forall raw' v', scans ep esc text raw' v' -> raw = raw' /\ v = v'.
Proof.
  intros Hep. induction 1 as [t|x t raw v Hn He Hs IH|x t raw v Hn He Hs IH]; intros raw' v' K.
  - inversion K as [t' Ht|y t' ra va Kn Ke Ks Ht|y t' ra va Kn Ke Ks Ht]; subst; [auto| |].
    + exfalso. apply Kn. rewrite Ht. now exists t.
    + exfalso. apply Kn. rewrite Ht. now exists t.
  - inversion K as [t' Ht|y t' ra va Kn Ke Ks Ht|y t' ra va Kn Ke Ks Ht]; subst.
    + exfalso. apply Hn. rewrite <- Ht. now exists t'.
    + apply app_inv_head in Ht. injection Ht as -> ->. destruct (IH _ _ Ks) as [-> ->]. auto.
    + exfalso. apply Ke; [exact He|]. rewrite Ht. now exists (x :: t).
  - inversion K as [t' Ht|y t' ra va Kn Ke Ks Ht|y t' ra va Kn Ke Ks Ht]; subst.
    + exfalso. apply Hn. rewrite <- Ht. now exists t'.
    + exfalso. apply He; [exact Ke|]. rewrite <- Ht. now exists (y :: t').
    + destruct (IH _ _ Ks) as [-> ->]. auto.
Qed.

Section Unique.
  Variable source : str.
  Ltac same := repeat match goal with
    | H : (forall x D', ?R x D' -> _ /\ _), K : ?R ?x ?D |- _ => destruct (H _ _ K); clear H; subst
    end.
  Theorem readings_unique :
    (forall D s p w x D', reads source D s p w x D' -> forall y D'', reads source D s p w y D'' -> x = y /\ D' = D'') /\
    (forall D s name o i k l r w x D', layers source D s name o i k l r w x D' ->
       forall y D'', layers source D s name o i k l r w y D'' -> x = y /\ D' = D'') /\
    (forall D s name i k l lo w0 left count kids w x D', rounds source D s name i k l lo w0 left count kids w x D' ->
       forall y D'', rounds source D s name i k l lo w0 left count kids w y D'' -> x = y /\ D' = D'') /\
    (forall D s name k w x D', reads_core source D s name k w x D' ->
       forall y D'', reads_core source D s name k w y D'' -> x = y /\ D' = D'') /\
    (forall D s ps w x D', tries source D s ps w x D' -> forall y D'', tries source D s ps w y D'' -> x = y /\ D' = D'') /\
    (forall D s name ps w0 kids w x D', walks source D s name ps w0 kids w x D' ->
       forall y D'', walks source D s name ps w0 kids w y D'' -> x = y /\ D' = D'') /\
    (forall D s e w x D', enters_entry source D s e w x D' ->
       forall y D'', enters_entry source D s e w y D'' -> x = y /\ D' = D'').
  Proof.
    apply reads_mutind.
    - intros D s o i k l r w x D' _ IH y D'' K. inversion K as [? ? ? ? ? ? ? ? z ? Kz|]; subst; [|congruence].
      destruct (IH _ _ Kz) as [-> ->]. auto.
    - intros D s c o i k l r w x D' Hc _ IH y D'' K. inversion K; subst; [congruence|]. auto.
    - intros D s name o i k l w x D' _ IH y D'' K. inversion K as [? ? ? ? ? ? ? ? z ? Kz|? ? ? ? ? ? ? ? lo hi ? ? ? Hb]; subst; [|discriminate Hb].
      destruct (IH _ _ Kz) as [-> ->]. auto.
    - intros D s name o i k l r lo hi w x D' Hb _ IH y D'' K.
      inversion K as [? ? ? ? ? ? ? ? z ? Kz|? ? ? ? ? ? ? ? lo' hi' ? ? ? Hb' Kr]; subst; [discriminate Hb|].
      rewrite Hb in Hb'. injection Hb' as <- <-. destruct (IH _ _ Kr) as [-> ->]. auto.
    - intros D s name i k l w y D'' K. inversion K; subst; try lia; auto.
      match goal with H : _ \/ _ |- _ => destruct H as [H|[H|H]]; [lia|lia|congruence] end.
    - intros D s name i k l lo w0 count kids w Hlt y D'' K. inversion K; subst; try lia; auto.
    - intros D s name i k l lo w0 count kids w Hle Hne y D'' K. inversion K; subst; try lia; auto.
      destruct Hne as [H|[H|H]]; [lia|lia|congruence].
    - intros D s name i k l lo w0 left count kids w x D' Hl _ IH Hx y D'' K.
      inversion K; subst; try lia; match goal with H : reads_core _ _ _ _ _ _ _ _ |- _ => destruct (IH _ _ H); subst end; try congruence; auto.
    - intros D s name i k l lo w0 left count kids w x D' id Hl _ IH Hx y D'' K.
      inversion K; subst; try lia; match goal with H : reads_core _ _ _ _ _ _ _ _ |- _ => destruct (IH _ _ H); subst end; try congruence; auto.
      split; congruence.
    - intros D s name i k l lo w0 left count kids w x D1 n r y D' Hl _ IH Hx _ IH2 y' D'' K.
      inversion K; subst; try lia; match goal with H : reads_core _ _ _ _ _ _ _ _ |- _ => destruct (IH _ _ H); subst end; try congruence.
      match goal with H : under i w (labelled l _) = Took _ _ |- _ => rewrite Hx in H; injection H as <- <- end. auto.
    - intros D s name i k l lo w0 left count kids w x D1 r y D' Hl _ IH Hx _ IH2 y' D'' K.
      inversion K; subst; try lia; match goal with H : reads_core _ _ _ _ _ _ _ _ |- _ => destruct (IH _ _ H); subst end; try congruence.
      match goal with H : under i w (labelled l _) = Passed _ |- _ => rewrite Hx in H; injection H as <- end. auto.
    - intros D s name v r Hv y D'' K. inversion K as [? ? ? ? r' ? E1 E2 E3 E4 Ht| ? ? ? ? ? ? Hno| | | | | | | | |]; subst.
      + apply app_inv_head in Ht as ->. auto.
      + exfalso. apply Hno. now exists r.
    - intros D s name v w Hv Hno y D'' K. inversion K; subst; [|auto]. exfalso. apply Hno. eexists. reflexivity.
    - intros D s name a b x raw v r Ha Hb Hs y D'' K.
      inversion K as [| |? ? ? ? ? ? raw' v' r' _ _ Hs' E1 E2 E3 E4 Ht|? ? ? ? ? ? ? _ _ Hno| | | | | | |]; subst.
      + apply app_inv_head in Ht. rewrite Ht in Hs'. destruct (scans_one _ _ _ _ _ Hb Hs _ _ Hs') as [<- <-].
        apply app_inv_head, app_inv_head in Ht as ->. auto.
      + exfalso. eapply Hno; [reflexivity|exact Hs].
    - intros D s name a b x w Ha Hb Hno y D'' K. inversion K; subst; [|auto]. exfalso. eapply Hno; [reflexivity|eassumption].
    - intros D s name body flags f u r Hf Hu y D'' K.
      inversion K as [| | | |? ? ? ? ? ? u' r' Hf' Hu' E1 E2 E3 E4 Ht|? ? ? ? ? ? ? Hf'|? ? ? ? ? ? ? Hf'| | | |]; subst.
      + rewrite <- Ht in Hf. rewrite Hf in Hf'. injection Hf' as Hlen.
        assert (u' = u /\ r' = r) as [-> ->]; [|auto].
        assert (Hl : List.length u' = List.length u) by (now apply slen_same).
        clear - Ht Hl. revert u Ht Hl. induction u' as [|c u' IH]; intros [|d u] Ht Hl; try discriminate Hl; [auto|].
        cbn in Ht. injection Ht as -> Ht. destruct (IH u Ht) as [-> ->]; [now injection Hl|]. auto.
      + rewrite Hf in Hf'. injection Hf' as H0. destruct u; [congruence|]. first [now apply slen_none in H0|symmetry in H0; now apply slen_none in H0].
      + exfalso. eapply Hf'; eauto.
    - intros D s name body flags f w Hf y D'' K. inversion K as [| | | |? ? ? ? ? ? u' r' Hf' Hu'|? ? ? ? ? ? ? Hf'|? ? ? ? ? ? ? Hf'| | | |]; subst; [|auto|].
      + rewrite Hf in Hf'. injection Hf' as H0. destruct u'; [congruence|]. first [now apply slen_none in H0|symmetry in H0; now apply slen_none in H0].
      + exfalso. eapply Hf'; eauto.
    - intros D s name body flags f w Hf y D'' K. inversion K; subst; [| |auto]; exfalso; eapply Hf; eauto.
    - intros D s name id e w x D' He _ IH y D'' K. inversion K; subst; [|congruence].
      match goal with H : noted _ _ _ _ _ _ = Some _ |- _ => rewrite He in H; injection H as <- end. auto.
    - intros D s name id w He y D'' K. inversion K; subst; [congruence|auto].
    - intros D s name ps w x D' _ IH y D'' K. inversion K; subst. auto.
    - intros D s name ps w x D' _ IH y D'' K. inversion K; subst. auto.
    - intros D s w y D'' K. inversion K; subst. auto.
    - intros D s p ps w x D1 y D' _ IH Hx _ IH2 y' D'' K. inversion K; subst;
        match goal with H : reads _ _ _ _ _ _ _ |- _ => destruct (IH _ _ H); subst end; [auto|]. destruct Hx; congruence.
    - intros D s p ps w x D' _ IH H1 H2 y D'' K. inversion K as [|? ? ? ? ? x' ? ? ? Kr Hx|]; subst;
        match goal with H : reads _ _ _ _ _ _ _ |- _ => destruct (IH _ _ H); subst end; [|auto]. destruct Hx; congruence.
    - intros D s name w0 kids w y D'' K. inversion K; subst. auto.
    - intros D s name p ps w0 kids w n r x D1 D' _ IH _ IH2 y D'' K. inversion K; subst;
        match goal with H : reads _ _ _ _ _ _ _ |- _ => destruct (IH _ _ H) as [Hq ->]; try discriminate Hq; try (injection Hq as <- <-) end. auto.
    - intros D s name p ps w0 kids w r x D1 D' _ IH _ IH2 y D'' K. inversion K; subst;
        match goal with H : reads _ _ _ _ _ _ _ |- _ => destruct (IH _ _ H) as [Hq ->]; try discriminate Hq; try (injection Hq as <-) end. auto.
    - intros D s name p ps w0 kids w D' _ IH y D'' K. inversion K; subst;
        match goal with H : reads _ _ _ _ _ _ _ |- _ => destruct (IH _ _ H) as [Hq ->]; try discriminate Hq end. auto.
    - intros D s name p ps w0 kids w id D' _ IH y D'' K. inversion K; subst;
        match goal with H : reads _ _ _ _ _ _ _ |- _ => destruct (IH _ _ H) as [Hq ->]; try discriminate Hq end. split; congruence.
    - intros D s name o i k l r w x D' _ IH y D'' K. inversion K; subst. auto.
    - intros D s s1 e name w x D' _ IH y D'' K. inversion K as [|? ? ? ? ? ? z ? Kz|]; subst. destruct (IH _ _ Kz) as [-> ->]. auto.
    - intros D s s1 name ps w x D' _ IH y D'' K. inversion K; subst. auto.
  Qed.
End Unique.

(* ---------- what ends has a reading ---------- *)

Section End.
  Variables (E : env) (P : parser).
  Hypothesis HE : tame E.
  Hypothesis Hascii : ascii_only (p_src P).
  Hypothesis Hsmall : slen (p_src P) < isize_bound.
  Variable V : sid -> Prop.
  Notation source := (p_src P).
  Notation pos := (pos P).
  Notation left_over := (left_over P).
  Notation obtains := (obtains E P V).
  Notation holding := (holding P).
  Notation waiting := (waiting P).

  Lemma known n m c s st r st' : Runs E P m c s st r st' -> exec n E P m c s st <> OOF -> exec n E P m c s st = Ret r st'.
  Proof. intros [k Hk] Hn. rewrite <- Hk. apply exec_unique; [exact Hn|congruence]. Qed.

  (* one pattern of a program or loop *)
  Definition goes_on (n : nat) (D' : book) (c : ctx) (i : pinfo) (s : sid) (pt : addr) (count : N) (m : matcher) (ms : list matcher) (w0 : str)
    (done : list piece) (kids : list node) (w r : str) (name : str) (st : state) : Prop :=
    exists done' st',
      run_patterns E P (exec n E P) i (clone_with_name c (pi_name i)) s pt (pos w0) count (m :: ms) (pst_of done (pos w)) st =
      run_patterns E P (exec n E P) i (clone_with_name c (pi_name i)) s pt (pos w0) count ms (pst_of done' (pos r)) st' /\
      kept V D' st' /\ holding pt w0 done' kids r st' /\ waiting pt name st'.
  Lemma go_on n D s m w0 w x D' c i st pt name done kids count ms : obtains D s m w x D' ->
    c_debug c = 0 -> c_off c = mkR (pos w0) (slen source) -> kept V D st -> left_over w0 -> V s -> pi_stop i = false ->
    holding pt w0 done kids w st -> waiting pt name st ->
    run_patterns E P (exec n E P) i (clone_with_name c (pi_name i)) s pt (pos w0) count (m :: ms) (pst_of done (pos w)) st <> OOF ->
    match x with
    | Took nd r => goes_on n D' c i s pt count m ms w0 done (kids ++ [nd]) w r name st
    | Passed r => goes_on n D' c i s pt count m ms w0 done kids w r name st
    | _ => True
    end.
  Proof.
    intros [Hm H] Hd Hc Hf Hl0 Hs Hi Hh Hw Hne.
    pose proof (left_follows P _ _ Hl0 (ho_follows _ _ _ _ _ _ _ Hh)) as Hl.
    destruct (H (pattern_ctx c (pi_name i) pt (pos w)) st) as (y & st1 & R & F & Y); auto.
    { cbn. now rewrite Hc. }
    pose proof (run_one E P c i s pt count Hd Hi n m ms done (pos w) st) as Heq. rewrite Hc in Heq. cbn [rs] in Heq.
    assert (Hr : exec n E P m (pattern_ctx c (pi_name i) pt (pos w)) s st = Ret y st1).
    { apply known; [exact R|]. intros K. rewrite K in Heq. cbv beta iota in Heq. congruence. }
    rewrite Hr, Hm in Heq. cbv beta iota in Heq.
    pose proof (runs_size E P HE _ _ _ _ _ _ R) as Z. pose proof (runs_same E P HE _ _ _ _ _ _ R) as T.
    destruct Y as [a nd r Ha Hp|r Hr'| |id]; try exact Logic.I.
    - destruct (holding_took P Hsmall V pt w0 done kids w st st1 a nd r T Z (proj1 Hw) Hl Hh Ha Hp) as (G1 & G2).
      set (t := set_parent (Some pt) (tok st1 a)) in *.
      assert (Hmr : tk_mr (tok st1 a) = mkR (pos w) (pos r)).
      { rewrite (rnd_mr P _ _ _ _ _ _ Ha). apply Hp. }
      exists (done ++ [token_piece a true t]), (set_tok st1 a t).
      pose proof (rnd_kind P _ _ _ _ _ _ Ha) as Hk. apply standard_iff in Hk as Hk'. rewrite Hk' in Heq.
      assert (Hct : contributes E P pt (pos w0) true true done (pos w) st1 (SToken a) (done ++ [token_piece a true t]) (pos r) (set_tok st1 a t)).
      { replace (pos r) with (if true then re (tk_mr t) else pos w) by (change (tk_mr t) with (tk_mr (tok st1 a)); now rewrite Hmr).
        apply ct_token; [exact Hk| |symmetry; eapply rnd_adopted; eauto].
        intros _ _. right. rewrite Hmr. cbn [re]. destruct Hp as (P1 & P2 & _).
        apply (left_len P Hsmall) in Hl. unfold SeesProofs.pos. lia. }
      rewrite (collect_contributes _ _ _ _ _ _ _ _ _ _ _ _ _ Hct) in Heq. cbv beta iota in Heq.
      split; [exact Heq|]. split; [eapply fits_scopes; [|exact F]; reflexivity|]. split; [exact G1|].
      apply (waiting_same P Hsmall V pt name st); [exact G2|rewrite heap_size_set; exact Z|exact Hw].
    - assert (Hct : exists done', contributes E P pt (pos w0) true true done (pos w) st1 (SSkip (Z.of_N (pos r) - Z.of_N (pos w))) done' (pos r) st1 /\
        holding pt w0 done' kids r st1).
      { eexists. split; [apply ct_skip; [reflexivity|]; now apply skips_pos|].
        apply (holding_passed P Hsmall V pt w0 done kids w st1 r Hl); [|exact Hr']. eapply (holding_same P Hsmall V); eauto. }
      destruct Hct as (done' & Hct & G1).
      rewrite (collect_contributes _ _ _ _ _ _ _ _ _ _ _ _ _ Hct) in Heq. cbv beta iota in Heq.
      exists done', st1. split; [exact Heq|]. split; [exact F|]. split; [exact G1|]. eapply (waiting_same P Hsmall V); eauto.
  Qed.

  (* [m], started at [w] with the definitions [D], comes to an end within [n] *)
  Definition ends (n : nat) (m : matcher) (D : book) (s : sid) (w : str) : Prop :=
    exists c st, c_debug c = 0 /\ c_off c = mkR (pos w) (slen source) /\ kept V D st /\ exec n E P m c s st <> OOF.
  Lemma ends_mono n n' m D s w : (n <= n')%nat -> ends n m D s w -> ends n' m D s w.
  Proof. intros Hn (c & st & H1 & H2 & H3 & H4). exists c, st. split; [exact H1|]. split; [exact H2|]. split; [exact H3|]. rewrite (exec_mono _ _ n n'); auto. Qed.
  Lemma ends_some n m D s w : ends n m D s w -> n <> 0%nat.
  Proof. intros (c & st & _ & _ & _ & H) ->. now apply H. Qed.
  Lemma ends_signed n o m D s w : ends n (signed o m) D s w -> ends n m D s w.
  Proof.
    intros H. pose proof (ends_some _ _ _ _ _ H) as Hn. destruct n as [|n]; [congruence|]. destruct o; [exact H| |];
      destruct H as (c & st & H1 & H2 & H3 & H4); cbn [signed] in H4; apply (ends_mono n); auto.
    - rewrite optional_unfold in H4. exists (clone_with_name c "Optional"), st. split; [exact H1|]. split; [exact H2|]. split; [exact H3|]. intros K. rewrite K in H4. now apply H4.
    - rewrite not_unfold in H4. exists (clone_with_name c "Not"), st. split; [exact H1|]. split; [exact H2|]. split; [exact H3|]. intros K. rewrite K in H4. now apply H4.
  Qed.
  Lemma ends_map n f m D s w : ends n (MMap m f) D s w -> ends n m D s w.
  Proof.
    intros H. pose proof (ends_some _ _ _ _ _ H) as Hn. destruct n as [|n]; [congruence|].
    destruct H as (c & st & H1 & H2 & H3 & H4). apply (ends_mono n); auto.
    rewrite map_unfold in H4. exists (renamed c "Map"), st. split; [exact H1|]. split; [exact H2|]. split; [exact H3|]. intros K. rewrite K in H4. now apply H4.
  Qed.
  Lemma ends_attributed n l m D s w : ends n (attributed l m) D s w -> ends n m D s w.
  Proof. destruct l; [auto|]. apply ends_map. Qed.
  Lemma ends_discard n m D s w : ends n (MDiscard m) D s w -> ends n m D s w.
  Proof.
    intros H. pose proof (ends_some _ _ _ _ _ H) as Hn. destruct n as [|n]; [congruence|].
    destruct H as (c & st & H1 & H2 & H3 & H4). apply (ends_mono n); auto.
    rewrite discard_unfold in H4. exists (clone_with_name c "Discard"), st. split; [exact H1|]. split; [exact H2|]. split; [exact H3|]. intros K. rewrite K in H4. now apply H4.
  Qed.
  Lemma ends_scoped n s1 m D s w : ends n (MSetScope (Some s1) m) D s w -> ends n m D s1 w.
  Proof.
    intros H. pose proof (ends_some _ _ _ _ _ H) as Hn. destruct n as [|n]; [congruence|].
    destruct H as (c & st & H1 & H2 & H3 & H4). apply (ends_mono n); auto.
    exists (renamed c "SetScope"), st. auto.
  Qed.
  Lemma ends_proxy n m name D s w : ends n (MProxy m name false) D s w -> ends n m D s w.
  Proof.
    intros H. pose proof (ends_some _ _ _ _ _ H) as Hn. destruct n as [|n]; [congruence|].
    destruct H as (c & st & H1 & H2 & H3 & H4). apply (ends_mono n); auto.
    rewrite proxy_unfold in H4. exists (clone_with_name c name), (before_exec (MProxy m name false) s st). split; [exact H1|]. split; [exact H2|]. split.
    - eapply fits_scopes; [|exact H3]. reflexivity.
    - intros K. rewrite K in H4. now apply H4.
  Qed.

  Lemma head_ends n D s m w0 w c i st pt done count ms :
    c_debug c = 0 -> c_off c = mkR (pos w0) (slen source) -> kept V D st -> pi_stop i = false ->
    run_patterns E P (exec n E P) i (clone_with_name c (pi_name i)) s pt (pos w0) count (m :: ms) (pst_of done (pos w)) st <> OOF ->
    ends n m D s w.
  Proof.
    intros Hd Hc Hf Hi Hne. pose proof (run_one E P c i s pt count Hd Hi n m ms done (pos w) st) as Heq. rewrite Hc in Heq. cbn [rs] in Heq.
    rewrite Heq in Hne. exists (pattern_ctx c (pi_name i) pt (pos w)), st. split; [exact Hd|]. split; [cbn; now rewrite Hc|]. split; [exact Hf|].
    intros K. rewrite K in Hne. now apply Hne.
  Qed.

  Definition core_has (n : nat) : Prop := forall D s name k w, sane_book V D -> sane_core sane k -> left_over w -> V s ->
    ends n (core_matcher meaning name k) D s w -> exists x D', reads_core source D s name k w x D' /\ sane_book V D'.
  Definition layers_has (n : nat) : Prop := forall D s name o i k l r w, sane_book V D -> sane_core sane k -> left_over w -> V s ->
    ends n (defined name o i k l r) D s w -> exists x D', layers source D s name o i k l r w x D' /\ sane_book V D'.
  Definition pat_has (n : nat) : Prop := forall D s p w, sane_book V D -> sane p -> left_over w -> V s ->
    ends n (meaning p) D s w -> exists x D', reads source D s p w x D' /\ sane_book V D'.
  Definition entry_has (n : nat) : Prop := forall D s e w, sane_book V D -> sane_entry e -> within V e -> left_over w -> V s ->
    ends n (entry_matcher e) D s w -> exists x D', enters_entry source D s e w x D' /\ sane_book V D'.

  Let G := patterns_get E P HE Hascii Hsmall V.

  (* ---------- loops ---------- *)

  Lemma rounds_last D s name i k l lo w0 count kids w : sane_book V D -> (count = 0 -> kids = [] /\ w = w0) ->
    exists x D', rounds source D s name i k l lo w0 0 count kids w x D' /\ sane_book V D'.
  Proof.
    intros HD H0. destruct (N.ltb_spec count lo) as [Hlt|Hge].
    - exists Missed, D. split; [now apply rn_short|exact HD].
    - destruct (N.eq_dec count 0) as [-> |Hcount].
      + destruct (H0 eq_refl) as [-> ->]. assert (lo = 0) as -> by lia. exists (Passed w0), D. split; [apply rn_none|exact HD].
      + eexists _, D. split; [apply rn_full; [exact Hge|right; left; lia]|exact HD].
  Qed.
  Lemma rounds_have n s name i0 k l lo hi w0 pt c : core_has n -> sane_core sane k -> left_over w0 -> V s ->
    c_debug c = 0 -> c_off c = mkR (pos w0) (slen source) ->
    let m := signed i0 (attributed l (core_matcher meaning name k)) in
    let i := mkPI "Loop" (Some (lo, hi)) false false in
    forall f D left count kids w done st, sane_book V D -> kept V D st -> holding pt w0 done kids w st -> waiting pt "Loop" st ->
    (count = 0 -> kids = [] /\ w = w0) ->
    iterate f E P (exec n E P) [m] i (clone_with_name c (pi_name i)) s pt (pos w0) left count (pst_of done (pos w)) st <> OOF ->
    exists x D', rounds source D s name i0 k l lo w0 left count kids w x D' /\ sane_book V D'.
  Proof.
    intros HC Hk Hl0 Hs Hd Hc m i f. induction f as [|f IH]; intros D left count kids w done st HD Hf Hh Hw H0 Hne;
      (destruct (N.eq_dec left 0) as [-> |Hleft]; [now apply rounds_last|]).
    - exfalso. apply Hne. cbn [iterate]. destruct (N.eqb_spec left 0); [congruence|reflexivity].
    - pose proof (left_follows P _ _ Hl0 (ho_follows _ _ _ _ _ _ _ Hh)) as Hl.
      pose proof (iterate_one E P c i s [m] pt Hd eq_refl f n left count (pst_of done (pos w)) st ltac:(lia)) as Heq.
      rewrite Hc in Heq. cbv beta in Heq. cbn [rs] in Heq. rewrite Heq in Hne. clear Heq.
      assert (Hrp : run_patterns E P (exec n E P) i (clone_with_name c (pi_name i)) s pt (pos w0) count [m] (pst_of done (pos w)) st <> OOF).
      { intros K. rewrite K in Hne. now apply Hne. }
      pose proof (head_ends n D s m w0 w c i st pt done count [] Hd Hc Hf eq_refl Hrp) as He.
      apply ends_signed, ends_attributed in He.
      destruct (HC D s name k w HD Hk Hl Hs He) as (x & D1 & R & HD1).
      assert (Ho : obtains D s m w (under i0 w (labelled l x)) D1).
      { apply signed_gets; [exact Hsmall|]. apply labelled_gets; [exact Hsmall|]. now apply G. }
      pose proof (go_on n D s m w0 w _ D1 c i st pt "Loop" done kids count [] Ho Hd Hc Hf Hl0 Hs eq_refl Hh Hw Hrp) as Hgo.
      destruct (under i0 w (labelled l x)) as [nd r|r| |id] eqn:Ex.
      + destruct Hgo as (done' & st' & Heq & F & Hh' & Hw'). rewrite Heq in Hne. cbn [run_patterns] in Hne.
        destruct (IH D1 (left - 1) (count + 1) (kids ++ [nd]) r done' st' HD1 F Hh' Hw') as (y & D' & Hy & HD'); [lia|exact Hne|].
        exists y, D'. split; [|exact HD']. eapply rn_took; [lia|exact R|exact Ex|exact Hy].
      + destruct Hgo as (done' & st' & Heq & F & Hh' & Hw'). rewrite Heq in Hne. cbn [run_patterns] in Hne.
        destruct (IH D1 (left - 1) (count + 1) kids r done' st' HD1 F Hh' Hw') as (y & D' & Hy & HD'); [lia|exact Hne|].
        exists y, D'. split; [|exact HD']. eapply rn_passed; [lia|exact R|exact Ex|exact Hy].
      + eexists _, D1. split; [eapply rn_end; [lia|exact R|exact Ex]|exact HD1].
      + eexists _, D1. split; [eapply rn_unknown; [lia|exact R|exact Ex]|exact HD1].
  Qed.

  Lemma layers_step n : core_has n -> layers_has n.
  Proof.
    intros HC D s name o i k l r w HD Hk Hl Hs He. unfold defined in He. apply ends_signed in He. unfold repeated in He.
    destruct (bounds r) as [[lo hi]|] eqn:Eb.
    - pose proof (ends_some _ _ _ _ _ He) as Hn. destruct n as [|n]; [congruence|]. destruct He as (c & st & Hd & Hc & Hf & Hne).
      rewrite program_unfold, Hc in Hne. cbn [rs iterations pi_iter] in Hne.
      set (m := signed i (attributed l (core_matcher meaning name k))) in *. set (i' := mkPI "Loop" (Some (lo, hi)) false false) in *.
      destruct (rounds_have n s name i k l lo hi w (List.length (st_heap st)) c) with (f := n) (D := D) (left := hi - lo) (count := 0)
        (kids := @nil node) (w := w) (done := @nil piece) (st := program_start P [m] i' s st) as (x & D' & R & HD'); auto.
      + intros D0 s0 name0 k0 w1 A1 A2 A3 A4 A5. apply HC; auto. now apply (ends_mono n); [lia|].
      + now apply (holding_nothing P Hsmall V).
      + now apply (waiting_start P Hsmall V).
      + exists (under o w x), D'. split; [|exact HD']. eapply ly_repeated; eauto.
    - destruct r; try discriminate Eb. apply ends_signed, ends_attributed in He.
      destruct (HC D s name k w HD Hk Hl Hs He) as (x & D' & R & HD'). eexists _, D'. split; [apply ly_once; exact R|exact HD'].
  Qed.

  Lemma pat_step n : layers_has n -> pat_has n.
  Proof.
    intros HL D s [c o i k l r] w HD Hp Hl Hs He. destruct c as [| |x]; cbn [meaning] in He.
    - apply ends_discard in He. destruct (HL D s [] o i k l r w HD Hp Hl Hs He) as (y & D' & R & HD').
      eexists _, D'. split; [apply rd_plain; exact R|exact HD'].
    - destruct (HL D s [] o i k l r w HD Hp Hl Hs He) as (y & D' & R & HD').
      eexists _, D'. split; [apply rd_captured; [discriminate|exact R]|exact HD'].
    - destruct (HL D s (lit "Name") o i k l r w HD Hp Hl Hs He) as (y & D' & R & HD').
      eexists _, D'. split; [apply rd_captured; [discriminate|exact R]|exact HD'].
  Qed.

  (* ---------- programs ---------- *)

  Lemma walks_have n s name w0 pt c i nm : pat_has n -> left_over w0 -> V s -> pi_stop i = false ->
    c_debug c = 0 -> c_off c = mkR (pos w0) (slen source) ->
    forall ps D kids w done st, Forall sane ps -> sane_book V D -> kept V D st -> holding pt w0 done kids w st -> waiting pt nm st ->
    run_patterns E P (exec n E P) i (clone_with_name c (pi_name i)) s pt (pos w0) 0 (map meaning ps) (pst_of done (pos w)) st <> OOF ->
    exists x D', walks source D s name ps w0 kids w x D' /\ sane_book V D'.
  Proof.
    intros HP Hl0 Hs Hi Hd Hc ps. induction ps as [|p ps IH]; intros D kids w done st Hps HD Hf Hh Hw Hne.
    - eexists _, D. split; [apply wl_done|exact HD].
    - cbn [map] in Hne. inversion Hps as [|p0 ps0 Hp Hps']; subst.
      pose proof (left_follows P _ _ Hl0 (ho_follows _ _ _ _ _ _ _ Hh)) as Hl.
      pose proof (head_ends n D s _ w0 w c i st pt done 0 _ Hd Hc Hf Hi Hne) as He.
      destruct (HP D s p w HD Hp Hl Hs He) as (x & D1 & R & HD1).
      assert (Ho : obtains D s (meaning p) w x D1) by now apply G.
      pose proof (go_on n D s _ w0 w _ D1 c i st pt nm done kids 0 _ Ho Hd Hc Hf Hl0 Hs Hi Hh Hw Hne) as Hgo.
      destruct x as [nd r|r| |id].
      + destruct Hgo as (done' & st' & Heq & F & Hh' & Hw'). rewrite Heq in Hne.
        destruct (IH D1 (kids ++ [nd]) r done' st' Hps' HD1 F Hh' Hw' Hne) as (y & D' & Hy & HD').
        exists y, D'. split; [|exact HD']. eapply wl_took; eauto.
      + destruct Hgo as (done' & st' & Heq & F & Hh' & Hw'). rewrite Heq in Hne.
        destruct (IH D1 kids r done' st' Hps' HD1 F Hh' Hw' Hne) as (y & D' & Hy & HD').
        exists y, D'. split; [|exact HD']. eapply wl_passed; eauto.
      + eexists _, D1. split; [apply wl_missed; exact R|exact HD1].
      + eexists _, D1. split; [apply wl_unknown; exact R|exact HD1].
  Qed.

  (* what a program asks of its patterns *)
  Lemma program_ends n ms i c s st : pi_stop i = false -> pi_iter i = None -> exec n E P (MProgram ms i) c s st <> OOF ->
    exists n', (n' < n)%nat /\
      run_patterns E P (exec n' E P) i (clone_with_name c (pi_name i)) s (List.length (st_heap st)) (rs (c_off c)) 0 ms
        (pst_of [] (rs (c_off c))) (program_start P ms i s st) <> OOF.
  Proof.
    intros H1 H2 H. destruct n as [|[|n]].
    - now destruct H.
    - exfalso. apply H. rewrite program_unfold. unfold iterations. rewrite H2. reflexivity.
    - rewrite (program_one_pass E P c i s st ms H1 H2 n) in H. exists (S n). split; [lia|]. intros K. rewrite K in H. now apply H.
  Qed.
  Lemma program_has n ms i c s st D w ps name : pi_stop i = false -> pi_iter i = None -> (forall n', (n' < n)%nat -> pat_has n') ->
    ms = map meaning ps -> Forall sane ps -> sane_book V D -> kept V D (program_start P ms i s st) -> left_over w -> V s ->
    c_debug c = 0 -> c_off c = mkR (pos w) (slen source) -> exec n E P (MProgram ms i) c s st <> OOF ->
    exists x D', walks source D s name ps w [] w x D' /\ sane_book V D'.
  Proof.
    intros H1 H2 HP -> Hps HD Hf Hl Hs Hd Hc Hne. destruct (program_ends _ _ _ _ _ _ H1 H2 Hne) as (n' & Hn & Hrp).
    rewrite Hc in Hrp. cbn [rs] in Hrp.
    eapply (walks_have n' s name w (List.length (st_heap st)) c i (pi_name i)); eauto.
    - now apply (holding_nothing P Hsmall V).
    - now apply (waiting_start P Hsmall V).
  Qed.

  (* ---------- switches ---------- *)

  Lemma tries_have n s w pt c i : pat_has n -> left_over w -> V s -> pi_stop i = true ->
    c_debug c = 0 -> c_off c = mkR (pos w) (slen source) ->
    forall ps D st q, Forall sane ps -> sane_book V D -> kept V D st -> quiet c q ->
    run_patterns E P (exec n E P) i (clone_with_name c (pi_name i)) s pt (pos w) 0 (map meaning ps) q st <> OOF ->
    exists x D', tries source D s ps w x D' /\ sane_book V D'.
  Proof.
    intros HP Hl Hs Hi Hd Hc ps. induction ps as [|p ps IH]; intros D st q Hps HD Hf Hq Hne.
    - exists Missed, D. split; [constructor|exact HD].
    - cbn [map run_patterns] in Hne. inversion Hps as [|p0 ps0 Hp Hps']; subst.
      set (cc := push_tok (with_start (clone_with_name c (pi_name i)) (ps_off q)) pt) in *.
      assert (Hcc : c_off cc = mkR (pos w) (slen source)). { destruct Hq as [Hq _]. rewrite Hc in Hq. cbn in *. now rewrite Hq, Hc. }
      assert (He : exec n E P (meaning p) cc s st <> OOF). { intros K. rewrite K in Hne. now apply Hne. }
      destruct (HP D s p w HD Hp Hl Hs) as (x & D1 & R & HD1).
      { exists cc, st. auto. }
      assert (Ho : obtains D s (meaning p) w x D1) by now apply G.
      destruct Ho as [Hm Ho]. destruct (Ho cc st Hd Hcc Hf Hl Hs) as (y & st1 & Hr & F & Y).
      rewrite (known n _ _ _ _ _ _ Hr He) in Hne.
      assert (Hdec : (x = Missed \/ x = Passed w) \/ (x <> Missed /\ x <> Passed w)).
      { destruct x as [nd r|r| |id]; try (right; split; discriminate); [|auto].
        destruct (list_eq_dec Ascii.ascii_dec r w) as [-> |Hne']; [auto|right]. split; [discriminate|congruence]. }
      destruct Hdec as [Hx|[Hx1 Hx2]]; [|exists x, D1; split; [now apply tr_this|exact HD1]].
      assert (Hnext : exists q', quiet c q' /\
        run_patterns E P (exec n E P) i (clone_with_name c (pi_name i)) s pt (pos w) 0 (map meaning ps) q' st1 <> OOF).
      { destruct Hx as [-> | ->]; inversion Y; subst.
        - exists q. split; [exact Hq|]. rewrite dbg_quiet in Hne by exact Hd. now rewrite Hi in Hne.
        - rewrite Z.sub_diag, Hm in Hne. cbn [Z.ltb Z.compare andb] in Hne.
          destruct (zero_skip E c i Hd Hi ltac:(rewrite Hc; cbn [rs]; pose proof (pos_lt P Hsmall w); lia) q st1 Hq) as (q' & Hz & Hq').
          rewrite Hc in Hz. cbn [rs] in Hz. rewrite Hz in Hne. eauto. }
      destruct Hnext as (q' & Hq' & Hrest). destruct (IH D1 st1 q' Hps' HD1 F Hq' Hrest) as (z & D' & Hz & HD').
      exists z, D'. split; [|exact HD']. eapply tr_next; eauto.
  Qed.

  (* ---------- all of them ---------- *)

  Lemma core_step n : (forall n', (n' < n)%nat -> pat_has n' /\ entry_has n') -> core_has n.
  Proof.
    intros Small D s name k w HD Hk Hl Hs He.
    pose proof (sane_noted V D s name k HD Hk) as HN.
    destruct k as [v|id|a b x|body flags f|ps|ps]; cbn [sane_core] in Hk.
    - destruct (prefix_dec v w) as [[r ->]|Hno]; eexists _, _; (split; [|exact HN]); [apply rc_text; exact Hk|apply rc_text_not; assumption].
    - destruct (noted D s name (KName id) s id) as [e|] eqn:Hn; [|eexists _, _; split; [apply rc_unknown; exact Hn|exact HN]].
      pose proof (ends_some _ _ _ _ _ He) as Hn0. destruct n as [|n]; [congruence|].
      destruct He as (c & st & Hd & Hc & Hf & Hne). cbn [core_matcher] in Hne. rewrite ref_unfold, before_state in Hne.
      set (st0 := mkSt (st_heap st) (scopes_after st s (m_custom (MRef (FStr id) (given name "Ref") (is_given name)))
        (m_name (MRef (FStr id) (given name "Ref") (is_given name))) (MRef (FStr id) (given name "Ref") (is_given name)))) in *.
      assert (F0 : kept V (noted D s name (KName id)) st0).
      { apply (fits_noted V D st (st_heap st) s name (KName id) (is_given name) (given name "Ref")); [assumption|assumption|reflexivity|]. apply is_given_given. }
      pose proof (proj1 (proj2 F0) s id Hs) as Hget. rewrite Hn in Hget. cbn [option_map] in Hget. rewrite Hget in Hne.
      destruct (proj2 (Small n ltac:(lia)) (noted D s name (KName id)) s e w HN (HN s id e Hs Hn)) as (x & D' & R & HD').
      + exact (proj2 (proj2 F0) s id e Hs Hn).
      + exact Hl.
      + exact Hs.
      + exists (clone_with_name c (given name "Ref")), st0. auto.
      + exists x, D'. split; [|exact HD']. eapply rc_name; eauto.
    - destruct Hk as [Ha Hb]. destruct (prefix_dec a w) as [[t ->]|Hno].
      + destruct (scans_dec b x Hb (List.length t) t (le_n _)) as [(raw & v & Hsc)|Hsc].
        * destruct (scans_text _ _ _ _ _ Hsc) as [r ->]. eexists _, _. split; [apply rc_sequence; eauto|exact HN].
        * eexists _, _. split; [apply rc_sequence_not; auto|exact HN]. intros t' raw v Ht. apply app_inv_head in Ht as <-. apply Hsc.
      + eexists _, _. split; [apply rc_sequence_not; auto|exact HN]. intros t raw v ->. exfalso. apply Hno. now exists t.
    - destruct f as [f|]; [|contradiction].
      assert (Hcase : (exists n, f w = Some (0, n)) \/ forall n, f w <> Some (0, n)).
      { destruct (f w) as [[lo n']|]; [|right; discriminate]. destruct (N.eq_dec lo 0) as [-> |Hne]; [left; eauto|right].
        intros n0 K. injection K as -> _. auto. }
      destruct Hcase as [[n' Hm]|Hm]; [|eexists _, _; split; [apply rc_regex_not; exact Hm|exact HN]].
      pose proof (Hk w n' Hm) as Hle. destruct (N.eq_dec n' 0) as [-> |Hne]; [eexists _, _; split; [apply rc_regex_empty; exact Hm|exact HN]|].
      destruct (split_at n' w Hle) as (u & r & -> & Hu).
      eexists _, _. split; [apply rc_regex; [rewrite Hu; exact Hm|intros ->; apply Hne; rewrite <- Hu; reflexivity]|exact HN].
    - pose proof (ends_some _ _ _ _ _ He) as Hn0. destruct n as [|n]; [congruence|].
      destruct He as (c & st & Hd & Hc & Hf & Hne). cbn [core_matcher] in Hne.
      set (i := mkPI (given name "Switch") None true (is_given name)) in *.
      assert (F0 : kept V (noted D s name (KSwitch ps)) (program_start P (map meaning ps) i s st)).
      { apply (fits_noted V D st _ s name (KSwitch ps)); [assumption|assumption|reflexivity|]. apply is_given_given. }
      rewrite program_unfold, Hc in Hne. cbn [rs] in Hne. unfold iterations in Hne. cbn [pi_iter i] in Hne.
      destruct n as [|n]; [now destruct Hne|]. cbn [iterate N.eqb] in Hne.
      assert (Hrp : run_patterns E P (exec (S n) E P) i (clone_with_name c (pi_name i)) s (List.length (st_heap st)) (pos w) 0 (map meaning ps)
        (pst_of [] (pos w)) (program_start P (map meaning ps) i s st) <> OOF).
      { intros K. rewrite K in Hne. now apply Hne. }
      destruct (tries_have (S n) s w (List.length (st_heap st)) c i) with (ps := ps) (D := noted D s name (KSwitch ps))
        (st := program_start P (map meaning ps) i s st) (q := pst_of [] (pos w)) as (x & D' & R & HD'); auto.
      + apply Small. lia.
      + now apply sane_list.
      + split; [|split]; try reflexivity. now rewrite Hc.
      + exists x, D'. split; [now apply rc_switch|exact HD'].
    - destruct He as (c & st & Hd & Hc & Hf & Hne). cbn [core_matcher] in Hne.
      set (i := mkPI (given name "Program") None false (is_given name)) in *.
      assert (F0 : kept V (noted D s name (KProgram ps)) (program_start P (map meaning ps) i s st)).
      { apply (fits_noted V D st _ s name (KProgram ps)); [assumption|assumption|reflexivity|]. apply is_given_given. }
      destruct (program_has n (map meaning ps) i c s st (noted D s name (KProgram ps)) w ps (given name "Program")) as (x & D' & R & HD'); auto.
      + intros n' Hn. now apply Small.
      + now apply sane_list.
      + exists x, D'. split; [now apply rc_program|exact HD'].
  Qed.

  Lemma entry_step_has n : (forall n', (n' < n)%nat -> pat_has n') -> layers_has n -> entry_has n.
  Proof.
    intros HP HL D s e. revert D s. induction e as [name o i k l r|s1 e IH name|name s1 ps]; intros D s w HD Hsane Hin Hl Hs He.
    - destruct (HL D s name o i k l r w HD Hsane Hl Hs He) as (x & D' & R & HD'). exists x, D'. split; [now constructor|exact HD'].
    - cbn [entry_matcher] in He. apply ends_scoped, ends_map in He. destruct Hin as [Hv Hin].
      destruct (IH D s1 w HD Hsane Hin Hl Hv He) as (x & D' & R & HD'). eexists _, D'. split; [apply en_renamed; exact R|exact HD'].
    - destruct He as (c & st & Hd & Hc & Hf & Hne). cbn [entry_matcher] in Hne.
      set (i := mkPI name None false true) in *. set (ip := mkPI "Program" None false false) in *.
      set (m := MSetScope (Some s1) (MProxy (MProgram (map meaning ps) ip) "Flatten" false)) in *.
      assert (F0 : kept V (put D s name (Whole name s1 ps)) (program_start P [m] i s st)).
      { apply (fits_after V D st _ s true name _ (Whole name s1 ps)); auto. }
      assert (HD1 : sane_book V (put D s name (Whole name s1 ps))) by now apply sane_put.
      destruct (program_ends n [m] i c s st eq_refl eq_refl Hne) as (n' & Hn & Hrp). rewrite Hc in Hrp. cbn [rs] in Hrp.
      pose proof (head_ends n' _ s m w w c i _ _ [] 0 [] Hd Hc F0 eq_refl Hrp) as He.
      apply ends_scoped, ends_proxy in He. destruct He as (c1 & st1 & Hd1 & Hc1 & Hf1 & Hne1).
      destruct (program_has n' (map meaning ps) ip c1 s1 st1 (put D s name (Whole name s1 ps)) w ps name) as (x & D' & R & HD'); auto.
      + intros k Hk. apply HP. lia.
      + now apply sane_list.
      + exists x, D'. split; [now constructor|exact HD'].
  Qed.

  Theorem what_ends n : core_has n /\ layers_has n /\ pat_has n /\ entry_has n.
  Proof.
    induction n as [n IH] using (well_founded_induction lt_wf).
    assert (HC : core_has n). { apply core_step. intros n' Hn. split; now apply IH. }
    pose proof (layers_step n HC) as HL. split; [exact HC|]. split; [exact HL|]. split; [now apply pat_step|].
    apply entry_step_has; [|exact HL]. intros n' Hn. now apply IH.
  Qed.
End End.
