(* What patterns make of texts, and what scripts make of them. *)
From Verif Require Import TokenizeProofs TreeProofs CombProofs ScopeProofs CompileProofs SeesProofs MatchProofs Spec SpecScript SpecSyntax SpecMatch.
Open Scope string_scope.
Open Scope list_scope.
Open Scope N_scope.

Section Read.
  Variables (E : env) (P : parser) (V : sid -> Prop).
  Hypothesis HE : tame E.
  Hypothesis Hascii : ascii_only (p_src P).
  Hypothesis Hsmall : slen (p_src P) < isize_bound.

  Lemma yields_answers h st w x y : yields P h st w x y -> answers (p_src P) st w x y.
  Proof.
    intros H. destruct H as [a n r Hr (_ & _ & Hm & _)|r _| |id]; constructor.
    - exact (proj1 (rnd_renders P Hsmall st) _ _ _ _ _ Hr (le_n _)).
    - rewrite (rnd_mr P _ _ _ _ _ _ Hr). exact Hm.
  Qed.

  Theorem pattern_answers D s p w pre x D' : reads (p_src P) D s p w x D' -> p_src P = pre ++ w -> V s ->
    forall c st, c_debug c = 0 -> c_off c = mkR (start_of (p_src P) w) (slen (p_src P)) -> kept V D st ->
    exists y st', Runs E P (meaning p) c s st y st' /\ kept V D' st' /\ answers (p_src P) st' w x y.
  Proof.
    intros Hr Hw Hs c st Hc Ho Hk. destruct (proj1 (patterns_get E P HE Hascii Hsmall V) _ _ _ _ _ _ Hr) as [_ Hg].
    destruct (Hg c st Hc Ho Hk) as (y & st' & R & K & Y); [now exists pre|exact Hs|].
    exists y, st'. split; [exact R|]. split; [exact K|]. eapply yields_answers; eauto.
  Qed.
  Theorem entry_answers D s e w pre x D' : enters_entry (p_src P) D s e w x D' -> within V e -> p_src P = pre ++ w -> V s ->
    forall c st, c_debug c = 0 -> c_off c = mkR (start_of (p_src P) w) (slen (p_src P)) -> kept V D st ->
    exists y st', Runs E P (entry_matcher e) c s st y st' /\ kept V D' st' /\ answers (p_src P) st' w x y.
  Proof.
    intros Hr He Hw Hs c st Hc Ho Hk.
    destruct (proj2 (proj2 (proj2 (proj2 (proj2 (proj2 (patterns_get E P HE Hascii Hsmall V)))))) _ _ _ _ _ _ Hr He) as [_ Hg].
    destruct (Hg c st Hc Ho Hk) as (y & st' & R & K & Y); [now exists pre|exact Hs|].
    exists y, st'. split; [exact R|]. split; [exact K|]. eapply yields_answers; eauto.
  Qed.

  Theorem entry_results D s e x D' : tidy E -> enters_entry (p_src P) D s e (p_src P) x D' -> within V e -> V s ->
    forall c st, c_debug c = 0 -> c_off c = mkR 0 (slen (p_src P)) -> c_scope c = s -> kept V D st ->
    exists t st', Tokenizes E P c (entry_matcher e) st t st' /\ kept V D' st' /\ results (p_src P) st' x t.
  Proof.
    intros HT Hr He Hs c st Hc Ho Hsc Hk.
    destruct (proj2 (proj2 (proj2 (proj2 (proj2 (proj2 (patterns_get E P HE Hascii Hsmall V)))))) _ _ _ _ _ _ Hr He) as [_ Hg].
    destruct (Hg c st Hc) as (y & st1 & R & K & Y).
    - rewrite Ho. f_equal. unfold pos. now rewrite N.sub_diag.
    - exact Hk.
    - now exists [].
    - exact Hs.
    - rewrite <- Hsc in R. destruct Y as [a n r Hn _|r _| |id].
      + destruct (tokenize_ok E P c (entry_matcher e) st (SToken a) a st1 HE HT R (ro_token a)) as (st' & Htk & Hh).
        pose proof (hoisted_clean _ _ _ Hh (proj1 (rnd_clean P st1) _ _ _ _ _ Hn)) as Hsame.
        exists (TOk a), st'. split; [exact Htk|]. destruct Hh as (Hsco & Hhp & _). split.
        * revert K. unfold kept, valid_scope, sc_get, stack_of. now rewrite Hsco.
        * constructor. apply (proj1 (rnd_renders P Hsmall st') _ _ _ _ _ (proj1 (rnd_same P Hsmall st1 st') _ _ _ _ _ Hn (fun x _ => Hsame x))).
          rewrite Hhp. constructor.
      + exists (TErr FFail), st1. split; [|split; [exact K|constructor]]. eapply tokenize_no_root; [exact R|]. intros a Ha. inversion Ha.
      + exists (TErr FFail), st1. split; [|split; [exact K|constructor]]. now apply tokenize_err.
      + exists (TErr (unknown_failure id)), st1. split; [|split; [exact K|constructor]]. now apply tokenize_err.
  Qed.
End Read.

Lemma last_entry_matcher x ss : last_definition x ss = option_map entry_matcher (last_entry x ss).
Proof.
  induction ss as [|d ss IH]; [reflexivity|]. cbn [last_definition last_entry]. rewrite IH.
  destruct (last_entry x ss) as [e|]; [reflexivity|]. cbn [option_map].
  destruct d; cbn [defines own_entry]; try reflexivity; now destruct (str_eqb _ x).
Qed.
Lemma last_entry_within V x ss e : last_entry x ss = Some e -> within V e.
Proof.
  induction ss as [|d ss IH]; [discriminate|]. cbn [last_entry].
  destruct (last_entry x ss) as [e'|]; [exact IH|].
  destruct d; cbn [own_entry]; try discriminate; destruct (str_eqb _ x); intros H; try discriminate; injection H as <-; exact Logic.I.
Qed.

(* a script alone, compiled and used *)
Theorem script_reads E P F compile name ff : tame E -> tidy E -> scope_tame E ->
  ascii_only (p_src P) -> slen (p_src P) < isize_bound ->
  forall d st, script_text E d (p_src P) -> (forall ns path, ~ In (Import ns path) (s_statements d)) -> script_fault d = None ->
  let sc := S (next_sid st) in
  exists fuel st1, compile_with fuel E F compile P name ff false st = Ret (ScriptOk (compiled_script name sc d) sc) st1 /\
    (sc < next_sid st1)%nat /\
    forall Q label x D', ascii_only (p_src Q) -> slen (p_src Q) < isize_bound ->
      enters_entry (p_src Q) (own_book sc d) (next_sid st1) (Whole (s_name name d) sc (s_patterns d)) (p_src Q) x D' ->
      exists t st2, Tokenizes E Q (fst (context_new Q label st1)) (compiled_script name sc d) (snd (context_new Q label st1)) t st2 /\
        results (p_src Q) st2 x t.
Proof.
  intros HE HT HS Ha Hsm d st Hd Hi Hf. cbv zeta.
  destruct (script_compiles_whole E P F compile name ff HE HT Ha Hsm d st HS Hd Hi Hf) as (fuel & st1 & Hc & Hv & Hg).
  exists fuel, st1. split; [exact Hc|]. split; [exact Hv|]. intros Q label x D' Qa Qs Hx.
  set (sc := S (next_sid st)) in *. set (s0 := next_sid st1) in *.
  assert (Hne : s0 <> sc). { unfold valid_scope in Hv. unfold s0, next_sid. lia. }
  destruct (entry_results E Q (fun s => s = sc \/ s = s0) HE Qa Qs (own_book sc d) s0 (Whole (s_name name d) sc (s_patterns d)) x D' HT Hx)
    with (c := fst (context_new Q label st1)) (st := snd (context_new Q label st1)) as (t & st2 & H1 & _ & H2).
  - now left.
  - now right.
  - reflexivity.
  - reflexivity.
  - reflexivity.
  - cbn [context_new snd]. split; [|split].
    + intros s [-> | ->]; unfold valid_scope, sc_new in *; cbn [st_scopes]; rewrite app_length; cbn [List.length]; [lia|]. unfold s0, next_sid. lia.
    + intros s y [-> | ->].
      * unfold own_book. rewrite Nat.eqb_refl. specialize (Hg y). rewrite last_entry_matcher in Hg.
        transitivity (sc_get st1 sc y).
        -- unfold sc_get, stack_of, sc_new. cbn [st_scopes]. rewrite app_nth1; [reflexivity|exact Hv].
        -- rewrite Hg. now destruct (last_entry y (s_statements d)).
      * unfold own_book. rewrite (proj2 (Nat.eqb_neq _ _) Hne). cbn [option_map].
        unfold sc_get, stack_of, sc_new, s0, next_sid. cbn [st_scopes]. rewrite app_nth2, Nat.sub_diag by lia. reflexivity.
    + intros s y e [-> | ->]; unfold own_book; destruct (Nat.eqb _ sc); try discriminate; apply last_entry_within.
  - exists t, st2. split; [exact H1|exact H2].
Qed.
