(* Tokenizing ends exactly if the script has a reading of the text. *)
From Verif Require Import Facts Mono TokenizeProofs TreeProofs CombProofs ScopeProofs CompileProofs SeesProofs MatchProofs ReadProofs SteadyProofs SaneProofs BookProofs EndProofs.
From Verif Require Import Spec SpecScript SpecSyntax SpecMatch SpecSteady.
Open Scope string_scope.
Open Scope list_scope.
Open Scope N_scope.

Theorem reads_once source D s p w x D1 y D2 : reads source D s p w x D1 -> reads source D s p w y D2 -> x = y /\ D1 = D2.
Proof. intros H. exact (proj1 (readings_unique source) _ _ _ _ _ _ H _ _). Qed.
Theorem enters_once source D s e w x D1 y D2 : enters_entry source D s e w x D1 -> enters_entry source D s e w y D2 -> x = y /\ D1 = D2.
Proof. intros H. exact (proj2 (proj2 (proj2 (proj2 (proj2 (proj2 (readings_unique source)))))) _ _ _ _ _ _ H _ _). Qed.

Section Fate.
  Variables (E : env) (P : parser) (V : sid -> Prop).
  Hypothesis HE : tame E.
  Hypothesis Hascii : ascii_only (p_src P).
  Hypothesis Hsmall : slen (p_src P) < isize_bound.

  Theorem pattern_fate D s p w pre : sane_book V D -> sane p -> p_src P = pre ++ w -> V s ->
    forall c st, c_debug c = 0 -> c_off c = mkR (start_of (p_src P) w) (slen (p_src P)) -> kept V D st ->
    forall n, exec n E P (meaning p) c s st = OOF \/
      exists x D' y st', reads (p_src P) D s p w x D' /\ exec n E P (meaning p) c s st = Ret y st' /\
        kept V D' st' /\ answers (p_src P) st' w x y.
  Proof.
    intros HD Hp Hw Hs c st Hc Ho Hk n.
    assert (Hdec : exec n E P (meaning p) c s st = OOF \/ exec n E P (meaning p) c s st <> OOF).
    { destruct (exec n E P (meaning p) c s st); [right; discriminate|right; discriminate|now left]. }
    destruct Hdec as [Hoof|Hne]; [now left|right].
    destruct (what_ends E P HE Hascii Hsmall V n) as (_ & _ & Hpat & _).
    destruct (Hpat D s p w HD Hp) as (x & D' & R & _); [now exists pre|exact Hs| |].
    { exists c, st. auto. }
    destruct (pattern_answers E P V HE Hascii Hsmall D s p w pre x D' R Hw Hs c st Hc Ho Hk) as (y & st' & (n' & Hn') & K & Y).
    exists x, D', y, st'. split; [exact R|]. split; [|auto].
    destruct (Nat.le_ge_cases n n') as [H|H].
    - pose proof (exec_upto E P n n' H (meaning p) c s st) as U. rewrite Hn' in U. destruct U as [U|U]; [congruence|exact U].
    - pose proof (exec_upto E P n' n H (meaning p) c s st) as U. rewrite Hn' in U. destruct U as [U|U]; [discriminate|now symmetry].
  Qed.

  Theorem entry_fate D s e : tidy E -> sane_book V D -> sane_entry e -> within V e -> V s ->
    forall c st, c_debug c = 0 -> c_off c = mkR 0 (slen (p_src P)) -> c_scope c = s -> kept V D st ->
    forall n, tokenize n E P c (entry_matcher e) st = OOF \/
      exists x D' t st', enters_entry (p_src P) D s e (p_src P) x D' /\
        tokenize n E P c (entry_matcher e) st = Ret t st' /\ results (p_src P) st' x t.
  Proof.
    intros HT HD He Hi Hs c st Hc Ho Hsc Hk n.
    assert (Hdec : tokenize n E P c (entry_matcher e) st = OOF \/ tokenize n E P c (entry_matcher e) st <> OOF).
    { destruct (tokenize n E P c (entry_matcher e) st); [right; discriminate|right; discriminate|now left]. }
    destruct Hdec as [Hoof|Hne]; [now left|right].
    destruct (what_ends E P HE Hascii Hsmall V n) as (_ & _ & _ & Hent).
    destruct (Hent D s e (p_src P) HD He Hi) as (x & D' & R & _); [now exists []|exact Hs| |].
    { exists c, st. split; [exact Hc|]. split; [rewrite Ho; f_equal; unfold pos; now rewrite N.sub_diag|]. split; [exact Hk|].
      intros K. apply Hne. unfold tokenize. rewrite Hsc, K. reflexivity. }
    destruct (entry_results E P V HE Hascii Hsmall D s e x D' HT R Hi Hs c st Hc Ho Hsc Hk) as (t & st' & (n' & Hn') & _ & Y).
    exists x, D', t, st'. split; [exact R|]. split; [|exact Y].
    destruct (Nat.le_ge_cases n n') as [H|H].
    - pose proof (tokenize_upto E P n n' c (entry_matcher e) st H) as U. rewrite Hn' in U. destruct U as [U|U]; [congruence|exact U].
    - pose proof (tokenize_upto E P n' n c (entry_matcher e) st H) as U. rewrite Hn' in U. destruct U as [U|U]; [discriminate|now symmetry].
  Qed.
End Fate.

(* a script alone *)
Lemma own_book_sane E V sc d src : measured E -> script_text E d src -> script_fault d = None ->
  sane_book V (own_book sc d) /\ Forall sane (s_patterns d).
Proof.
  intros HM Hd Hf. unfold script_fault in Hf. apply first_nones, Forall_app in Hf as [H1 H2].
  assert (Hfl : faultless (s_patterns d)).
  { unfold faultless. rewrite Forall_map in H2. exact H2. }
  split; [|eapply script_patterns_sane; eauto]. intros s x e _ He. unfold own_book in He. destruct (Nat.eqb s sc); [|discriminate].
  apply last_entry_in in He as (q & Hin & He). destruct (script_statements E d src Hd q Hin) as [u Hu].
  eapply statement_sane; eauto. rewrite Forall_map, Forall_forall in H1. auto.
Qed.

Theorem script_fate E P F compile name ff : tame E -> tidy E -> scope_tame E -> measured E ->
  ascii_only (p_src P) -> slen (p_src P) < isize_bound ->
  forall d st, script_text E d (p_src P) -> (forall ns path, ~ In (Import ns path) (s_statements d)) -> script_fault d = None ->
  let sc := S (next_sid st) in
  exists fuel st1, compile_with fuel E F compile P name ff false st = Ret (ScriptOk (compiled_script name sc d) sc) st1 /\
    (sc < next_sid st1)%nat /\
    forall Q label, ascii_only (p_src Q) -> slen (p_src Q) < isize_bound ->
    forall n, let out := tokenize n E Q (fst (context_new Q label st1)) (compiled_script name sc d) (snd (context_new Q label st1)) in
      out = OOF \/ exists x D' t st2,
        enters_entry (p_src Q) (own_book sc d) (next_sid st1) (Whole (s_name name d) sc (s_patterns d)) (p_src Q) x D' /\
        out = Ret t st2 /\ results (p_src Q) st2 x t.
Proof.
  intros HE HT HS HM Ha Hsm d st Hd Hi Hf. cbv zeta.
  destruct (script_compiles_whole E P F compile name ff HE HT Ha Hsm d st HS Hd Hi Hf) as (fuel & st1 & Hc & Hv & Hg).
  exists fuel, st1. split; [exact Hc|]. split; [exact Hv|]. intros Q label Qa Qs n. set (sc := S (next_sid st)) in *.
  set (V := fun s => s = sc \/ s = next_sid st1).
  destruct (own_book_sane E V sc d (p_src P) HM Hd Hf) as [HD Hps].
  apply (entry_fate E Q V HE Qa Qs (own_book sc d) (next_sid st1) (Whole (s_name name d) sc (s_patterns d)) HT HD).
  - now apply sane_list.
  - now left.
  - now right.
  - reflexivity.
  - reflexivity.
  - reflexivity.
  - apply (context_kept sc (fun s => s = sc)). split; [|split; [split; [|split]|]].
    + intros s ->. unfold valid_scope in Hv. unfold next_sid. lia.
    + now intros s ->.
    + intros s y ->. unfold own_book. rewrite Nat.eqb_refl. rewrite Hg, last_entry_matcher. now destruct (last_entry y (s_statements d)).
    + intros s y e ->. unfold own_book. rewrite Nat.eqb_refl. apply last_entry_within.
    + intros s y Hs. unfold own_book. destruct (Nat.eqb_spec s sc) as [-> |]; [|reflexivity].
      exfalso. apply Hs. unfold valid_scope in Hv. unfold next_sid. lia.
Qed.

(* a file and what it imports *)
Theorem project_fate E F file d : tame E -> tidy E -> measured E -> sound E F file d -> forall st, exists n sc st1 D,
  (forall depth fuel, (n <= depth)%nat -> (n <= fuel)%nat ->
     compile_file depth fuel E F false file st = Ret (ScriptOk (compiled_script file sc d) sc) st1) /\
  told E F D (next_sid st) (next_sid st1) file d sc /\ (forall x, D (next_sid st1) x = None) /\
  forall Q label, ascii_only (p_src Q) -> slen (p_src Q) < isize_bound ->
  forall k, let out := tokenize k E Q (fst (context_new Q label st1)) (compiled_script file sc d) (snd (context_new Q label st1)) in
    out = OOF \/ exists x D' t st2,
      enters_entry (p_src Q) D (next_sid st1) (Whole (s_name file d) sc (s_patterns d)) (p_src Q) x D' /\
      out = Ret t st2 /\ results (p_src Q) st2 x t.
Proof.
  intros HE HT HM Hs st. destruct (project_kept E F file d HE HT Hs st) as (n & sc & st1 & D & V & Hc & Ht & Hsp & Hsc & Hsa).
  destruct (Hsa HM) as [HD Hps].
  exists n, sc, st1, D. split; [exact Hc|]. split; [exact Ht|].
  assert (Hnone : forall x, D (next_sid st1) x = None) by (intros x; apply (proj2 (proj2 Hsp)); lia).
  split; [exact Hnone|]. intros Q label Qa Qs k.
  apply (entry_fate E Q (fun s => V s \/ s = next_sid st1) HE Qa Qs D (next_sid st1) (Whole (s_name file d) sc (s_patterns d)) HT).
  - intros s x e [Hv| ->] He; [eapply HD; eauto|]. rewrite Hnone in He. discriminate.
  - now apply sane_list.
  - now left.
  - now right.
  - reflexivity.
  - reflexivity.
  - reflexivity.
  - eapply context_kept; eauto.
Qed.

(* ---------- references in circles ---------- *)

Section Circle.
  Variables (source : str) (R : str -> Prop).
  Definition around (D : book) (s : sid) : Prop := forall x, R x -> exists e, D s x = Some e /\ circles_entry R e.
  Lemma around_put D s x e : around D s -> circles_entry R e -> around (put D s x e) s.
  Proof.
    intros H He y Hy. unfold put. rewrite Nat.eqb_refl. cbn [andb]. destruct (str_eqb x y); [now exists e|]. now apply H.
  Qed.
  Lemma around_noted D s name k : around D s -> circles_core R k -> around (noted D s name k) s.
  Proof.
    intros H Hk. assert (G : around (put D s name (Own name Unsigned Unsigned k [] Once)) s) by (apply around_put; [exact H|split; [exact Hk|exact Logic.I]]).
    unfold noted. destruct k; (match goal with |- around (if ?b then _ else _) _ => destruct b end); auto.
  Qed.
  Lemma circles_unread :
    (forall D s p w x D', reads source D s p w x D' -> around D s -> circles R p -> False) /\
    (forall D s name o i k l r w x D', layers source D s name o i k l r w x D' -> around D s -> circles_core R k -> some_round r -> False) /\
    (forall D s name i k l lo w0 left count kids w x D', rounds source D s name i k l lo w0 left count kids w x D' ->
       0 < left -> around D s -> circles_core R k -> False) /\
    (forall D s name k w x D', reads_core source D s name k w x D' -> around D s -> circles_core R k -> False) /\
    (forall D s ps w x D', tries source D s ps w x D' -> around D s -> match ps with p :: _ => circles R p | [] => False end -> False) /\
    (forall D s name ps w0 kids w x D', walks source D s name ps w0 kids w x D' -> around D s ->
       match ps with p :: _ => circles R p | [] => False end -> False) /\
    (forall D s e w x D', enters_entry source D s e w x D' -> around D s -> circles_entry R e -> False).
  Proof.
    apply reads_mutind; try (intros; lia); try (intros; now auto);
      try (intros; match goal with H : circles_core R _ |- _ => solve [inversion H] end).
    - intros D s o i k l r w x D' _ IH HD Hp. inversion Hp; subst. auto.
    - intros D s c o i k l r w x D' _ _ IH HD Hp. inversion Hp; subst. auto.
    - intros D s name o i k l r lo hi w x D' Hb _ IH HD Hk Hr. unfold some_round in Hr. rewrite Hb in Hr. apply IH; auto. lia.
    - intros D s name id e w x D' He _ IH HD Hk. pose proof (around_noted D s name _ HD Hk) as HN. inversion Hk as [y Hy| |]; subst.
      destruct (HN id Hy) as (e' & He' & Hc). rewrite He in He'. injection He' as <-. auto.
    - intros D s name id w He HD Hk. pose proof (around_noted D s name _ HD Hk) as HN. inversion Hk as [y Hy| |]; subst.
      destruct (HN id Hy) as (e' & He' & Hc). rewrite He in He'. discriminate.
    - intros D s name ps w x D' _ IH HD Hk. pose proof (around_noted D s name _ HD Hk) as HN. inversion Hk; subst. auto.
    - intros D s name ps w x D' _ IH HD Hk. pose proof (around_noted D s name _ HD Hk) as HN. inversion Hk; subst. auto.
    - intros D s name o i k l r w x D' _ IH HD [Hk Hr]. auto.
  Qed.
End Circle.

Theorem script_circles E P F compile name ff : tame E -> tidy E -> scope_tame E -> measured E ->
  ascii_only (p_src P) -> slen (p_src P) < isize_bound ->
  forall d st, script_text E d (p_src P) -> (forall ns path, ~ In (Import ns path) (s_statements d)) -> script_fault d = None ->
  circular_script d -> let sc := S (next_sid st) in
  exists fuel st1, compile_with fuel E F compile P name ff false st = Ret (ScriptOk (compiled_script name sc d) sc) st1 /\
    forall Q label, ascii_only (p_src Q) -> slen (p_src Q) < isize_bound ->
    forall n, tokenize n E Q (fst (context_new Q label st1)) (compiled_script name sc d) (snd (context_new Q label st1)) = OOF.
Proof.
  intros HE HT HS HM Ha Hsm d st Hd Hi Hf (R & HR & Hp) sc.
  destruct (script_fate E P F compile name ff HE HT HS HM Ha Hsm d st Hd Hi Hf) as (fuel & st1 & Hc & Hlt & H).
  exists fuel, st1. split; [exact Hc|]. intros Q label Qa Qs n. destruct (H Q label Qa Qs n) as [K|(x & D' & t & st2 & K & _)]; [exact K|].
  exfalso. inversion K as [| |? ? ? ? ? ? ? ? Hw]; subst. revert Hp.
  apply (proj1 (proj2 (proj2 (proj2 (proj2 (proj2 (circles_unread (p_src Q) R)))))) _ _ _ _ _ _ _ _ _ Hw).
  intros y Hy. destruct (HR y Hy) as (e & He & Hce). exists e. split; [|exact Hce].
  unfold put, own_book. rewrite (proj2 (Nat.eqb_neq (next_sid st1) _)) by lia. cbn [andb]. now rewrite Nat.eqb_refl.
Qed.
