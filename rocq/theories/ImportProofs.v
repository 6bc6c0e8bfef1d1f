(* Scripts that import each other in a circle. *)
From Verif Require Import ScriptBuild Macros Spec SpecScript SpecMore Facts Mono TokenizeProofs ScriptProofs MoveProofs.
From Coq Require Import Lia.
Open Scope string_scope.
Open Scope list_scope.
Open Scope N_scope.

Definition nothing : call -> Prop := fun _ => False.

Lemma nothing_movable H0 S0 E : movable H0 S0 nothing E E.
Proof.
  intros st _ c c' _.
  split; [intros k a s []|]. split; [intros k e s []|]. split; [intros k e []|intros k s []].
Qed.

(* the grammar of scripts calls no user code and contains no scope contexts *)
Fixpoint quiet (n : nat) (m : matcher) : bool :=
  match n with
  | O => false
  | S n => match own_calls m with [] => forallb (quiet n) (parts m) | _ => false end
  end.
Lemma quiet_calls : forall n m, quiet n m = true -> calls_only nothing m.
Proof.
  induction n as [|n IH]; intros m H; [discriminate|]. cbn [quiet] in H.
  destruct (own_calls m) eqn:Eo; [|discriminate]. constructor.
  - rewrite Eo. intros x [].
  - intros x Hx. apply IH. rewrite forallb_forall in H. now apply H.
Qed.
Lemma script_quiet E : calls_only nothing (Script_ E).
Proof. apply (quiet_calls 60). vm_compute. reflexivity. Qed.
Lemma switch_quiet E : calls_only nothing (ScriptSwitchMatcher E).
Proof. apply (quiet_calls 60). vm_compute. reflexivity. Qed.
Lemma program_quiet E : calls_only nothing (ScriptProgramMatcher E).
Proof. apply (quiet_calls 60). vm_compute. reflexivity. Qed.
Lemma script_unmoved S0 E : moved_matcher S0 (Script_ E) = Script_ E.
Proof. reflexivity. Qed.
Lemma switch_unmoved S0 E : moved_matcher S0 (ScriptSwitchMatcher E) = ScriptSwitchMatcher E.
Proof. reflexivity. Qed.
Lemma program_unmoved S0 E : moved_matcher S0 (ScriptProgramMatcher E) = ScriptProgramMatcher E.
Proof. reflexivity. Qed.

Lemma start_moved E P n n' st :
  script_start E P n' st = moved_state (st_heap st) (st_scopes st) (script_start E P n empty_state).
Proof.
  unfold script_start, script_ctx, context_new, register_all, register, register_named. cbn [fst snd fold_left c_scope].
  assert (Hs : sc_new st = moved_state (st_heap st) (st_scopes st) (sc_new empty_state)).
  { unfold sc_new, moved_state, empty_state. cbn. now rewrite app_nil_r. }
  assert (Hn : next_sid st = moved_sid (st_scopes st) (next_sid empty_state)).
  { unfold next_sid, moved_sid, empty_state. cbn. lia. }
  rewrite <- !mv_sc_set. cbn [moved_variable]. now rewrite switch_unmoved, program_unmoved, <- Hs, <- Hn.
Qed.
Lemma ctx_moved P n n' st : moved_ctx (st_heap st) (st_scopes st) (script_ctx P n empty_state) (script_ctx P n' st).
Proof.
  unfold script_ctx, context_new, moved_ctx. cbn. repeat split. unfold next_sid, moved_sid. lia.
Qed.
Lemma start_quiet E P n : scopes_call_only nothing (script_start E P n empty_state).
Proof.
  unfold script_start, register_all, register, register_named. cbn [fold_left].
  apply (all_set (calls_only nothing)); [apply (all_set (calls_only nothing))|].
  - intros stack sc k m [<-|[]] []. 
  - intros m H. injection H as <-. apply switch_quiet.
  - intros m H. injection H as <-. apply program_quiet.
Qed.

(* parsing a script does not depend on what was there before *)
Lemma parse_moved E P n n' root st1 fuel st :
  Tokenizes E P (script_ctx P n empty_state) (Script_ E) (script_start E P n empty_state) (TOk root) st1 ->
  tokenize fuel E P (script_ctx P n' st) (Script_ E) (script_start E P n' st) = OOF \/
  tokenize fuel E P (script_ctx P n' st) (Script_ E) (script_start E P n' st) =
    Ret (TOk (moved_addr (st_heap st) root)) (moved_state (st_heap st) (st_scopes st) st1).
Proof.
  intros [k Hk]. rewrite (start_moved E P n n' st).
  pose proof (nothing_movable (st_heap st) (st_scopes st) E) as Hm.
  pose proof (ctx_moved P n n' st) as Hc. pose proof (start_quiet E P n) as Hq. pose proof (script_quiet E) as Hs.
  destruct (mv_exec _ _ _ _ _ P Hm eq_refl fuel _ _ _ (c_scope (script_ctx P n empty_state)) _ Hs Hc Hq) as [He _].
  pose proof (mv_tokenize (st_heap st) (st_scopes st) fuel _ _ _ P _ _ _ _ Hm eq_refl Hs Hc Hq) as Ht.
  rewrite script_unmoved in He, Ht.
  destruct (exec fuel E P (Script_ E) (script_ctx P n empty_state) (c_scope (script_ctx P n empty_state)) (script_start E P n empty_state)) as [r s1|p|] eqn:Ef.
  - right. assert (Hf : tokenize fuel E P (script_ctx P n empty_state) (Script_ E) (script_start E P n empty_state) = Ret (TOk root) st1).
    { rewrite <- Hk. unfold tokenize. rewrite Ef.
      destruct (exec k E P (Script_ E) (script_ctx P n empty_state) (c_scope (script_ctx P n empty_state)) (script_start E P n empty_state)) as [r2 s2|p|] eqn:Ek.
      - rewrite (exec_unique E P fuel k) in Ef by (rewrite ?Ef, ?Ek; discriminate). rewrite Ef in Ek. now injection Ek as <- <-.
      - unfold tokenize in Hk. rewrite Ek in Hk. discriminate.
      - unfold tokenize in Hk. rewrite Ek in Hk. discriminate. }
    rewrite Hf in Ht. exact Ht.
  - exfalso. unfold tokenize in Hk.
    destruct (exec k E P (Script_ E) (script_ctx P n empty_state) (c_scope (script_ctx P n empty_state)) (script_start E P n empty_state)) as [r2 s2|q|] eqn:Ek; try discriminate.
    rewrite (exec_unique E P fuel k) in Ef by (rewrite ?Ef, ?Ek; discriminate). congruence.
  - left. unfold tokenize. replace (c_scope (script_ctx P n' st)) with (moved_sid (st_scopes st) (c_scope (script_ctx P n empty_state))) by (symmetry; apply Hc).
    rewrite He. reflexivity.
Qed.

Lemma mv_child H0 S0 st a (n : String.string) k : first_kid st a [n] k ->
  find_child (moved_state H0 S0 st) (tok (moved_state H0 S0 st) (moved_addr H0 a)) (lit n) = Some (moved_addr H0 k).
Proof. intros H. apply child_some in H. now rewrite mv_tok, mv_find_child, H. Qed.

Lemma harmless_walk E F compile st sc ff l : (forall a, In a l -> no_statement st a) ->
  forall w, exists w', walk (script_hooks E F compile st sc ff) st l w = VOk w' /\ b_store w' = b_store w.
Proof.
  induction l as [|a l IH]; intros Hl w; cbn [walk]; [eauto|].
  destruct (Hl a (or_introl eq_refl)) as [H1 H2]. rewrite hook_pick.
  assert (Hr : exists w1, (if str_eqb (tk_name (tok st a)) "Error" then hook_error st a w
    else if str_eqb (tk_name (tok st a)) "AdextopaScope" then hook_scope st a w
    else if str_eqb (tk_name (tok st a)) "AssignmentExpression" then hook_assign E st sc a w
    else if str_eqb (tk_name (tok st a)) "ImportStatement" then hook_import F compile st sc ff a w
    else if str_eqb (tk_name (tok st a)) "PatternScope" then hook_patterns E st a w
    else VOk w) = VOk w1 /\ b_store w1 = b_store w).
  { destruct (str_eqb (tk_name (tok st a)) "Error") eqn:N1.
    { apply str_eqb_eq in N1. specialize (H2 N1). unfold hook_error.
      destruct (get_attr "__message" (tok st a)); [|congruence]. eexists. split; reflexivity. }
    destruct (str_eqb (tk_name (tok st a)) "AdextopaScope").
    { unfold hook_scope. destruct (get_attr "name" (tok st a)); eexists; split; reflexivity. }
    destruct (str_eqb (tk_name (tok st a)) "AssignmentExpression") eqn:N3.
    { apply str_eqb_eq in N3. destruct H1. rewrite N3. now left. }
    destruct (str_eqb (tk_name (tok st a)) "ImportStatement") eqn:N4.
    { apply str_eqb_eq in N4. destruct H1. rewrite N4. right. now left. }
    destruct (str_eqb (tk_name (tok st a)) "PatternScope") eqn:N5.
    { apply str_eqb_eq in N5. destruct H1. rewrite N5. right. right. now left. }
    eauto. }
  destruct Hr as (w1 & -> & Hw1). destruct (IH (fun x Hx => Hl x (or_intror Hx)) w1) as (w' & H & Hw'). exists w'. split; [exact H|congruence].
Qed.

Lemma moved_harmless H0 S0 st a : no_statement st a -> no_statement (moved_state H0 S0 st) (moved_addr H0 a).
Proof. unfold no_statement. now rewrite mv_tok. Qed.

Lemma visit_walk {W} (hooks : list (str * hook W)) st a l w : preorder st [a] l -> visit st hooks a w = walk hooks st l w.
Proof. intros H. apply (visit_walks hooks st a l w); [exact H|apply walk_walks]. Qed.

Lemma circle E F (K : str -> Prop) :
  (forall full, K full -> exists next, imports_first E F full next /\ K next) ->
  forall depth fuel log file full st, fs_canon F file = Some full -> K full ->
  compile_file depth fuel E F log file st = OOF.
Proof.
  intros HK. induction depth as [|d IH]; intros fuel log file full st Hc Hf; [reflexivity|].
  destruct (HK full Hf) as (next & (src & root & st1 & before & imp & after & ii & p & file2 & Hsrc & Ht & Hroot & Hpre & Hb & Himp & Hii & Hp & Hj & Hn) & HKn).
  cbn [compile_file]. rewrite Hc, Hsrc. unfold compile_with. cbv zeta in Ht.
  pose proof (parse_moved E (parser_named src full) full file root st1 fuel st Ht) as Hpm.
  unfold script_start, script_ctx in Hpm. destruct (context_new (parser_named src full) file st) as [c0 s0]. cbn [fst snd] in Hpm.
  destruct Hpm as [-> | ->]; [reflexivity|].
  set (H0 := st_heap st). set (S0 := st_scopes st). set (st2 := moved_state H0 S0 st1).
  assert (Hbm : build_matcher E (parser_named src full) F (compile_file d fuel E F log) (moved_addr H0 root) file (Some full) st2 = OOF).
  { unfold build_matcher. unfold st2 at 1. rewrite mv_tok. cbn [moved_token tk_name]. rewrite Hroot.
    change (str_eqb (lit "Script") "Script") with true. cbn [negb].
    fold (script_hooks E F (compile_file d fuel E F log) st2 (next_sid st2) (Some full)).
    rewrite (visit_walk _ st2 (moved_addr H0 root) (map (moved_addr H0) (before ++ imp :: after)))
      by (apply (mv_preorder H0 S0 st1 [root]); exact Hpre).
    rewrite map_app, walk_app.
    destruct (harmless_walk E F (compile_file d fuel E F log) st2 (next_sid st2) (Some full) (map (moved_addr H0) before)) with (w := mkBst file [] [] (sc_new st2)) as (w1 & -> & _).
    { intros a Ha. apply in_map_iff in Ha as (x & <- & Hx). apply moved_harmless. now apply Hb. }
    assert (Hnm : tk_name (tok st2 (moved_addr H0 imp)) = lit "ImportStatement") by (unfold st2; rewrite mv_tok; exact Himp).
    cbn [map walk]. rewrite hook_pick, Hnm.
    assert (Hi : hook_import F (compile_file d fuel E F log) st2 (next_sid st2) (Some full) (moved_addr H0 imp) w1 = VFuel).
    { unfold hook_import. unfold st2 at 1 2. rewrite (mv_child _ _ _ _ _ _ Hii).
      unfold st2 at 1 2. rewrite (mv_child _ _ _ _ _ _ Hp).
      unfold st2 at 1. rewrite mv_tok. change (get_value (moved_token H0 (tok st1 p))) with (get_value (tok st1 p)).
      rewrite Hj. now rewrite (IH fuel log file2 next (b_store w1) Hn HKn). }
    change (str_eqb (lit "ImportStatement") "Error") with false.
    change (str_eqb (lit "ImportStatement") "AdextopaScope") with false.
    change (str_eqb (lit "ImportStatement") "AssignmentExpression") with false.
    change (str_eqb (lit "ImportStatement") "ImportStatement") with true. cbv iota. now rewrite Hi. }
  now rewrite Hbm.
Qed.

Lemma self_import E F full : imports_first E F full full ->
  forall depth fuel log file st, fs_canon F file = Some full -> compile_file depth fuel E F log file st = OOF.
Proof.
  intros H depth fuel log file st Hc. apply (circle E F (fun x => x = full)) with full; auto.
  intros x ->. eauto.
Qed.

(* ---------- any execution ---------- *)

Lemma moved_does H0 S0 U E E' P m c c' s st o : movable H0 S0 U E E' -> e_checks E' = e_checks E ->
  calls_only U m -> moved_ctx H0 S0 c c' -> scopes_call_only U st ->
  Does E P m c s st o ->
  Does E' P (moved_matcher S0 m) c' (moved_sid S0 s) (moved_state H0 S0 st) (moved_outcome H0 S0 o).
Proof.
  intros Hm He Hu Hc Hg.
  assert (Heq : forall f, exec f E' P (moved_matcher S0 m) c' (moved_sid S0 s) (moved_state H0 S0 st) =
    moved_res H0 S0 (moved_result H0) (exec f E P m c s st)).
  { intros f. apply (mv_exec H0 S0 U E E' P Hm He f m c c' s st Hu Hc Hg). }
  destruct o as [r st'|p|]; cbn [moved_outcome Does].
  - intros [n Hn]. exists n. now rewrite Heq, Hn.
  - intros [n Hn]. exists n. now rewrite Heq, Hn.
  - intros Hn n. now rewrite Heq, Hn.
Qed.
Lemma does_moved H0 S0 U E E' P m c c' s st o' : movable H0 S0 U E E' -> e_checks E' = e_checks E ->
  calls_only U m -> moved_ctx H0 S0 c c' -> scopes_call_only U st ->
  Does E' P (moved_matcher S0 m) c' (moved_sid S0 s) (moved_state H0 S0 st) o' ->
  exists o, Does E P m c s st o /\ o' = moved_outcome H0 S0 o.
Proof.
  intros Hm He Hu Hc Hg.
  assert (Heq : forall f, exec f E' P (moved_matcher S0 m) c' (moved_sid S0 s) (moved_state H0 S0 st) =
    moved_res H0 S0 (moved_result H0) (exec f E P m c s st)).
  { intros f. apply (mv_exec H0 S0 U E E' P Hm He f m c c' s st Hu Hc Hg). }
  destruct o' as [r st'|p|]; cbn [Does].
  - intros [n Hn]. rewrite Heq in Hn. destruct (exec n E P m c s st) as [r0 st0|q|] eqn:Ee; cbn [moved_res] in Hn; try discriminate.
    injection Hn as <- <-. exists (Done r0 st0). split; [now exists n|reflexivity].
  - intros [n Hn]. rewrite Heq in Hn. destruct (exec n E P m c s st) as [r0 st0|q|] eqn:Ee; cbn [moved_res] in Hn; try discriminate.
    injection Hn as <-. exists (Panicked q). split; [now exists n|reflexivity].
  - intros Hn. exists Never. split; [|reflexivity]. intros n. specialize (Hn n). rewrite Heq in Hn.
    now destruct (exec n E P m c s st).
Qed.

(* the tokens of trees in order, computed *)
Fixpoint listing (n : nat) (st : state) (roots : list addr) : option (list addr) :=
  match n, roots with
  | _, [] => Some []
  | O, _ => None
  | S n, a :: roots =>
      match listing n st (tk_kids (tok st a)), listing n st roots with
      | Some l1, Some l2 => Some (a :: l1 ++ l2)
      | _, _ => None
      end
  end.
Lemma listing_preorder st : forall n roots l, listing n st roots = Some l -> preorder st roots l.
Proof.
  induction n as [|n IH]; intros [|a roots] l; cbn [listing]; intros H; try discriminate; try (injection H as <-; constructor).
  destruct (listing n st (tk_kids (tok st a))) as [l1|] eqn:E1; [|discriminate].
  destruct (listing n st roots) as [l2|] eqn:E2; [|discriminate]. injection H as <-. constructor; auto.
Qed.

(* [imports_first], computed *)
Definition quiet_token (st : state) (a : addr) : bool :=
  let n := tk_name (tok st a) in
  negb (str_eqb n "AssignmentExpression") && negb (str_eqb n "ImportStatement") && negb (str_eqb n "PatternScope") &&
  (negb (str_eqb n "Error") || match get_attr "__message" (tok st a) with Some _ => true | None => false end).
Definition nat_list_eqb (a b : list nat) : bool := if list_eq_dec Nat.eq_dec a b then true else false.
Definition import_check (F : fs) (full next : str) (r : res tres)
  (before : list addr) (imp : addr) (after : list addr) : bool :=
  match r with
  | Ret (TOk root) st =>
      str_eqb (tk_name (tok st root)) "Script" &&
      match listing (S (List.length (st_heap st))) st [root] with
      | Some l => nat_list_eqb l (before ++ imp :: after)
      | None => false
      end &&
      forallb (quiet_token st) before && str_eqb (tk_name (tok st imp)) "ImportStatement" &&
      match find_child st (tok st imp) "ImportIdentifiers", find_child st (tok st imp) "Path" with
      | Some _, Some p =>
          match fs_join F full (get_value (tok st p)) with
          | Some file => match fs_canon F file with Some x => str_eqb x next | None => false end
          | None => false
          end
      | _, _ => false
      end
  | _ => false
  end.
Lemma import_checked E F full next src fuel before imp after : fs_read F full = Some src ->
  (let P := parser_named src full in
   import_check F full next (tokenize fuel E P (script_ctx P full empty_state) (Script_ E) (script_start E P full empty_state))
                before imp after = true) ->
  imports_first E F full next.
Proof.
  intros Hs. cbv zeta. unfold import_check.
  destruct (tokenize fuel E (parser_named src full) _ _ _) as [[root|e] st| |] eqn:Et; try discriminate.
  rewrite !Bool.andb_true_iff. intros ((((H1 & H2) & H3) & H4) & H5).
  destruct (listing _ st [root]) as [l|] eqn:El; [|discriminate]. apply listing_preorder in El.
  unfold nat_list_eqb in H2. destruct (list_eq_dec Nat.eq_dec l (before ++ imp :: after)) as [->|]; [|discriminate].
  destruct (find_child st (tok st imp) "ImportIdentifiers") as [ii|] eqn:Ei; [|discriminate].
  destruct (find_child st (tok st imp) "Path") as [p|] eqn:Ep; [|discriminate].
  destruct (fs_join F full (get_value (tok st p))) as [file|] eqn:Ej; [|discriminate].
  destruct (fs_canon F file) as [x|] eqn:Ec; [|discriminate]. apply str_eqb_eq in H5. subst x.
  exists src, root, st, before, imp, after, ii, p, file.
  split; [exact Hs|]. split; [exists fuel; exact Et|]. split; [now apply str_eqb_eq|]. split; [exact El|]. split.
  { intros a Ha. rewrite forallb_forall in H3. specialize (H3 a Ha). unfold quiet_token in H3.
    rewrite !Bool.andb_true_iff in H3. destruct H3 as (((Q1 & Q2) & Q3) & Q4). split.
    - intros [X|[X|[X|[]]]]; rewrite <- X in *; discriminate.
    - intros X. rewrite X in Q4. change (str_eqb (lit "Error") "Error") with true in Q4. cbn [negb orb] in Q4.
      destruct (get_attr "__message" (tok st a)); discriminate. }
  split; [now apply str_eqb_eq|]. split; [now apply child_some|]. split; [now apply child_some|]. split; assumption.
Qed.
