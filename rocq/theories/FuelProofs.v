(* More fuel changes no outcome of a compilation. *)
From Verif Require Import ScriptBuild Spec SpecMore SpecScript Mono TokenizeProofs ScriptProofs SpecGuard GuardProofs GuardEnds GuardScript GuardCompile.
Open Scope string_scope.
Open Scope list_scope.
Open Scope N_scope.

Lemma tokenize_mono n n' E P c m st : (n <= n')%nat -> tokenize n E P c m st <> OOF -> tokenize n' E P c m st = tokenize n E P c m st.
Proof.
  intros Hn. unfold tokenize. destruct (exec n E P m c (c_scope c) st) eqn:Hx; intros H; try (destruct H; reflexivity);
    rewrite (exec_mono E P n n'), Hx by (auto; congruence); reflexivity.
Qed.

Section Visit.
  Context {W : Type}.
  Variables (st : state) (hooks hooks' : list (str * hook W)).
  Hypothesis Hooks : forall name a w, run_hook hooks name a w <> VFuel -> run_hook hooks' name a w = run_hook hooks name a w.
  Lemma visit_go_mono f : forall a w, visit_go f st hooks a w <> VFuel -> visit_go f st hooks' a w = visit_go f st hooks a w.
  Proof.
    induction f as [|f IH]; intros a w; cbn [visit_go]; [reflexivity|].
    assert (Hfold : forall ks o o', (o <> VFuel -> o' = o) ->
      fold_left (fun o k => match o with VOk w => visit_go f st hooks k w | _ => o end) ks o <> VFuel ->
      fold_left (fun o k => match o with VOk w => visit_go f st hooks' k w | _ => o end) ks o' =
      fold_left (fun o k => match o with VOk w => visit_go f st hooks k w | _ => o end) ks o).
    { induction ks as [|k ks IHk]; intros o o' Ho; cbn [fold_left]; [exact Ho|].
      apply IHk. destruct o as [w1|w1 e|p|]; [rewrite Ho by discriminate; apply IH|intros _; rewrite Ho by discriminate; reflexivity..|congruence]. }
    apply Hfold. apply Hooks.
  Qed.
  Lemma visit_mono a w : visit st hooks a w <> VFuel -> visit st hooks' a w = visit st hooks a w.
  Proof. apply visit_go_mono. Qed.
End Visit.

Definition finished_alike (compile compile' : str -> state -> res script_res) : Prop :=
  forall f s, compile f s <> OOF -> compile' f s = compile f s.
Lemma import_mono F compile compile' st sc ff a w : finished_alike compile compile' ->
  hook_import F compile st sc ff a w <> VFuel -> hook_import F compile' st sc ff a w = hook_import F compile st sc ff a w.
Proof.
  intros H. unfold hook_import. destruct ff as [f|]; [|reflexivity]. destruct (find_child _ _ "ImportIdentifiers"); [|reflexivity].
  destruct (find_child _ _ "Path") as [q|]; [|reflexivity]. destruct (fs_join F f _) as [file|]; [|reflexivity].
  specialize (H file (b_store w)). destruct (compile file (b_store w)) as [r s|p|] eqn:Hc; intros Hx; [rewrite H by discriminate..|destruct Hx]; reflexivity.
Qed.
Lemma hooks_mono E F compile compile' st sc ff name a w : finished_alike compile compile' ->
  run_hook (script_hooks E F compile st sc ff) name a w <> VFuel ->
  run_hook (script_hooks E F compile' st sc ff) name a w = run_hook (script_hooks E F compile st sc ff) name a w.
Proof.
  intros H. rewrite !hook_pick. destruct (str_eqb name "Error"); [reflexivity|]. destruct (str_eqb name "AdextopaScope"); [reflexivity|].
  destruct (str_eqb name "AssignmentExpression"); [reflexivity|]. destruct (str_eqb name "ImportStatement"); [now apply import_mono|reflexivity].
Qed.
Lemma build_mono E P F compile compile' root name ff st : finished_alike compile compile' ->
  build_matcher E P F compile root name ff st <> OOF -> build_matcher E P F compile' root name ff st = build_matcher E P F compile root name ff st.
Proof.
  intros H. unfold build_matcher. destruct (negb _); [reflexivity|].
  fold (script_hooks E F compile st (next_sid st) ff). fold (script_hooks E F compile' st (next_sid st) ff).
  pose proof (visit_mono st (script_hooks E F compile st (next_sid st) ff) (script_hooks E F compile' st (next_sid st) ff)
    (fun nm a w => hooks_mono E F compile compile' st (next_sid st) ff nm a w H) root (mkBst name [] [] (sc_new st))) as Hv.
  destruct (visit st (script_hooks E F compile st (next_sid st) ff) root _) as [w|w e|p|]; intros Hx; [rewrite Hv by discriminate; reflexivity..|destruct Hx; reflexivity].
Qed.
Theorem with_mono : forall n n' E F compile compile' P name ff log st, (n <= n')%nat -> finished_alike compile compile' ->
  compile_with n E F compile P name ff log st <> OOF ->
  compile_with n' E F compile' P name ff log st = compile_with n E F compile P name ff log st.
Proof.
  intros n n' E F compile compile' P name ff log st Hn Hc. unfold compile_with. destruct (context_new P name st) as [c st0].
  destruct (tokenize n E P c (Script_ E) _) as [r st1|p|] eqn:Ht; intros H; [| |destruct H; reflexivity];
    rewrite (tokenize_mono n n'), Ht by (auto; congruence); [|reflexivity].
  destruct r as [root|[|e]]; try reflexivity.
  pose proof (build_mono E P F compile compile' root name ff st1 Hc) as Hb.
  destruct (build_matcher E P F compile root name ff st1) as [b st2|p|]; [rewrite Hb by discriminate; reflexivity..|destruct H; reflexivity].
Qed.
Theorem text_mono : forall n n' E src name log st, (n <= n')%nat ->
  compile_str n E src name log st <> OOF -> compile_str n' E src name log st = compile_str n E src name log st.
Proof. intros n n' E src name log st Hn. apply with_mono; [exact Hn|]. intros f s H. now destruct H. Qed.
Theorem file_mono : forall d d' n n' E F log file st, (d <= d')%nat -> (n <= n')%nat ->
  compile_file d n E F log file st <> OOF -> compile_file d' n' E F log file st = compile_file d n E F log file st.
Proof.
  intros d d' n n' E F log file st Hd Hn. revert d' Hd file st. induction d as [|d IH]; intros d' Hd file st H; [now destruct H|].
  destruct d' as [|d']; [lia|]. cbn [compile_file] in *. destruct (fs_canon F file) as [full|]; [|reflexivity].
  destruct (fs_read F full) as [src|]; [|reflexivity]. apply with_mono; [exact Hn| |exact H].
  intros f s. apply IH. lia.
Qed.
Theorem file_unique : forall d d' n n' E F log file st,
  compile_file d n E F log file st <> OOF -> compile_file d' n' E F log file st <> OOF ->
  compile_file d n E F log file st = compile_file d' n' E F log file st.
Proof.
  intros d d' n n' E F log file st H H'.
  rewrite <- (file_mono d (d + d') n (n + n') E F log file st) by (auto; lia).
  apply file_mono; auto; lia.
Qed.
Theorem text_outcome : forall E src name log st, tame E -> tidy E -> returning E -> slen src < isize_bound ->
  exists r, r <> OOF /\ forall n, (18 * N.to_nat (slen src) + 24 <= n)%nat \/ compile_str n E src name log st <> OOF -> compile_str n E src name log st = r.
Proof.
  intros E src name log st HE HT HR Hl. set (b := (18 * N.to_nat (slen src) + 24)%nat).
  assert (H0 : compile_str b E src name log st <> OOF) by (apply str_ends; auto).
  exists (compile_str b E src name log st). split; [exact H0|]. intros n Hn.
  assert (Hx : compile_str n E src name log st <> OOF) by (destruct Hn as [Hn|Hn]; [apply str_ends; auto|exact Hn]).
  rewrite <- (text_mono n (n + b)) by (auto; lia). apply text_mono; [lia|exact H0].
Qed.
Theorem file_outcome : forall E F rank size log, tame E -> tidy E -> returning E ->
  (forall full src, fs_read F full = Some src -> slen src <= size) -> size < isize_bound ->
  (forall full next, imports E F full next -> (rank next < rank full)%nat) ->
  forall file st, exists r, r <> OOF /\
    forall d n, ((forall full, fs_canon F file = Some full -> (rank full < d)%nat) /\ (18 * N.to_nat size + 24 <= n)%nat) \/
                compile_file (S d) n E F log file st <> OOF -> compile_file (S d) n E F log file st = r.
Proof.
  intros E F rank size log HE HT HR HF Hs Hrank file st. set (b := (18 * N.to_nat size + 24)%nat).
  assert (Hd : exists d, forall full, fs_canon F file = Some full -> (rank full < d)%nat).
  { destruct (fs_canon F file) as [full|]; [exists (S (rank full)); intros x [= <-]; lia|exists 0%nat; discriminate]. }
  destruct Hd as [d0 Hd0]. pose proof (file_ends E F rank size log HE HT HR HF Hs Hrank) as He.
  assert (H0 : compile_file (S d0) b E F log file st <> OOF) by (apply He; auto).
  exists (compile_file (S d0) b E F log file st). split; [exact H0|]. intros d n Hn.
  apply file_unique; [|exact H0]. destruct Hn as [[H1 H2]|Hn]; [now apply He|exact Hn].
Qed.
