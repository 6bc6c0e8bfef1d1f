(* Asking for a log changes nothing but the log (C76). *)
From Verif Require Import ImportProofs TokenizeProofs CombProofs TreeProofs CompileProofs ProjectProofs ScriptProofs.
From Verif Require Import Samples SampleScripts SampleReads.
From Verif Require Export LogOps Spec SpecScript SpecSyntax.
From Coq Require Import Lia.
Open Scope string_scope.
Open Scope list_scope.
Open Scope N_scope.

Lemma fold_stuck {W} f st (hooks : list (str * hook W)) l o : (forall w, o <> VOk w) ->
  fold_left (fun o k => match o with VOk w => visit_go f st hooks k w | _ => o end) l o = o.
Proof. intros H. induction l as [|k l IH]; cbn; [reflexivity|]. destruct o; try apply IH. now destruct (H w). Qed.

(* every child of the root was visited *)
Lemma visited_kids {W} (hooks : list (str * hook W)) f st l : forall o w,
  fold_left (fun o k => match o with VOk w => visit_go f st hooks k w | _ => o end) l o = VOk w ->
  forall k, In k l -> exists w1 w2, visit_go f st hooks k w1 = VOk w2.
Proof.
  induction l as [|x l IH]; intros o w H k []; cbn [fold_left] in H.
  - subst x. destruct o; try (rewrite fold_stuck in H; [discriminate|discriminate]).
    destruct (visit_go f st hooks k w0) eqn:Eq; eauto; rewrite fold_stuck in H; discriminate.
  - eapply IH; eauto.
Qed.
Lemma visited_hook {W} (hooks : list (str * hook W)) f st k w1 w2 : visit_go f st hooks k w1 = VOk w2 ->
  exists w, run_hook hooks (tk_name (tok st k)) k w1 = VOk w.
Proof.
  destruct f as [|f]; cbn [visit_go]; [discriminate|]. intros H.
  destruct (run_hook _ _ _ _) eqn:Eq; eauto; rewrite fold_stuck in H; discriminate.
Qed.

Lemma built_messages E P F compile a name ff st m sc st' :
  build_matcher E P F compile a name ff st = Ret (ScriptOk m sc) st' ->
  forall k, In k (tk_kids (tok st a)) -> tk_name (tok st k) = lit "Error" ->
  exists msg, get_attr "__message" (tok st k) = Some msg.
Proof.
  unfold build_matcher. destruct (negb _); [discriminate|]. intros H k Hk Hn.
  destruct (visit _ _ _ _) as [w|w e|p|] eqn:V; try discriminate.
  - unfold visit in V. cbn [visit_go] in V.
    destruct (visited_kids _ _ _ _ _ _ V k Hk) as (w1 & w2 & H1).
    apply visited_hook in H1 as [w3 H1]. rewrite Hn in H1. unfold run_hook, pick_hook in H1.
    cbn [find_hook] in H1. change (str_eqb "Error" (lit "Error")) with true in H1. cbn iota in H1.
    unfold hook_error in H1. destruct (get_attr _ _); [eauto|discriminate].
  - destruct (pe_msg e); [discriminate|]. destruct (error_string _ _ _ _); discriminate.
Qed.
Lemma log_tokens_all st l :
  (forall k, In k l -> tk_name (tok st k) = lit "Error" -> exists msg, get_attr "__message" (tok st k) = Some msg) ->
  forallb (fun k => negb (str_eqb (tk_name (tok st k)) "Error")
                    || match get_attr "__message" (tok st k) with Some _ => true | None => false end) l = true /\
  exists ms, log_tokens st l = Val ms /\
    Forall2 (fun k m => get_attr "__message" (tok st k) = Some m)
            (filter (fun k => str_eqb (tk_name (tok st k)) "Error") l) ms.
Proof.
  induction l as [|k l IH]; intros H; cbn [forallb log_tokens filter].
  - split; [reflexivity|]. exists []. auto.
  - destruct IH as (I1 & ms & I2 & I3); [intros; apply H; cbn; auto|]. rewrite I1, I2.
    destruct (str_eqb (tk_name (tok st k)) "Error") eqn:Ek; cbn [negb orb].
    + apply str_eqb_eq in Ek. destruct (H k (or_introl eq_refl) Ek) as [msg Hm]. rewrite Hm.
      split; [reflexivity|]. exists (msg :: ms). split; [reflexivity|]. now constructor.
    + split; [reflexivity|]. eauto.
Qed.

Lemma flag_with fuel E F compile P name ff st :
  compile_with fuel E F compile P name ff true st = compile_with fuel E F compile P name ff false st.
Proof.
  unfold compile_with. destruct (context_new P name st) as [c st1].
  destruct (tokenize _ _ _ _ _ _) as [[a|e] st2|p|]; try reflexivity.
  destruct (build_matcher _ _ _ _ _ _ _ _) as [[m sc|l] st3|p|] eqn:B; try reflexivity.
  destruct (log_tokens_all st2 (tk_kids (tok st2 a)) (built_messages _ _ _ _ _ _ _ _ _ _ _ B)) as [H _].
  unfold log_ok. now rewrite H.
Qed.

(* ---------- visits that carry more ---------- *)

Definition vmap {A B} (p : A -> B) (r : vres A) : vres B :=
  match r with VOk w => VOk (p w) | VErr w e => VErr (p w) e | VPan x => VPan x | VFuel => VFuel end.

Lemma visit_go_proj {A B} (p : A -> B) (h' : list (str * hook A)) (h : list (str * hook B)) st :
  (forall name a w, vmap p (run_hook h' name a w) = run_hook h name a (p w)) ->
  forall f a w, vmap p (visit_go f st h' a w) = visit_go f st h a (p w).
Proof.
  intros H. induction f as [|f IH]; intros a w; cbn [visit_go]; [reflexivity|].
  rewrite <- H. generalize (run_hook h' (tk_name (tok st a)) a w). intros o. revert o.
  induction (tk_kids (tok st a)) as [|k l IHl]; intros o; cbn [fold_left]; [reflexivity|].
  rewrite IHl. f_equal. destruct o; cbn [vmap]; auto.
Qed.

Lemma import_same F c1 c2 st sc ff a w : (forall f s, c1 f s = c2 f s) ->
  hook_import F c1 st sc ff a w = hook_import F c2 st sc ff a w.
Proof. intros H. unfold hook_import. destruct ff; [|reflexivity]. destruct (find_child st (tok st a) "ImportIdentifiers"); [|reflexivity]. destruct (find_child st (tok st a) "Path"); [|reflexivity]. destruct (fs_join F s _); [|reflexivity]. now rewrite H. Qed.

Lemma build_same E P F c1 c2 a name ff st : (forall f s, c1 f s = c2 f s) ->
  build_matcher E P F c1 a name ff st = build_matcher E P F c2 a name ff st.
Proof.
  intros H. unfold build_matcher. destruct (negb _); [reflexivity|].
  match goal with |- match ?x with _ => _ end = match ?y with _ => _ end => assert (V : x = y) end; [|now rewrite V].
  unfold visit. match goal with |- visit_go ?f ?st ?h1 ?a ?w = visit_go _ _ ?h2 _ _ =>
    assert (K := visit_go_proj (fun x : bst => x) h1 h2 st); rewrite <- K end.
  - now destruct (visit_go _ _ _ _ _).
  - intros n k w. unfold run_hook, pick_hook. cbn [find_hook].
    destruct (str_eqb "Error" n); [now destruct (hook_error _ _ _)|].
    destruct (str_eqb "AdextopaScope" n); [now destruct (hook_scope _ _ _)|].
    destruct (str_eqb "AssignmentExpression" n); [now destruct (hook_assign _ _ _ _ _)|].
    destruct (str_eqb "ImportStatement" n).
    { rewrite <- (import_same F c1 c2) by exact H. now destruct (hook_import _ _ _ _ _ _ _). }
    destruct (str_eqb "PatternScope" n); [now destruct (hook_patterns _ _ _ _)|]. reflexivity.
Qed.

Lemma compile_same fuel E F c1 c2 P name ff log st : (forall f s, c1 f s = c2 f s) ->
  compile_with fuel E F c1 P name ff log st = compile_with fuel E F c2 P name ff log st.
Proof.
  intros H. unfold compile_with. destruct (context_new P name st) as [c st1].
  destruct (tokenize _ _ _ _ _ _) as [[a|e] st2|p|]; try reflexivity.
  now rewrite (build_same E P F c1 c2) by exact H.
Qed.
Lemma flag_file d : forall fuel E F file st,
  compile_file d fuel E F true file st = compile_file d fuel E F false file st.
Proof.
  induction d as [|d IH]; intros fuel E F file st; cbn [compile_file]; [reflexivity|].
  destruct (fs_canon F file); [|reflexivity]. destruct (fs_read F _); [|reflexivity].
  rewrite flag_with. apply compile_same. intros. apply IH.
Qed.
Lemma flag_str fuel E src name st : compile_str fuel E src name true st = compile_str fuel E src name false st.
Proof. apply flag_with. Qed.

(* ---------- printing ---------- *)

Definition rmap {A B} (p : A -> B) (r : res A) : res B :=
  match r with Ret x s => Ret (p x) s | Pan x => Pan x | OOF => OOF end.

Lemma build_printed E P F c' c a name ff st : (forall f s, rmap fst (c' f s) = c f s) ->
  rmap fst (build_printing E P F c' a name ff st) = build_matcher E P F c a name ff st.
Proof.
  intros H. unfold build_printing, build_matcher. destruct (negb _); [reflexivity|].
  match goal with |- rmap fst (match ?x with _ => _ end) = match ?y with _ => _ end => assert (V : vmap fst x = y) end.
  { unfold visit. apply (visit_go_proj (@fst bst (list str))). intros n k [w l]. unfold run_hook, pick_hook. cbn [find_hook].
    destruct (str_eqb "Error" n); [unfold quiet; cbn [fst snd]; now destruct (hook_error _ _ _)|].
    destruct (str_eqb "AdextopaScope" n); [unfold quiet; cbn [fst snd]; now destruct (hook_scope _ _ _)|].
    destruct (str_eqb "AssignmentExpression" n); [unfold quiet; cbn [fst snd]; now destruct (hook_assign _ _ _ _ _)|].
    destruct (str_eqb "ImportStatement" n).
    { unfold hook_import_printing, quiet. cbn [fst snd].
      rewrite (import_same F _ c) by (intros f s; rewrite <- H; now destruct (c' f s)).
      now destruct (hook_import _ _ _ _ _ _ _). }
    destruct (str_eqb "PatternScope" n); [unfold quiet; cbn [fst snd]; now destruct (hook_patterns _ _ _ _)|]. reflexivity. }
  rewrite <- V. destruct (visit _ _ _ _) as [[w l]|[w l] e|p|]; cbn [vmap rmap fst]; try reflexivity.
  destruct (pe_msg e); [reflexivity|]. now destruct (error_string _ _ _ _).
Qed.

Lemma compile_printed fuel E F c' c P name ff st : (forall f s, rmap fst (c' f s) = c f s) ->
  rmap fst (compile_printing fuel E F c' P name ff st) = compile_with fuel E F c P name ff true st.
Proof.
  intros H. rewrite flag_with. unfold compile_printing, compile_with. destruct (context_new P name st) as [cc st1].
  destruct (tokenize _ _ _ _ _ _) as [[a|[|e]] st2|p|]; try reflexivity.
  rewrite <- (build_printed E P F c' c) by exact H.
  pose proof (build_printed E P F c' c a name ff st2 H) as B.
  destruct (build_printing _ _ _ _ _ _ _ _) as [[[m sc|l] lines] st3|p|]; cbn [rmap fst] in *; try reflexivity.
  destruct (log_tokens_all st2 (tk_kids (tok st2 a)) (built_messages _ _ _ _ _ _ _ _ _ _ _ (eq_sym B))) as (_ & ms & -> & _).
  reflexivity.
Qed.
Lemma file_printed d : forall fuel E F file st log,
  rmap fst (compile_file_printing d fuel E F file st) = compile_file d fuel E F log file st.
Proof.
  intros fuel E F file st log. replace (compile_file d fuel E F log file st) with (compile_file d fuel E F true file st)
    by (destruct log; [reflexivity|apply flag_file]).
  clear log. revert file st. induction d as [|d IH]; intros file st; cbn [compile_file compile_file_printing]; [reflexivity|].
  destruct (fs_canon F file); [|reflexivity]. destruct (fs_read F _); [|reflexivity].
  apply compile_printed. exact IH.
Qed.

(* ---------- what is printed ---------- *)

Definition settles {W} (Q : W -> Prop) (r : vres W) : Prop :=
  match r with VOk w | VErr w _ => Q w | _ => True end.
Lemma visit_go_keeps {W} (Q : W -> Prop) (hooks : list (str * hook W)) st :
  (forall name a w, Q w -> settles Q (run_hook hooks name a w)) ->
  forall f a w, Q w -> settles Q (visit_go f st hooks a w).
Proof.
  intros H. induction f as [|f IH]; intros a w Hw; cbn [visit_go]; [exact Logic.I|].
  generalize (H (tk_name (tok st a)) a w Hw). generalize (run_hook hooks (tk_name (tok st a)) a w). intros o. revert o.
  induction (tk_kids (tok st a)) as [|k l IHl]; intros o Ho; cbn [fold_left]; [exact Ho|].
  apply IHl. destruct o; auto.
Qed.

(* lines that calls of [c] printed *)
Definition printed_by (c : str -> state -> res (script_res * list str)) (lines : list str) : Prop :=
  exists ls, lines = List.concat ls /\ Forall (fun l => exists file s b s', c file s = Ret (b, l) s') ls.
Lemma printed_none c : printed_by c [].
Proof. exists []. auto. Qed.
Lemma printed_more c l file s b l' s' : printed_by c l -> c file s = Ret (b, l') s' -> printed_by c (l ++ l').
Proof.
  intros (ls & -> & H) Hc. exists (ls ++ [l']). split; [now rewrite concat_app; cbn; rewrite app_nil_r|].
  apply Forall_app. split; [exact H|]. constructor; [|constructor]. eauto 6.
Qed.
Lemma quiet_keeps (Q : list str -> Prop) h a w : Q (snd w) -> settles (fun x => Q (snd x)) (quiet h a w).
Proof. intros H. unfold quiet. now destruct (h a (fst w)). Qed.
Lemma import_keeps F c st sc ff a w : printed_by c (snd w) ->
  settles (fun x => printed_by c (snd x)) (hook_import_printing F c st sc ff a w).
Proof.
  intros H. unfold hook_import_printing. apply quiet_keeps. cbn [snd].
  assert (H0 : printed_by c (snd w ++ [])) by now rewrite app_nil_r.
  destruct ff; [|exact H0]. destruct (find_child st (tok st a) "ImportIdentifiers"); [|exact H0].
  destruct (find_child st (tok st a) "Path"); [|exact H0]. destruct (fs_join F s _) as [file|]; [|exact H0].
  destruct (c file (b_store (fst w))) as [[b l] s'|p|] eqn:Hc; try exact H0. eapply printed_more; eauto.
Qed.
Lemma build_prints E P F c a name ff st b l st' : build_printing E P F c a name ff st = Ret (b, l) st' -> printed_by c l.
Proof.
  unfold build_printing. destruct (negb _).
  { intros H. injection H as _ <- _. apply printed_none. }
  match goal with |- match ?x with _ => _ end = _ -> _ => assert (V : settles (fun w => printed_by c (snd w)) x) end.
  { unfold visit. apply visit_go_keeps; [|apply printed_none]. intros n k w Hw. unfold run_hook, pick_hook. cbn [find_hook].
    destruct (str_eqb "Error" n); [now apply quiet_keeps|]. destruct (str_eqb "AdextopaScope" n); [now apply quiet_keeps|].
    destruct (str_eqb "AssignmentExpression" n); [now apply quiet_keeps|].
    destruct (str_eqb "ImportStatement" n); [now apply import_keeps|].
    destruct (str_eqb "PatternScope" n); [now apply quiet_keeps|]. exact Hw. }
  destruct (visit _ _ _ _) as [[w l']|[w l'] e|p|]; cbn [settles snd] in V; intros H; try discriminate.
  - injection H as <- <- <-. exact V.
  - destruct (pe_msg e); [now injection H as <- <- <-|]. destruct (error_string _ _ _ _); [|discriminate]. now injection H as <- <- <-.
Qed.

(* first the lines of the imports, then those of the call itself *)
Lemma own_lines fuel E F c' P name ff st b lines st' :
  compile_printing fuel E F c' P name ff st = Ret (b, lines) st' ->
  exists before own, lines = before ++ own /\ printed_by c' before /\
  match b with
  | ScriptErr l => own = map pe_msg l
  | ScriptOk _ _ => exists a st2,
      Tokenizes E P (script_ctx P name st) (Script_ E) (script_start E P name st) (TOk a) st2 /\
      Forall2 (fun k m => get_attr "__message" (tok st2 k) = Some m)
              (filter (fun k => str_eqb (tk_name (tok st2 k)) "Error") (tk_kids (tok st2 a))) own
  end.
Proof.
  unfold compile_printing, script_start, script_ctx. destruct (context_new P name st) as [cc st1]. cbn [fst snd].
  destruct (tokenize _ _ _ _ _ _) as [[a|[|e]] st2|p|] eqn:T; intros H; try discriminate.
  - destruct (build_printing _ _ _ _ _ _ _ _) as [[[m sc|l] pre] st3|p|] eqn:B; try discriminate.
    + pose proof (build_printed E P F c' (fun f s => rmap fst (c' f s)) a name ff st2 (fun _ _ => eq_refl)) as B'.
      pose proof (build_prints _ _ _ _ _ _ _ _ _ _ _ B) as Hb.
      rewrite B in B'. cbn [rmap fst] in B'.
      destruct (log_tokens_all st2 (tk_kids (tok st2 a)) (built_messages _ _ _ _ _ _ _ _ _ _ _ (eq_sym B'))) as (_ & ms & Hms & F2).
      rewrite Hms in H. injection H as <- <- <-. exists pre, ms. split; [reflexivity|]. split; [exact Hb|].
      do 2 eexists. split; [eexists; exact T|exact F2].
    + pose proof (build_prints _ _ _ _ _ _ _ _ _ _ _ B) as Hb. injection H as <- <- <-. exists pre, (map pe_msg l). auto.
  - injection H as <- <- <-. eexists [], _. split; [reflexivity|]. split; [apply printed_none|reflexivity].
  - injection H as <- <- <-. eexists [], _. split; [reflexivity|]. split; [apply printed_none|reflexivity].
Qed.

(* a script that is written well adds nothing *)
Lemma written_adds_nothing fuel E F c' P name ff d st m sc lines st' : tame E -> tidy E ->
  ascii_only (p_src P) -> slen (p_src P) < isize_bound -> script_text E d (p_src P) ->
  compile_printing fuel E F c' P name ff st = Ret (ScriptOk m sc, lines) st' -> printed_by c' lines.
Proof.
  intros HE HT Ha Hs Hd H. destruct (own_lines _ _ _ _ _ _ _ _ _ _ _ H) as (before & own & -> & Hb & a & st2 & Htk & Ho).
  destruct (script_parses E P F (fun _ _ => OOF) name ff HE HT Ha Hs d st Hd) as (root & st1 & Htk' & _ & _ & _ & Hne).
  destruct (tokenizes_det _ _ _ _ _ _ _ _ _ Htk Htk') as [E1 E2]. injection E1 as ->. subst st2.
  assert (Hf : filter (fun k => str_eqb (tk_name (tok st1 k)) "Error") (tk_kids (tok st1 root)) = []).
  { clear Ho. induction (tk_kids (tok st1 root)) as [|k l IH]; [reflexivity|]. cbn [filter].
    destruct (str_eqb (tk_name (tok st1 k)) "Error") eqn:He; [|apply IH; intros; apply Hne; now right].
    apply str_eqb_eq in He. destruct (Hne k); [now left|exact He]. }
  rewrite Hf in Ho. inversion Ho; subst. now rewrite app_nil_r.
Qed.
Lemma printed_silent c l : (forall file s b l s', c file s = Ret (b, l) s' -> l = []) -> printed_by c l -> l = [].
Proof.
  intros H (ls & -> & Hl). induction Hl as [|x ls (file & s & b & s' & Hx) _ IH]; [reflexivity|]. cbn.
  now rewrite (H _ _ _ _ _ Hx), IH.
Qed.

(* ---------- compilers that know more ---------- *)

Definition refines {A} (c1 c2 : str -> state -> res A) : Prop :=
  forall file s x s', c1 file s = Ret x s' -> c2 file s = Ret x s'.
Definition settled {W} (r : vres W) : Prop := match r with VOk _ | VErr _ _ => True | _ => False end.
Lemma visit_go_refines {W} (h1 h2 : list (str * hook W)) st :
  (forall name a w, settled (run_hook h1 name a w) -> run_hook h2 name a w = run_hook h1 name a w) ->
  forall f a w, settled (visit_go f st h1 a w) -> visit_go f st h2 a w = visit_go f st h1 a w.
Proof.
  intros H. induction f as [|f IH]; intros a w; cbn [visit_go]; [reflexivity|].
  intros Hs.
  assert (Hr : run_hook h2 (tk_name (tok st a)) a w = run_hook h1 (tk_name (tok st a)) a w).
  { apply H. destruct (run_hook h1 _ _ _) eqn:Er; try exact Logic.I; rewrite fold_stuck in Hs by discriminate; exact Hs. }
  rewrite Hr. clear Hr. revert Hs. generalize (run_hook h1 (tk_name (tok st a)) a w). intros o. revert o.
  induction (tk_kids (tok st a)) as [|k l IHl]; intros o; cbn [fold_left]; [reflexivity|]. intros Hs.
  assert (Hk : match o with VOk w => visit_go f st h2 k w | _ => o end = match o with VOk w => visit_go f st h1 k w | _ => o end).
  { destruct o as [w0|w0 e|p|]; try reflexivity. apply IH. destruct (visit_go f st h1 k w0) eqn:Er; try exact Logic.I; rewrite fold_stuck in Hs by discriminate; exact Hs. }
  rewrite Hk. now apply IHl.
Qed.
Lemma import_refines F c1 c2 st sc ff a w : refines c1 c2 ->
  settled (hook_import_printing F c1 st sc ff a w) -> hook_import_printing F c2 st sc ff a w = hook_import_printing F c1 st sc ff a w.
Proof.
  intros H. unfold hook_import_printing, quiet, hook_import. cbn [fst snd]. destruct ff; [|reflexivity].
  destruct (find_child st (tok st a) "ImportIdentifiers"); [|reflexivity].
  destruct (find_child st (tok st a) "Path"); [|reflexivity]. destruct (fs_join F s _) as [file|]; [|reflexivity].
  destruct (c1 file (b_store (fst w))) as [[b l] s'|p|] eqn:Hc; cbn [settled]; try contradiction.
  now rewrite (H _ _ _ _ Hc).
Qed.
Lemma compile_refines fuel E F c1 c2 P name ff : refines c1 c2 ->
  forall st x st', compile_printing fuel E F c1 P name ff st = Ret x st' -> compile_printing fuel E F c2 P name ff st = Ret x st'.
Proof.
  intros H st x st'. unfold compile_printing. destruct (context_new P name st) as [cc st1].
  destruct (tokenize _ _ _ _ _ _) as [[a|[|e]] st2|p|]; try discriminate; auto.
  enough (B : forall y s, build_printing E P F c1 a name ff st2 = Ret y s -> build_printing E P F c2 a name ff st2 = Ret y s).
  { destruct (build_printing E P F c1 a name ff st2) as [y s|p|]; try discriminate. now rewrite (B y s eq_refl). }
  intros y s. unfold build_printing. destruct (negb _); [auto|].
  match goal with |- match ?u with _ => _ end = _ -> match ?v with _ => _ end = _ => assert (V : settled u -> v = u) end.
  { unfold visit. apply visit_go_refines. intros n k w. unfold run_hook, pick_hook. cbn [find_hook].
    destruct (str_eqb "Error" n); [reflexivity|]. destruct (str_eqb "AdextopaScope" n); [reflexivity|].
    destruct (str_eqb "AssignmentExpression" n); [reflexivity|].
    destruct (str_eqb "ImportStatement" n); [now apply import_refines|].
    destruct (str_eqb "PatternScope" n); reflexivity. }
  destruct (visit _ _ _ _) as [[w l]|[w l] e|p|]; try discriminate; rewrite (V Logic.I); auto.
Qed.

(* ---------- sound projects ---------- *)

(* a compiler of files that gives up when something was printed *)
Definition silently (r : res (script_res * list str)) : res (script_res * list str) :=
  match r with Ret (b, []) s => Ret (b, []) s | _ => OOF end.
Lemma silently_ret r b l s : silently r = Ret (b, l) s -> l = [] /\ r = Ret (b, []) s.
Proof. destruct r as [[b' [|x l']] s'|p|]; cbn; intros H; try discriminate. injection H as <- <- <-. auto. Qed.

Lemma silent_project E F file d : tame E -> tidy E -> sound E F file d -> forall st, exists n m sc st',
  (forall depth fuel, (n <= depth)%nat -> (n <= fuel)%nat -> compile_file_printing depth fuel E F file st = Ret (ScriptOk m sc, []) st') /\
  compiled E F st' (next_sid st) (next_sid st') file d m sc /\ grown st st'.
Proof.
  intros HE HT Hs st.
  set (q := fun depth fuel file st => rmap fst (silently (compile_file_printing depth fuel E F file st))).
  assert (Hq : forall f full src d' depth fuel s m sc s', fs_canon F f = Some full -> fs_read F full = Some src ->
    ascii_only src -> slen src < isize_bound -> script_text E d' src ->
    compile_with fuel E F (q depth fuel) (parser_named src full) f (Some full) false s = Ret (ScriptOk m sc) s' ->
    q (S depth) fuel f s = Ret (ScriptOk m sc) s').
  { intros f full src d' depth fuel s m sc s' H1 H2 H3 H4 H5 H. unfold q.
    rewrite <- flag_with in H.
    rewrite <- (compile_printed fuel E F (fun f s => silently (compile_file_printing depth fuel E F f s))) in H by reflexivity.
    destruct (compile_printing _ _ _ _ _ _ _ _) as [[b l] s0|p|] eqn:Hp; try discriminate.
    cbn [rmap fst] in H. injection H as -> ->.
    assert (Hl : l = []).
    { eapply printed_silent; [|eapply (written_adds_nothing fuel E F _ (parser_named src full)); try exact Hp; eauto].
      cbn beta. intros f0 s1 b l1 s2 H. now apply silently_ret in H. }
    subst l. cbn [compile_file_printing]. rewrite H1, H2.
    assert (R : refines (fun f s => silently (compile_file_printing depth fuel E F f s)) (compile_file_printing depth fuel E F)).
    { intros f0 s1 [b l] s2 H. apply silently_ret in H as [-> H]. exact H. }
    rewrite (compile_refines fuel E F _ _ _ _ _ R _ _ _ Hp). reflexivity. }
  destruct (proj1 (project_made_by E F HE HT q Hq) file d Hs st) as (n & m & sc & st' & Hn & Hc & Hg).
  exists n, m, sc, st'. split; [|auto]. intros depth fuel H1 H2. specialize (Hn depth fuel H1 H2). unfold q in Hn.
  destruct (silently _) as [[b l] s|p|] eqn:Hr; try discriminate. cbn in Hn. injection Hn as -> ->.
  apply silently_ret in Hr as [_ Hr]. exact Hr.
Qed.
Lemma silent_alone E P F c name ff d st : tame E -> tidy E -> scope_tame E ->
  ascii_only (p_src P) -> slen (p_src P) < isize_bound -> script_text E d (p_src P) ->
  (forall ns path, ~ In (Import ns path) (s_statements d)) -> script_fault d = None ->
  exists fuel st', compile_printing fuel E F c P name ff st =
    Ret (ScriptOk (compiled_script name (S (next_sid st)) d) (S (next_sid st)), []) st'.
Proof.
  intros HE HT HS Ha Hs Hd Hi Hf. set (c0 := fun (_ : str) (_ : state) => @OOF (script_res * list str)).
  destruct (script_compiles_alone E P F (fun f s => rmap fst (c0 f s)) name ff HE HT Ha Hs d st HS Hd Hi Hf) as (fuel & st' & H & _).
  exists fuel, st'. rewrite <- flag_with in H. rewrite <- (compile_printed fuel E F c0) in H by reflexivity.
  destruct (compile_printing _ _ _ _ _ _ _ _) as [[b l] s0|p|] eqn:Hp; try discriminate.
  cbn [rmap fst] in H. injection H as -> ->.
  assert (l = []) as ->.
  { eapply printed_silent; [|eapply (written_adds_nothing fuel E F c0 P); try exact Hp; eauto]. discriminate. }
  refine (compile_refines fuel E F c0 c P name ff _ _ _ _ Hp). intros ? ? ? ? H. discriminate.
Qed.
(* a script that is compiled while the log says what is wrong with it *)
Lemma success_hides : exists E F file depth fuel st m sc st' line,
  compile_file_printing depth fuel E F file st = Ret (ScriptOk m sc, [line]) st'.
Proof.
  set (F := mkFs (fun _ _ => None) (fun f => Some f) (fun _ => Some (a_head "version" "1" ++ sevens))).
  assert (H : match compile_file_printing 1 100 at_env F "/p" empty_state with
              | Ret (ScriptOk _ _, [_]) _ => true | _ => false end = true) by (vm_compute; reflexivity).
  exists at_env, F, (lit "/p"), 1%nat, 100%nat, empty_state.
  destruct (compile_file_printing _ _ _ _ _ _) as [[[m sc|l] [|x [|y l']]] s|p|]; try discriminate. do 4 eexists. reflexivity.
Qed.
Lemma file_printing depth fuel E F file st log :
  compile_file depth fuel E F log file st =
  match compile_file_printing depth fuel E F file st with Ret (b, _) st' => Ret b st' | Pan p => Pan p | OOF => OOF end.
Proof. rewrite <- file_printed. now destruct (compile_file_printing _ _ _ _ _ _) as [[b l] s|p|]. Qed.
