(* The grammar of scripts is guarded; compiling comes to an end. *)
From Verif Require Import ScriptBuild Spec SpecMore SpecScript Utf8Proofs FrameProofs SpecGuard GuardProofs GuardEnds.
Open Scope string_scope.
Open Scope list_scope.
Open Scope N_scope.

(* ---------- regular expressions that take something ---------- *)
Lemma decode_pos : forall n s, (List.length s < n)%nat -> Forall (fun p => 0 < snd p) (decode s).
Proof.
  induction n as [|n IH]; intros s H; [lia|]. destruct s as [|a s1]; [constructor|]. cbn [decode List.length] in *.
  destruct (_ <? 192); [constructor; [cbn; lia|]; apply IH; lia|].
  destruct s1 as [|b s2]; [repeat constructor; cbn; lia|]. cbn [List.length] in *.
  destruct (_ <? 224); [constructor; [cbn; lia|]; apply IH; lia|].
  destruct s2 as [|d s3]; [repeat constructor; cbn; lia|]. cbn [List.length] in *.
  destruct (_ <? 240); [constructor; [cbn; lia|]; apply IH; lia|].
  destruct s3 as [|e s4]; [repeat constructor; cbn; lia|]. cbn [List.length] in *.
  constructor; [cbn; lia|]; apply IH; lia.
Qed.
Definition has_one (r : list item) : bool := existsb (fun i => match i with One _ => true | Star _ => false end) r.
Lemma star_pos c k : (forall s n, Forall (fun p : N * N => 0 < snd p) s -> k s = Some n -> 0 < n) ->
  forall s n, Forall (fun p : N * N => 0 < snd p) s -> star c k s = Some n -> 0 < n.
Proof.
  intros Hk. induction s as [|[x l] s IH]; intros n Hs H; cbn [star] in H; [eauto|].
  destruct (c x); [|eauto]. destruct (star c k s) as [n'|]; [|eauto]. injection H as <-.
  inversion Hs; subst. cbn in *. lia.
Qed.
Lemma items_pos r : has_one r = true -> forall s n, Forall (fun p : N * N => 0 < snd p) s -> match_items r s = Some n -> 0 < n.
Proof.
  induction r as [|[c|c] r IH]; intros Hr s n Hs H; cbn [match_items] in H; [discriminate| |].
  - destruct s as [|[x l] s]; [discriminate|]. destruct (c x); [|discriminate].
    destruct (match_items r s) as [n'|]; [|discriminate]. injection H as <-. inversion Hs; subst. cbn in *. lia.
  - eapply star_pos; [|exact Hs|exact H]. apply IH. exact Hr.
Qed.
Lemma alts_pos r : forallb has_one r = true -> forall s n, Forall (fun p : N * N => 0 < snd p) s -> match_alts r s = Some n -> 0 < n.
Proof.
  induction r as [|a r IH]; intros Hr s n Hs H; cbn [match_alts] in H; [discriminate|].
  cbn [forallb] in Hr. apply andb_prop in Hr as [H1 H2].
  destruct (match_items a s) as [n'|] eqn:En; [|eauto]. injection H as <-. eapply items_pos; eauto.
Qed.
Lemma find_pos r : forallb has_one r = true -> forall s pos a b, Forall (fun p : N * N => 0 < snd p) s ->
  find_from r pos s = Some (a, b) -> a < b.
Proof.
  intros Hr. induction s as [|[x l] s IH]; intros pos a b Hs H; cbn [find_from] in H;
    destruct (match_alts r _) as [n|] eqn:En; try discriminate.
  - injection H as <- <-. apply (alts_pos r Hr) in En; auto. lia.
  - injection H as <- <-. apply (alts_pos r Hr) in En; auto. lia.
  - inversion Hs; subst. eapply IH; eauto.
Qed.
Lemma re_takes r : forallb has_one r = true -> forall w z, re_find r w = Some (0, z) -> 0 < z.
Proof. intros Hr w z H. eapply find_pos; [exact Hr| |exact H]. eapply decode_pos. apply Nat.lt_succ_diag_r. Qed.

(* ---------- the grammar ---------- *)
Section Script.
  Variable E : env.

  Definition script_body (n : str) : option matcher :=
    if str_eqb n "SwitchMatcher" then Some (ScriptSwitchMatcher E)
    else if str_eqb n "ProgramMatcher" then Some (ScriptProgramMatcher E) else None.

  Ltac open m := let m' := eval hnf in m in change m with m'.
  Ltac each t := apply Forall_forall; repeat (apply Forall_cons; [t|]); apply Forall_nil.

  Ltac nest := match goal with |- nested _ ?m => open m end; constructor; cbn [parts]; each nest.

  Ltac somewhere := first [left; reflexivity|right; somewhere].
  Ltac try_all ps t := lazymatch ps with ?x :: ?rest => first [t x|try_all rest t] end.

  Ltac leave := match goal with |- leaves ?m => open m end;
    lazymatch goal with
    | |- leaves (MBreak _) => apply lv_break
    | |- leaves (MDiscard _) => apply lv_discard; leave
    | |- leaves (MProxy _ _ _) => apply lv_proxy; leave
    | |- leaves (MProgram ?ps ?i) =>
        try_all ps ltac:(fun x => solve [apply (lv_program ps i x); [reflexivity|reflexivity|somewhere|leave]])
    end.
  Ltac go_on := match goal with |- moves ?m => open m end;
    lazymatch goal with
    | |- moves (MEquals _ _ _) => apply mo_equals
    | |- moves (MMatches _ _ _) => apply mo_matches; apply re_takes; reflexivity
    | |- moves (MSequence _ _ _ _ _) => apply mo_sequence
    | |- moves (MDiscard _) => first [solve [apply mo_discard; go_on]|solve [apply mo_leaves; leave]]
    | |- moves (MStore _ _ _) => apply mo_store; go_on
    | |- moves (MMap _ (MapAttrs _)) => apply mo_attrs; go_on
    | |- moves (MMap _ (MapRename _)) => apply mo_rename; go_on
    | |- moves (MMap _ MapRegex) => apply mo_regex; go_on
    | |- moves (MMap _ MapPatternDef) => apply mo_pattern; go_on
    | |- moves (MProgram ?ps ?i) =>
        first [solve [apply mo_leaves; leave]
              |solve [apply mo_switch; [reflexivity|reflexivity|each go_on]]
              |try_all ps ltac:(fun x => solve [apply (mo_program ps i x); [reflexivity|reflexivity|somewhere|reflexivity|go_on]])]
    | |- moves _ => apply mo_leaves; leave
    end.

  Notation onward := (onward script_body).
  Notation keeps_names := (keeps_names script_body).
  Notation rank := (fun _ : str => 0%nat).
  Notation guarded := (guarded script_body rank 1).
  Ltac seen := match goal with |- look ?m => open m end;
    lazymatch goal with
    | |- look (MEquals _ _ _) => apply lo_equals
    | |- look (MMatches _ _ _) => apply lo_matches; apply re_find_sane
    | |- look (MMap _ (MapAssertIf _)) => apply lo_assert; seen
    | |- look (MMap _ (MapFatalIf _)) => apply lo_fatal; seen
    end.
  Ltac besides := match goal with |- aside ?m => open m end;
    lazymatch goal with |- aside (MPin (Some ?x) ?o ?n ?b) => exists x, o, n, b end; split; [reflexivity|seen].
  Ltac on := match goal with |- onward _ _ ?m => open m end;
    lazymatch goal with
    | |- onward _ _ (MEquals _ _ _) => apply on_simple; apply si_equals
    | |- onward _ _ (MMatches _ _ _) => apply on_simple; apply si_matches; apply re_find_sane
    | |- onward _ _ (MSequence _ _ _ _ _) => apply on_simple; apply si_sequence
    | |- onward _ _ (MBreak _) => apply on_simple; apply si_break
    | |- onward _ _ (MPin None (FStr _) _ _) => apply on_simple; apply si_pin
    | |- onward _ _ (MPin (Some _) (FStr _) _ _) => apply on_here; on
    | |- onward false false (MDiscard _) => apply on_discard; on
    | |- onward true _ (MDiscard _) => apply on_back; on
    | |- onward true _ (MRef _ _ _) => apply on_back; on
    | |- onward _ _ (MOptional _) => apply on_optional; on
    | |- onward _ _ (MStore (SPMatcher _) _ _) => apply on_store; on
    | |- onward _ _ (MProxy _ _ _) => apply on_proxy; on
    | |- onward false false (MRef (FStr _) _ _) => apply on_ref; discriminate
    | |- onward true _ (MMap _ MapAdextopaScope) => apply (on_scope _ false); on
    | |- onward _ _ (MMap _ _) => apply on_map; [discriminate|discriminate|on]
    | |- onward _ _ (MProgram ?ps ?i) =>
        first [apply on_switch; [reflexivity|each on]
              |apply on_program; [reflexivity|each ltac:(first [solve [left; on]|solve [right; split; [reflexivity|besides]]])]]
    end.

  Ltac names := match goal with |- keeps_names ?m => open m end; constructor;
    [cbn [m_custom m_name]; solve [discriminate|intros _ b H; first [discriminate H|injection H as <-; reflexivity]]
    |cbn [parts]; each names].

  (* the patterns of a program one after the other; [mv]: some earlier one moves *)
  Fixpoint patterns_guarded (stops : bool) (r : nat) (mv : Prop) (ps : list matcher) : Prop :=
    match ps with
    | [] => True
    | x :: rest => (guarded false r x \/ (stops = false /\ mv /\ guarded false 1 x)) /\
                   patterns_guarded stops r (mv \/ (m_consuming x = true /\ moves x)) rest
    end.
  Lemma patterns_one stops r ps : forall (mv : Prop) pre0, (mv -> exists y, In y pre0 /\ m_consuming y = true /\ moves y) ->
    patterns_guarded stops r mv ps -> forall pre x post, ps = pre ++ x :: post ->
    guarded false r x \/ (stops = false /\ (exists y, In y (pre0 ++ pre) /\ m_consuming y = true /\ moves y) /\ guarded false 1 x).
  Proof.
    induction ps as [|z ps IH]; intros mv pre0 Hmv Hp pre x post Heq; [now destruct pre|].
    destruct Hp as [Hz Hp]. destruct pre as [|z0 pre].
    - injection Heq as <- <-. destruct Hz as [Hz|(H1 & H2 & H3)]; [now left|]. right. rewrite app_nil_r. auto.
    - injection Heq as <- ->.
      destruct (IH (mv \/ (m_consuming z = true /\ moves z)) (pre0 ++ [z])) with (pre := pre) (x := x) (post := post) as [H|(H1 & H2 & H3)]; auto.
      + intros [H|[H1 H2]].
        * destruct (Hmv H) as (y & Hy & H2). exists y. split; [apply in_or_app; now left|exact H2].
        * exists z. split; [apply in_or_app; right; now left|auto].
      + right. split; [exact H1|]. split; [|exact H3]. now rewrite <- app_assoc in H2.
  Qed.
  Lemma program_guarded r ps i :
    (forall it, pi_iter i = Some it -> pi_stop i = false /\ exists y, In y ps /\ m_consuming y = true /\ moves y) ->
    patterns_guarded (pi_stop i) r False ps -> guarded false r (MProgram ps i).
  Proof.
    intros H1 H2. apply gu_program.
    - intros it Hi. destruct (H1 it Hi) as [H3 H4]. auto.
    - intros pre x post Heq. destruct (patterns_one (pi_stop i) r ps False []) with (pre := pre) (x := x) (post := post)
        as [H|(H3 & H4 & H5)]; auto; easy.
  Qed.
  Lemma back_guarded r ps i : pi_iter i = None -> (forall x, In x ps -> guarded true r x) -> guarded true r (MProgram ps i).
  Proof.
    intros Hi H. apply gu_program; [congruence|]. intros pre x post ->. left. apply H. apply in_or_app. right. now left.
  Qed.

  Ltac moved_on := lazymatch goal with |- _ \/ _ => first [solve [left; moved_on]|right; split; [reflexivity|go_on]] end.
  Ltac fence := match goal with |- guarded _ _ ?m => open m end;
    lazymatch goal with
    | |- guarded false _ (MProgram ?ps ?i) =>
        apply program_guarded;
        [first [discriminate
               |intros it _; split; [reflexivity|];
                try_all ps ltac:(fun x => solve [exists x; split; [somewhere|split; [reflexivity|go_on]]])]
        |cbn [pi_stop patterns_guarded]; repeat (split; [first [solve [right; split; [reflexivity|split; [moved_on|fence]]]|left; fence]|]); exact Logic.I]
    | |- guarded false _ (MRef (FStr _) _ _) => apply gu_ref; lia
    | |- guarded _ _ (MPin (Some _) (FFetch _) _ _) => apply gu_aside; besides
    | |- guarded true _ (MProgram ?ps ?i) =>
        first [apply back_guarded; [reflexivity|each fence]|apply gu_back; [on|fence]]
    | |- guarded _ _ _ => apply gu_parts; [discriminate|discriminate|cbn [parts]; each fence]
    end.

  Lemma switch_guard : nested 17 (ScriptSwitchMatcher E) /\ onward false false (ScriptSwitchMatcher E) /\
    keeps_names (ScriptSwitchMatcher E) /\ guarded false 0 (ScriptSwitchMatcher E).
  Proof. split; [nest|split; [on|split; [names|fence]]]. Qed.
  Lemma program_guard : nested 17 (ScriptProgramMatcher E) /\ onward false false (ScriptProgramMatcher E) /\
    keeps_names (ScriptProgramMatcher E) /\ guarded false 0 (ScriptProgramMatcher E).
  Proof. split; [nest|split; [on|split; [names|fence]]]. Qed.
  Lemma script_guard : nested 21 (Script_ E) /\ onward true false (Script_ E) /\ keeps_names (Script_ E) /\ guarded true 0 (Script_ E).
  Proof. split; [nest|split; [on|split; [names|fence]]]. Qed.

  Lemma names_guarded : guarded_names script_body rank 1 17.
  Proof.
    intros n b H. unfold script_body in H. split; [lia|].
    destruct (str_eqb n "SwitchMatcher"); [injection H as <-; apply switch_guard|].
    destruct (str_eqb n "ProgramMatcher"); [injection H as <-; apply program_guard|discriminate].
  Qed.
End Script.
