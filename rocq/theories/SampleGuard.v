(* Samples for the examples of PropsGuard.v.  Not part of the model. *)
From Verif Require Import ScriptBuild Spec SpecMore SpecScript SpecGuard Samples SampleScripts SpecSyntax.
Open Scope string_scope.
Open Scope list_scope.
Open Scope N_scope.

(* brackets inside and behind each other *)
Definition nest_matcher : matcher :=
  ProgramN "Nest" [EqualsN "Open" "("; MOptional (Ref_ "Nest"); EqualsN "Close" ")"; MOptional (Ref_ "Nest")].
Definition nest_body (n : str) : option matcher := if str_eqb n "Nest" then Some nest_matcher else None.

Ltac all_parts t := apply Forall_forall; cbn [parts]; repeat (apply Forall_cons; [t|]); apply Forall_nil.
Lemma nest_nested : nested 3 nest_matcher.
Proof. do 3 (constructor; apply Forall_forall; cbn [parts]; repeat apply Forall_cons; try apply Forall_nil). Qed.
Lemma nest_onward : onward nest_body false false nest_matcher.
Proof.
  assert (Hr : onward nest_body false false (MOptional (Ref_ "Nest"))) by (apply on_optional, on_ref; discriminate).
  apply on_program; [reflexivity|]. all_parts ltac:(left; first [exact Hr|apply on_simple, si_equals]).
Qed.
Lemma nest_keeps : keeps_names nest_body nest_matcher.
Proof.
  assert (Hr : keeps_names nest_body (MOptional (Ref_ "Nest"))).
  { constructor; [discriminate|]. all_parts ltac:(constructor; [discriminate|intros x []]). }
  constructor; [intros _ b [= <-]; reflexivity|].
  all_parts ltac:(first [exact Hr|constructor; [intros _ b H; discriminate H|intros x []]]).
Qed.
Lemma nest_guarded r : guarded nest_body (fun _ => 0%nat) 1 false r nest_matcher.
Proof.
  assert (Hr : guarded nest_body (fun _ => 0%nat) 1 false 1 (MOptional (Ref_ "Nest"))).
  { apply gu_parts; try discriminate. all_parts ltac:(apply gu_ref; lia). }
  assert (He : forall n v, guarded nest_body (fun _ => 0%nat) 1 false r (EqualsN n v)).
  { intros n v. apply gu_parts; try discriminate. intros x []. }
  apply gu_program; [discriminate|].
  intros pre x post H. destruct pre as [|a pre]; [injection H as <- _; left; apply He|].
  injection H as <- H. assert (Hm : forall rest, exists y, In y (EqualsN "Open" "(" :: rest) /\ m_consuming y = true /\ moves y)
    by (intros rest; eexists; split; [now left|split; [reflexivity|apply mo_equals]]).
  destruct pre as [|a pre]; [injection H as <- _; right; auto|]. injection H as <- H.
  destruct pre as [|a pre]; [injection H as <- _; left; apply He|]. injection H as <- H.
  destruct pre as [|a pre]; [injection H as <- _; right; auto|]. injection H as <- H. now destruct pre.
Qed.
Lemma nest_names : guarded_names nest_body (fun _ => 0%nat) 1 3.
Proof.
  intros n b H. unfold nest_body in H. destruct (str_eqb n "Nest"); [|discriminate]. injection H as <-.
  split; [lia|]. split; [exact nest_nested|]. split; [exact nest_onward|]. split; [exact nest_keeps|apply nest_guarded].
Qed.

(* a directory in which only one file can import, and only another *)
Definition two_floors : fs :=
  mkFs (fun full path => if str_eqb full "/p/main" then Some (lit "/p/lib") else None)
       (fun file => Some file)
       (fun full => if str_eqb full "/p/lib" then Some lib_text
                    else if str_eqb full "/p/main" then Some main_text else None).
Lemma floors_rank E full next : imports E two_floors full next ->
  ((if str_eqb next "/p/main" then 1 else 0) < (if str_eqb full "/p/main" then 1 else 0))%nat.
Proof.
  intros (src & file & _ & (name & st & root & st1 & l & imp & p & _ & _ & _ & _ & _ & Hj) & Hc).
  cbn [fs_join two_floors] in Hj. destruct (str_eqb full "/p/main"); [|discriminate]. injection Hj as <-.
  injection Hc as <-. cbn. lia.
Qed.
Lemma floors_size full src : fs_read two_floors full = Some src -> slen src <= 100.
Proof.
  cbn [fs_read two_floors]. destruct (str_eqb full "/p/lib"); [intros [= <-]; vm_compute; discriminate|].
  destruct (str_eqb full "/p/main"); [|discriminate]. intros [= <-]. vm_compute. discriminate.
Qed.
