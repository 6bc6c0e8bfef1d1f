(* Sample texts and what sample scripts make of them.  Not part of the model. *)
From Verif Require Import AtomProofs ScriptBuild Spec SpecScript SpecSyntax Samples SampleScripts SpecMatch.
Open Scope string_scope.
Open Scope list_scope.
Open Scope N_scope.

Section Steps.
  Variable source : str.
  Lemma text_at D s name v r w x D' : v <> [] -> w = v ++ r ->
    x = Took (leaf_node source (given name "Equals") w [] v [] []) r -> D' = noted D s name (KText v) ->
    reads_core source D s name (KText v) w x D'.
  Proof. intros H -> -> ->. now apply rc_text. Qed.
  Lemma text_not_at D s name v w : v <> [] -> starts_with v w = false ->
    reads_core source D s name (KText v) w Missed (noted D s name (KText v)).
  Proof. intros H Hp. apply rc_text_not; [exact H|]. rewrite <- has_prefix_iff. congruence. Qed.
  Lemma walk_on D s name p ps w0 kids w n r x D1 D' y : reads source D s p w y D1 -> y = Took n r ->
    walks source D1 s name ps w0 (kids ++ [n]) r x D' -> walks source D s name (p :: ps) w0 kids w x D'.
  Proof. intros H ->. now apply wl_took. Qed.
  Lemma walk_past D s name p ps w0 kids w r x D1 D' y : reads source D s p w y D1 -> y = Passed r ->
    walks source D1 s name ps w0 kids r x D' -> walks source D s name (p :: ps) w0 kids w x D'.
  Proof. intros H ->. now apply wl_passed. Qed.
  Lemma walk_stop D s name p ps w0 kids w D' y : reads source D s p w y D' -> y = Missed ->
    walks source D s name (p :: ps) w0 kids w Missed D'.
  Proof. intros H ->. now apply wl_missed. Qed.
  Lemma walk_lost D s name p ps w0 kids w D' y id : reads source D s p w y D' -> y = Unknown id ->
    walks source D s name (p :: ps) w0 kids w (Unknown id) D'.
  Proof. intros H ->. now apply wl_unknown. Qed.
  Lemma try_not D s p ps w x D1 y D' : reads source D s p w x D1 -> x = Missed ->
    tries source D1 s ps w y D' -> tries source D s (p :: ps) w y D'.
  Proof. intros. eapply tr_next; eauto. Qed.
  Lemma try_it D s p ps w x n r D' : reads source D s p w x D' -> x = Took n r -> tries source D s (p :: ps) w x D'.
  Proof. intros H ->. apply tr_this; [exact H|discriminate|discriminate]. Qed.
  Lemma try_past D s p ps w x r D' : reads source D s p w x D' -> x = Passed r -> slen r =? slen w = false -> tries source D s (p :: ps) w x D'.
  Proof. intros H -> Hn. apply tr_this; [exact H|discriminate|]. intros K. injection K as ->. now rewrite N.eqb_refl in Hn. Qed.
  Lemma try_lost D s p ps w x id D' : reads source D s p w x D' -> x = Unknown id -> tries source D s (p :: ps) w x D'.
  Proof. intros H ->. apply tr_this; [exact H|discriminate|discriminate]. Qed.
End Steps.

Ltac done := vm_compute; reflexivity.
Ltac rd :=
  match goal with
  | |- reads _ _ _ (Pat Plain _ _ _ _ _) _ _ _ => eapply rd_plain; rd
  | |- reads _ _ _ _ _ _ _ => eapply rd_captured; [discriminate|]; cbn [capture_name]; rd
  | |- layers _ _ _ _ _ _ _ _ Once _ _ _ => eapply ly_once; rd
  | |- layers _ _ _ _ _ _ _ _ _ _ _ _ => eapply ly_repeated; [reflexivity|]; rd
  | |- rounds _ _ _ _ _ _ _ _ _ 0 _ _ _ _ _ => first [eapply rn_none | eapply rn_short; done | eapply rn_full; [vm_compute; discriminate|vm_compute; auto]]
  | |- rounds _ _ _ _ _ _ _ _ _ ?l _ _ _ _ _ =>
      first [ let n := eval vm_compute in l in change l with n; first [eapply rn_none | eapply rn_short; done | eapply rn_full; [vm_compute; discriminate|vm_compute; auto]]
            | eapply rn_end; [done|rd|done]
            | eapply rn_unknown; [done|rd|done]
            | eapply rn_took; [done|rd|done|]; rd
            | eapply rn_passed; [done|rd|done|]; rd ]
  | |- reads_core _ _ _ _ (KText _) _ _ _ => first [eapply text_at; [discriminate|cbn; reflexivity|reflexivity|reflexivity] | eapply text_not_at; [discriminate|done]]
  | |- reads_core _ _ _ _ (KName _) _ _ _ => first [eapply rc_name; [done|]; rd | eapply rc_unknown; done]
  | |- reads_core _ _ _ _ (KSwitch _) _ _ _ => eapply rc_switch; rd
  | |- reads_core _ _ _ _ (KProgram _) _ _ _ => eapply rc_program; rd
  | |- tries _ _ _ [] _ _ _ => eapply tr_none
  | |- tries _ _ _ _ _ _ _ => first [eapply try_it; [rd|done] | eapply try_lost; [rd|done] | eapply try_past; [rd|done|done] | eapply try_not; [rd|done|]; rd]
  | |- walks _ _ _ _ [] _ _ _ _ _ => eapply wl_done
  | |- walks _ _ _ _ _ _ _ _ _ _ => first [eapply walk_on; [rd|done|]; rd | eapply walk_past; [rd|done|]; rd | eapply walk_stop; [rd|done] | eapply walk_lost; [rd|done]]
  | |- enters_entry _ _ _ (Own _ _ _ _ _ _) _ _ _ => eapply en_own; rd
  | |- enters_entry _ _ _ (Renamed _ _ _) _ _ _ => eapply en_renamed; rd
  | |- enters_entry _ _ _ (Whole _ _ _) _ _ _ => eapply en_whole; rd
  end.

Definition digit_node (at_ : N) : node := Node "Digit" (mkR at_ (at_ + 1)) (mkR at_ (at_ + 1)) "7" [] [].
Definition demo_node : node :=
  Node "List" (mkR 0 3) (mkR 1 3) "77" []
    [Node "Loop" (mkR 0 3) (mkR 1 3) "77" []
       [Node "Loop" (mkR 1 3) (mkR 1 3) "77" [] [digit_node 1; digit_node 2]]].
Definition demo_entry : entry := Whole (s_name "T" demo_script) 1%nat (s_patterns demo_script).
Lemma demo_read : exists D', enters_entry "x77it" (own_book 1%nat demo_script) 2%nat demo_entry "x77it" (Took demo_node "it") D'.
Proof.
  enough (H : exists x D', enters_entry "x77it" (own_book 1%nat demo_script) 2%nat demo_entry "x77it" x D' /\ x = Took demo_node "it").
  { destruct H as (x & D' & H & ->). eauto. }
  eexists _, _. split.
  - unfold demo_entry. cbn [s_patterns demo_script]. rd.
  - vm_compute. reflexivity.
Qed.
Lemma demo_missed : exists D', enters_entry "xxit's" (own_book 1%nat demo_script) 2%nat demo_entry "xxit's" Missed D'.
Proof.
  enough (H : exists x D', enters_entry "xxit's" (own_book 1%nat demo_script) 2%nat demo_entry "xxit's" x D' /\ x = Missed).
  { destruct H as (x & D' & H & ->). eauto. }
  eexists _, _. split; [unfold demo_entry; cbn [s_patterns demo_script]; rd|vm_compute; reflexivity].
Qed.

(* a text between quotes, then something unknown *)
Definition quoted_pat : pat := Pat (CapturedAs "Q") Question Unsigned (KSequence "'" "'" "\") [(lit "kind", lit "text")] Once.
Definition quoted_text : str := "_'it\'s'7".
Lemma quoted_read D s : exists D',
  reads quoted_text D s quoted_pat "'it\'s'7"
    (Took (Node "Name" (mkR 1 8) (mkR 2 7) "it\'s" [(lit "__value", lit "it's"); (lit "kind", lit "text")] []) "7") D'.
Proof.
  enough (H : exists x D', reads quoted_text D s quoted_pat (lit "'it\'s'7") x D' /\ x =
    Took (Node "Name" (mkR 1 8) (mkR 2 7) "it\'s" [(lit "__value", lit "it's"); (lit "kind", lit "text")] []) "7").
  { destruct H as (x & D' & H & ->). eauto. }
  eexists _, _. split.
  - eapply rd_captured; [discriminate|]. eapply ly_once.
    apply (rc_sequence quoted_text D s (lit "Name") (lit "'") (lit "'") (lit "\") (lit "it\'s") (lit "it's") (lit "7")); [discriminate|discriminate|].
    do 2 (apply scan_byte; [intros [t H]; discriminate|intros _ [t H]; discriminate|]).
    apply (scan_escape (lit "'") (lit "\") "'"%char (lit "s'7") (lit "s") (lit "s")); [intros [t H]; discriminate|discriminate|].
    apply scan_byte; [intros [t H]; discriminate|intros _ [t H]; discriminate|].
    apply (scan_end (lit "'") (lit "\") (lit "7")).
  - vm_compute. reflexivity.
Qed.

(* a script that refers to something unknown *)
Definition lost_text : str := "(<='a'>) <[ <='b'> | <Nothing> ]>".
Definition lost_script : script := mkScript None
  [Pat Captured Unsigned Unsigned (KText "a") [] Once;
   Pat Plain Unsigned Unsigned (KSwitch [Pat Plain Unsigned Unsigned (KText "b") [] Once;
                                         Pat Plain Unsigned Unsigned (KName "Nothing") [] Once]) [] Once].
Definition lost_entry : entry := Whole (s_name "T" lost_script) 1%nat (s_patterns lost_script).
Lemma lost_read : (exists D', enters_entry "ac" (own_book 1%nat lost_script) 2%nat lost_entry "ac" (Unknown "Nothing") D') /\
  exists D', enters_entry "ab" (own_book 1%nat lost_script) 2%nat lost_entry "ab"
    (Took (Node "T" (mkR 0 2) (mkR 0 1) "a" [] [Node "Equals" (mkR 0 1) (mkR 0 1) "a" [] []]) []) D'.
Proof.
  split.
  - enough (H : exists x D', enters_entry "ac" (own_book 1%nat lost_script) 2%nat lost_entry "ac" x D' /\ x = Unknown "Nothing").
    { destruct H as (x & D' & H & ->). eauto. }
    eexists _, _. split; [unfold lost_entry; cbn [s_patterns lost_script]; rd|vm_compute; reflexivity].
  - enough (H : exists x D', enters_entry "ab" (own_book 1%nat lost_script) 2%nat lost_entry "ab" x D' /\ x =
      Took (Node "T" (mkR 0 2) (mkR 0 1) "a" [] [Node "Equals" (mkR 0 1) (mkR 0 1) "a" [] []]) []).
    { destruct H as (x & D' & H & ->). eauto. }
    eexists _, _. split; [unfold lost_entry; cbn [s_patterns lost_script]; rd|vm_compute; reflexivity].
Qed.

(* the two files of C61_example_texts *)
Definition two_book : book := fun s x =>
  let digit := Own "Digit" Unsigned Unsigned (KText "7") [] Once in
  if Nat.eqb s 1 then
    if str_eqb x "Lib" then Some (Whole "Lib" 3%nat [])
    else if str_eqb x "D" then Some (Renamed 3%nat digit "D") else None
  else if Nat.eqb s 3 then if str_eqb x "Digit" then Some digit else None
  else None.
Lemma str_eqb_flip (x y : str) : str_eqb x y = str_eqb y x.
Proof.
  destruct (str_eqb x y) eqn:H1, (str_eqb y x) eqn:H2; try reflexivity.
  - apply str_eqb_eq in H1. subst. now rewrite str_eqb_refl in H2.
  - apply str_eqb_eq in H2. subst. now rewrite str_eqb_refl in H1.
Qed.
Lemma two_told : told at_env two_files two_book 0%nat 4%nat "/p/main" main_script 1%nat.
Proof.
  eapply (to_file at_env two_files two_book 0%nat 4%nat (lit "/p/main") (lit "/p/main") main_script 1%nat).
  - exists main_text. split; [reflexivity|]. split; [reflexivity|]. split; [apply ascii_text; reflexivity|].
    split; [reflexivity|exact main_written].
  - repeat constructor.
  - lia.
  - apply (te_import at_env two_files two_book 2%nat 4%nat 4%nat (lit "/p/main") main_names (lit "./lib") (lit "/p/lib") lib_script 3%nat []
      [(lit "D", Renamed 3%nat (Own "Digit" Unsigned Unsigned (KText "7") [] Once) "D"); (lit "Lib", Whole "Lib" 3%nat [])] []); [reflexivity| | |constructor; lia].
    + eapply (to_file at_env two_files two_book 2%nat 4%nat (lit "/p/lib") (lit "/p/lib") lib_script 3%nat).
      * exists lib_text. split; [reflexivity|]. split; [reflexivity|]. split; [apply ascii_text; reflexivity|].
        split; [reflexivity|exact lib_written].
      * constructor.
      * lia.
      * eapply te_own; [reflexivity|reflexivity|]. constructor. lia.
      * intros x. cbn [two_book Nat.eqb last_of]. rewrite (str_eqb_flip x). reflexivity.
    + constructor; [|constructor; [|constructor]].
      * split; [reflexivity|]. right. split; [discriminate|]. eexists. split; reflexivity.
      * split; [reflexivity|]. left. split; reflexivity.
  - intros x. cbn [two_book Nat.eqb last_of app]. rewrite !(str_eqb_flip x). now destruct (str_eqb (lit "Lib") x).
Qed.
Lemma two_read : exists D', enters_entry "7" two_book 4%nat (Whole (s_name "/p/main" main_script) 1%nat (s_patterns main_script)) "7"
  (Took (Node "/p/main" (mkR 0 1) (mkR 0 1) "7" [] [Node "D" (mkR 0 1) (mkR 0 1) "7" [] []]) []) D'.
Proof.
  enough (H : exists x D', enters_entry "7" two_book 4%nat (Whole (s_name "/p/main" main_script) 1%nat (s_patterns main_script)) "7" x D' /\ x =
    Took (Node "/p/main" (mkR 0 1) (mkR 0 1) "7" [] [Node "D" (mkR 0 1) (mkR 0 1) "7" [] []]) []).
  { destruct H as (x & D' & H & ->). eauto. }
  eexists _, _. split; [cbn [s_patterns main_script]; rd|vm_compute; reflexivity].
Qed.
