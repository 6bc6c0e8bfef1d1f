(* Sample scripts for PropsSteady.v.  Not part of the model. *)
From Verif Require Import ScriptBuild ScopeProofs Utf8Proofs Spec SpecScript SpecSyntax Samples SampleScripts SampleReads SpecMatch SpecSteady.
Open Scope string_scope.
Open Scope list_scope.
Open Scope N_scope.

Lemma versioned (sts : list statement) ps (th tb : str) :
  statements_text at_env sts th -> (blank th -> th = []) -> body_text at_env ps tb ->
  script_text at_env (mkScript (Some ([(lit "version", lit "1")], sts)) ps)
    (lit "<!--[adextopa version='1']" ++ th ++ lit "-->" ++ tb).
Proof.
  intros H1 H2 H3.
  apply (sx_head at_env _ [(lit "version", lit "1")] (lit "1") 1 sts ps [] (lit " ") (lit "version='1'") th tb); auto.
  - apply ld_blank. chars.
  - chars.
  - exact version_written.
  - left. apply a_number; [reflexivity|discriminate|reflexivity|discriminate].
Qed.
Definition a_char (x : ascii) : Prop := x <> "'"%char /\ x <> "\"%char.
Definition quote : ascii := "'".
Lemma char_written (x : ascii) : a_char x ->
  writes_bare at_env Unsigned Unsigned (KText [x]) [] Once (lit "<='" ++ [x] ++ lit "'>").
Proof.
  intros [H1 H2]. eapply (bare _ _ _ _ _ _ [] (lit "='" ++ [x] ++ lit "'") [] [] []); [chars| |chars|constructor|exact Logic.I|constructor|].
  - apply (a_text [x] [x]). apply lt_char; auto. constructor.
  - reflexivity.
Qed.
Lemma one_name (id : str) r tr : identifier id -> repeat_text r tr ->
  writes_bare at_env Unsigned Unsigned (KName id) [] r (lit "<" ++ id ++ lit ">" ++ tr).
Proof.
  intros H Hr. eapply (bare _ _ _ _ _ _ [] id [] [] tr); [chars|now constructor|chars|constructor|exact Logic.I|exact Hr|reflexivity].
Qed.

(* lists of lists *)
Definition nest_text : str :=
  "<!--[adextopa version='1'] List = <{ <='('> (<Item>+) <=')'> }> Item = <[ (<='x'>) | (<List>) ]>-->(<List>)".
Definition nest_list : core pat :=
  KProgram [Pat Plain Unsigned Unsigned (KText "(") [] Once; Pat Captured Unsigned Unsigned (KName "Item") [] OneOrMore;
            Pat Plain Unsigned Unsigned (KText ")") [] Once].
Definition nest_item : core pat :=
  KSwitch [Pat Captured Unsigned Unsigned (KText "x") [] Once; Pat Captured Unsigned Unsigned (KName "List") [] Once].
Definition nest_script : script := mkScript
  (Some ([(lit "version", lit "1")],
         [Define "List" Unsigned Unsigned nest_list [] Once; Define "Item" Unsigned Unsigned nest_item [] Once]))
  [Pat Captured Unsigned Unsigned (KName "List") [] Once].
Lemma nest_written : script_text at_env nest_script nest_text.
Proof.
  apply (versioned (s_statements nest_script) _
    (lit " List = <{ <='('> (<Item>+) <=')'> }> Item = <[ (<='x'>) | (<List>) ]>") (lit "(<List>)")).
  - apply (ht_statement at_env (lit " ") _ (lit "List = <{ <='('> (<Item>+) <=')'> }>") _ (lit " Item = <[ (<='x'>) | (<List>) ]>")).
    + chars.
    + apply (st_define at_env (lit "List") _ _ _ _ _ (lit " ") (lit " ") (lit "<{ <='('> (<Item>+) <=')'> }>")); [ident|chars|chars|].
      eapply (bare _ _ _ _ _ _ [] (lit "{ <='('> (<Item>+) <=')'> }") [] [] []); [chars| |chars|constructor|exact Logic.I|constructor|reflexivity].
      apply (w_program at_env _ (lit " <='('> (<Item>+) <=')'> ")).
      apply (wq_more at_env _ (lit "<='('>") _ (lit " (<Item>+) <=')'> ") (lit " ")); [apply w_plain; apply (char_written "("); split; discriminate|chars|].
      apply (wq_more at_env _ (lit "(<Item>+)") _ (lit " <=')'> ") (lit " ")); [|chars|].
      { apply (w_captured at_env Unsigned Unsigned (KName (lit "Item")) [] OneOrMore (lit "<Item>+") [] []); [|chars|chars].
        apply (one_name (lit "Item") OneOrMore (lit "+")); [ident|constructor]. }
      apply (wq_last at_env _ (lit "<=')'>") (lit " ") (lit " ")); [apply w_plain; apply (char_written ")"); split; discriminate|chars|chars].
    + cbn. intuition discriminate.
    + apply (ht_statement at_env (lit " ") _ (lit "Item = <[ (<='x'>) | (<List>) ]>") _ []); [chars| |exact Logic.I|constructor; chars].
      apply (st_define at_env (lit "Item") _ _ _ _ _ (lit " ") (lit " ") (lit "<[ (<='x'>) | (<List>) ]>")); [ident|chars|chars|].
      eapply (bare _ _ _ _ _ _ [] (lit "[ (<='x'>) | (<List>) ]") [] [] []); [chars| |chars|constructor|exact Logic.I|constructor|reflexivity].
      apply (w_switch at_env _ (lit " (<='x'>) | (<List>) ")).
      apply (wa_more at_env _ (lit "(<='x'>)") _ (lit " (<List>) ") (lit " ") (lit " ")); [|chars|chars|].
      { apply (w_captured at_env Unsigned Unsigned (KText (lit "x")) [] Once (lit "<='x'>") [] []); [|chars|chars].
        apply (char_written "x"); split; discriminate. }
      apply (wa_last at_env _ (lit "(<List>)") (lit " ") (lit " ")); [|chars|chars].
      apply (w_captured at_env Unsigned Unsigned (KName (lit "List")) [] Once (lit "<List>") [] []); [|chars|chars].
      apply (one_name (lit "List") Once []); [ident|constructor].
  - intros H. inversion H as [|x l _ H2]; subst. inversion H2 as [|y l' H3 _]; subst. vm_compute in H3. intuition discriminate.
  - apply (bt_pattern at_env [] _ (lit "(<List>)") _ []); [chars| |constructor; chars].
    apply (w_captured at_env Unsigned Unsigned (KName (lit "List")) [] Once (lit "<List>") [] []); [|chars|chars].
    apply (one_name (lit "List") Once []); [ident|constructor].
Qed.
Lemma nest_steady : steady_script nest_script.
Proof.
  exists (fun x => if str_eqb x "Item" then 1%nat else 0%nat), (fun _ => false). split.
  - constructor; [|constructor; [|constructor]]; (split; [|discriminate]); (constructor; [|discriminate]).
    + constructor. apply sa_firm; [constructor; [constructor; discriminate|discriminate]|split; [reflexivity|split; [reflexivity|exact Logic.I]]|].
      constructor; [constructor; [constructor; exact Logic.I|discriminate]|].
      constructor; [constructor; [constructor; discriminate|discriminate]|constructor].
    + constructor. constructor; [constructor; [constructor; discriminate|discriminate]|].
      constructor; [constructor; [constructor; cbn; lia|discriminate]|constructor].
  - constructor; [constructor; [constructor; exact Logic.I|discriminate]|constructor].
Qed.
Lemma demo_steady : steady_script demo_script.
Proof.
  exists (fun x => if str_eqb x "Any" then 1%nat else 0%nat), (fun _ => false). split.
  - constructor; [|constructor; [|constructor]]; (split; [|discriminate]); (constructor; [|discriminate]).
    + constructor. discriminate.
    + constructor. constructor; [constructor; [constructor; discriminate|discriminate]|].
      constructor; [constructor; [constructor; cbn; lia|discriminate]|constructor].
  - constructor; [constructor; [constructor; exact Logic.I|discriminate]|].
    constructor; [constructor; [constructor; discriminate|discriminate]|constructor].
Qed.

(* a sum that starts with a sum *)
Definition sum_text : str := "<!--[adextopa version='1'] Sum = <{ (<Sum>) <='+'> (<='1'>) }>-->(<Sum>)".
Definition sum_core : core pat :=
  KProgram [Pat Captured Unsigned Unsigned (KName "Sum") [] Once; Pat Plain Unsigned Unsigned (KText "+") [] Once;
            Pat Captured Unsigned Unsigned (KText "1") [] Once].
Definition sum_script : script := mkScript
  (Some ([(lit "version", lit "1")], [Define "Sum" Unsigned Unsigned sum_core [] Once]))
  [Pat Captured Unsigned Unsigned (KName "Sum") [] Once].
Lemma sum_written : script_text at_env sum_script sum_text.
Proof.
  assert (Hs : writes at_env (Pat Captured Unsigned Unsigned (KName (lit "Sum")) [] Once) "(<Sum>)").
  { apply (w_captured at_env Unsigned Unsigned (KName (lit "Sum")) [] Once (lit "<Sum>") [] []); [|chars|chars].
    apply (one_name (lit "Sum") Once []); [ident|constructor]. }
  apply (versioned (s_statements sum_script) _ (lit " Sum = <{ (<Sum>) <='+'> (<='1'>) }>") (lit "(<Sum>)")).
  - apply (ht_statement at_env (lit " ") _ (lit "Sum = <{ (<Sum>) <='+'> (<='1'>) }>") _ []); [chars| |exact Logic.I|constructor; chars].
    apply (st_define at_env (lit "Sum") _ _ _ _ _ (lit " ") (lit " ") (lit "<{ (<Sum>) <='+'> (<='1'>) }>")); [ident|chars|chars|].
    eapply (bare _ _ _ _ _ _ [] (lit "{ (<Sum>) <='+'> (<='1'>) }") [] [] []); [chars| |chars|constructor|exact Logic.I|constructor|reflexivity].
    apply (w_program at_env _ (lit " (<Sum>) <='+'> (<='1'>) ")).
    apply (wq_more at_env _ (lit "(<Sum>)") _ (lit " <='+'> (<='1'>) ") (lit " ")); [exact Hs|chars|].
    apply (wq_more at_env _ (lit "<='+'>") _ (lit " (<='1'>) ") (lit " ")); [apply w_plain; apply (char_written "+"); split; discriminate|chars|].
    apply (wq_last at_env _ (lit "(<='1'>)") (lit " ") (lit " ")); [|chars|chars].
    apply (w_captured at_env Unsigned Unsigned (KText (lit "1")) [] Once (lit "<='1'>") [] []); [|chars|chars].
    apply (char_written "1"); split; discriminate.
  - intros H. inversion H as [|x l _ H2]; subst. inversion H2 as [|y l' H3 _]; subst. vm_compute in H3. intuition discriminate.
  - apply (bt_pattern at_env [] _ (lit "(<Sum>)") _ []); [chars|exact Hs|constructor; chars].
Qed.
Lemma sum_circular : circular_script sum_script.
Proof.
  exists (fun x => x = lit "Sum"). split.
  - intros x ->. eexists. split; [reflexivity|]. split; [|exact Logic.I]. apply cc_program. constructor; [now constructor|exact Logic.I].
  - cbn. constructor; [now constructor|exact Logic.I].
Qed.

(* all regular expressions are digits *)
Definition digit_env : env :=
  mkEnv true (e_map_ok at_env) (e_map_err at_env) (e_catch at_env) (e_user at_env)
        (fun _ => false) (fun _ => false) (fun _ => false) (fun _ => Some (re_digits at_env)).
Lemma digits_measured : measured digit_env.
Proof. intros source f H. cbn in H. injection H as <-. intros w n Hw. now apply re_find_sane in Hw. Qed.
Lemma samples_sane : sane quoted_pat /\ Forall sane (s_patterns demo_script) /\
  sane (Pat Captured Unsigned Unsigned (KRegex "\d+" [] (e_regex digit_env "\d+")) [] OneOrMore) /\
  ~ sane (Pat Captured Unsigned Unsigned (KText []) [] Once).
Proof.
  split; [split; discriminate|]. split; [|split].
  - constructor; [exact Logic.I|]. constructor; [discriminate|constructor].
  - cbn. intros w n Hw. now apply re_find_sane in Hw.
  - cbn. now intros H.
Qed.
