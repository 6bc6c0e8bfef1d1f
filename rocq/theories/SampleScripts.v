(* A sample script for the examples of PropsSyntax.v, as text and as what it
   says.  Not part of the model. *)
From Verif Require Import ScriptBuild Spec SpecScript SpecSyntax Samples.
Open Scope string_scope.
Open Scope list_scope.
Open Scope N_scope.

Definition demo_text : str :=
"# demo
<!--[adextopa version='1' name='List'] Digit = <='7'> # seven
 Any = <[ <='x' why='so'> | (<Digit>+) ]>-->
(<Any>{2,4})  <!='it\'s'>".
Definition demo_any : core pat :=
  KSwitch [Pat Plain Unsigned Unsigned (KText "x") [(lit "why", lit "so")] Once;
           Pat Captured Unsigned Unsigned (KName "Digit") [] OneOrMore].
Definition demo_script : script := mkScript
  (Some ([(lit "version", lit "1"); (lit "name", lit "List")],
         [Define "Digit" Unsigned Unsigned (KText "7") [] Once; Define "Any" Unsigned Unsigned demo_any [] Once]))
  [Pat Captured Unsigned Unsigned (KName "Any") [] (Between 2 4);
   Pat Plain Unsigned Bang (KText "it's") [] Once].

Ltac char := unfold blank_char, id_first, letter, digit_char; vm_compute; repeat split; intuition discriminate.
Ltac chars := repeat (apply Forall_nil || (apply Forall_cons; [char|])).
Ltac ident := eexists _, _; split; [reflexivity|]; split; [char|chars].
Ltac text := repeat (constructor; try discriminate).

Lemma ascii_text w : forallb (fun x => N_of_ascii x <? 128) w = true -> ascii_only w.
Proof. intros H x Hx. rewrite forallb_forall in H. apply N.ltb_lt. now apply H. Qed.

Section Demo.
  Let E := at_env.
  Lemma bare o i k l l' r (b1 tk b2 tl tr t : str) : blank b1 -> writes_core E k tk -> blank b2 -> attrs_text l' l tl ->
    separated k l b2 -> repeat_text r tr ->
    t = sign_text o ++ lit "<" ++ sign_text i ++ b1 ++ tk ++ b2 ++ tl ++ lit ">" ++ tr -> writes_bare E o i k l r t.
  Proof. intros. subst t. econstructor; eauto. Qed.
  Lemma a_text (v raw : str) : literal_text "'" v raw -> writes_core E (KText v) (lit "='" ++ raw ++ lit "'").
  Proof. intros H. apply (w_text E v (lit "'" ++ raw ++ lit "'")). now exists raw. Qed.
  Lemma a_count n (d : str) : forallb (fun x => (48 <=? N_of_ascii x) && (N_of_ascii x <=? 57)) d = true -> d <> [] ->
    digits_value 0 d = n -> number n d.
  Proof.
    intros H H1 H2. split; [exact H1|]. split; [|auto]. intros x Hx. rewrite forallb_forall in H. apply H in Hx.
    apply andb_prop in Hx as [A B]. apply N.leb_le in A, B. unfold is_digit. lia.
  Qed.
  Lemma a_number n (d : str) : forallb (fun x => (48 <=? N_of_ascii x) && (N_of_ascii x <=? 57)) d = true -> d <> [] ->
    digits_value 0 d = n -> n <= usize_max -> numeral n d.
  Proof.
    intros H H1 H2 H3. split; [exact H1|]. split; [|auto]. intros x Hx. rewrite forallb_forall in H. apply H in Hx.
    apply andb_prop in Hx as [A B]. apply N.leb_le in A, B. unfold is_digit. lia.
  Qed.

  Lemma digit_written : writes_bare E Unsigned Unsigned (KText "7") [] Once "<='7'>".
  Proof.
    eapply (bare _ _ _ _ _ _ [] (lit "='7'") [] [] []); [chars|apply (a_text (lit "7") (lit "7")); text|chars|constructor|exact Logic.I|constructor|reflexivity].
  Qed.
  Lemma x_written : writes E (Pat Plain Unsigned Unsigned (KText "x") [(lit "why", lit "so")] Once) "<='x' why='so'>".
  Proof.
    apply w_plain. eapply (bare _ _ _ _ _ _ [] (lit "='x'") (lit " ") (lit "why='so'") []);
      [chars|apply (a_text (lit "x") (lit "x")); text|chars| |exact Logic.I|constructor|reflexivity].
    apply (at_cons (lit "why") (lit "so") (lit "so") [] [] [] [] [] []).
    - exists "w"%char, (lit "hy"). split; [reflexivity|]. split; [discriminate|]. chars.
    - chars.
    - chars.
    - chars.
    - text.
    - constructor.
  Qed.
  Lemma ref_written : writes E (Pat Captured Unsigned Unsigned (KName "Digit") [] OneOrMore) "(<Digit>+)".
  Proof.
    apply (w_captured E Unsigned Unsigned (KName (lit "Digit")) [] OneOrMore (lit "<Digit>+") [] []); [|chars|chars].
    eapply (bare _ _ _ _ _ _ [] (lit "Digit") [] [] (lit "+")); [chars|constructor; ident|chars|constructor|exact Logic.I|constructor|reflexivity].
  Qed.
  Lemma any_written : writes_bare E Unsigned Unsigned demo_any [] Once "<[ <='x' why='so'> | (<Digit>+) ]>".
  Proof.
    eapply (bare _ _ _ _ _ _ [] (lit "[ <='x' why='so'> | (<Digit>+) ]") [] [] []); [chars| |chars|constructor|exact Logic.I|constructor|reflexivity].
    apply (w_switch E _ (lit " <='x' why='so'> | (<Digit>+) ")).
    apply (wa_more E _ (lit "<='x' why='so'>") _ (lit " (<Digit>+) ") (lit " ") (lit " ")); [exact x_written|chars|chars|].
    apply (wa_last E _ (lit "(<Digit>+)") (lit " ") (lit " ")); [exact ref_written|chars|chars].
  Qed.
  Lemma first_written : writes E (Pat Captured Unsigned Unsigned (KName "Any") [] (Between 2 4)) "(<Any>{2,4})".
  Proof.
    apply (w_captured E Unsigned Unsigned (KName (lit "Any")) [] (Between 2 4) (lit "<Any>{2,4}") [] []); [|chars|chars].
    eapply (bare _ _ _ _ _ _ [] (lit "Any") [] [] (lit "{2,4}")); [chars|constructor; ident|chars|constructor|exact Logic.I| |reflexivity].
    apply (rt_between 2 (lit "2") 4 (lit "4") [] [] [] []); try chars; (apply a_count; [reflexivity|discriminate|reflexivity]).
  Qed.
  Lemma second_written : writes E (Pat Plain Unsigned Bang (KText "it's") [] Once) "<!='it\'s'>".
  Proof.
    apply w_plain. eapply (bare _ _ _ _ _ _ [] (lit "='it\'s'") [] [] []); [chars| |chars|constructor|exact Logic.I|constructor|reflexivity].
    apply (a_text (lit "it's") (lit "it\'s")). do 2 (apply lt_char; [discriminate|discriminate|]). apply lt_escape. text.
  Qed.

  Lemma demo_written : script_text at_env demo_script demo_text.
  Proof.
    set (nl := ascii_of_N 10).
    change demo_text with ((lit "# demo" ++ [nl]) ++ lit "<!--[adextopa" ++ lit " " ++ lit "version='1' name='List'" ++ lit "]" ++
      (lit " Digit = <='7'> # seven" ++ [nl] ++ lit " Any = <[ <='x' why='so'> | (<Digit>+) ]>") ++ lit "-->" ++
      ([nl] ++ lit "(<Any>{2,4})  <!='it\'s'>")).
    apply (sx_head at_env [(lit "version", lit "1"); (lit "name", lit "List")] [(lit "version", lit "1"); (lit "name", lit "List")] (lit "1") 1).
    - apply (ld_comment [] (lit "# demo") [nl]); [chars| |now left|constructor; chars].
      exists (lit " demo"). split; [reflexivity|]. unfold line_end. repeat constructor; vm_compute; intuition discriminate.
    - chars.
    - eapply (at_cons (lit "version") (lit "1") (lit "1") [] [] (lit " ") _ _ (lit "name='List'")).
      + exists "v"%char, (lit "ersion"). split; [reflexivity|]. split; [discriminate|]. chars.
      + chars.
      + chars.
      + chars.
      + text.
      + apply (at_cons (lit "name") (lit "List") (lit "List") [] [] [] [] [] []); [|chars|chars|chars|text|constructor].
        exists "n"%char, (lit "ame"). split; [reflexivity|]. split; [discriminate|]. chars.
    - reflexivity.
    - left. apply a_number; [reflexivity|discriminate|reflexivity|discriminate].
    - apply (ht_statement E (lit " ") _ (lit "Digit = <='7'>") _ (lit " # seven" ++ [nl] ++ lit " Any = <[ <='x' why='so'> | (<Digit>+) ]>")).
      + chars.
      + apply (st_define E (lit "Digit") _ _ _ _ _ (lit " ") (lit " ") (lit "<='7'>")); [ident|chars|chars|exact digit_written].
      + cbn. intuition discriminate.
      + apply (ht_comment E (lit " ") (lit "# seven") _ ([nl] ++ lit " Any = <[ <='x' why='so'> | (<Digit>+) ]>")).
        * chars.
        * exists (lit " seven"). split; [reflexivity|]. unfold line_end. repeat constructor; vm_compute; intuition discriminate.
        * now left.
        * apply (ht_statement E ([nl] ++ lit " ") _ (lit "Any = <[ <='x' why='so'> | (<Digit>+) ]>") _ []).
          -- chars.
          -- apply (st_define E (lit "Any") _ _ _ _ _ (lit " ") (lit " ") (lit "<[ <='x' why='so'> | (<Digit>+) ]>")); [ident|chars|chars|exact any_written].
          -- exact Logic.I.
          -- constructor. chars.
    - intros H. inversion H as [|x l _ H2]; subst. inversion H2 as [|y l' H3 _]; subst. vm_compute in H3. intuition discriminate.
    - apply (bt_pattern E [nl] _ (lit "(<Any>{2,4})") _ (lit "  <!='it\'s'>")); [chars|exact first_written|].
      apply (bt_pattern E (lit "  ") _ (lit "<!='it\'s'>") _ []); [chars|exact second_written|]. constructor. chars.
  Qed.
End Demo.

(* two files, one imports from the other *)
Definition lib_text : str := "<!--[adextopa version='1'] Digit = <='7'>-->".
Definition lib_script : script := mkScript
  (Some ([(lit "version", lit "1")], [Define "Digit" Unsigned Unsigned (KText "7") [] Once])) [].
Definition main_text : str := "<!--[adextopa version='1'] import { Digit as D, _ as Lib } from './lib'-->(<D>)".
Definition main_names : list (str * str) := [(lit "Digit", lit "D"); (lit "_", lit "Lib")].
Definition main_script : script := mkScript
  (Some ([(lit "version", lit "1")], [Import main_names "./lib"]))
  [Pat Captured Unsigned Unsigned (KName "D") [] Once].
Definition two_files : fs :=
  mkFs (fun full path => if str_eqb path "./lib" then Some (lit "/p/lib") else None)
       (fun file => Some file)
       (fun full => if str_eqb full "/p/lib" then Some lib_text
                    else if str_eqb full "/p/main" then Some main_text else None).

Lemma version_written : attrs_text [(lit "version", lit "1")] [(lit "version", lit "1")] "version='1'".
Proof.
  apply (at_cons (lit "version") (lit "1") (lit "1") [] [] [] [] [] []); [|chars|chars|chars|text|constructor].
  exists "v"%char, (lit "ersion"). split; [reflexivity|]. split; [discriminate|]. chars.
Qed.
Lemma lib_written : script_text at_env lib_script lib_text.
Proof.
  apply (sx_head at_env _ [(lit "version", lit "1")] (lit "1") 1 _ [] [] (lit " ") (lit "version='1'") (lit " Digit = <='7'>") []).
  - apply ld_blank. chars.
  - chars.
  - exact version_written.
  - reflexivity.
  - left. apply a_number; [reflexivity|discriminate|reflexivity|discriminate].
  - apply (ht_statement at_env (lit " ") _ (lit "Digit = <='7'>") _ []); [chars| |exact Logic.I|constructor; chars].
    apply (st_define at_env (lit "Digit") _ _ _ _ _ (lit " ") (lit " ") (lit "<='7'>")); [ident|chars|chars|exact digit_written].
  - intros H. inversion H as [|x l _ H2]; subst. inversion H2 as [|y l' H3 _]; subst. vm_compute in H3. intuition discriminate.
  - constructor. chars.
Qed.
Lemma main_written : script_text at_env main_script main_text.
Proof.
  apply (sx_head at_env _ [(lit "version", lit "1")] (lit "1") 1 [Import main_names "./lib"] _ [] (lit " ") (lit "version='1'")
           (lit " import { Digit as D, _ as Lib } from './lib'") (lit "(<D>)")).
  - apply ld_blank. chars.
  - chars.
  - exact version_written.
  - reflexivity.
  - left. apply a_number; [reflexivity|discriminate|reflexivity|discriminate].
  - apply (ht_statement at_env (lit " ") _ (lit "import { Digit as D, _ as Lib } from './lib'") _ []); [chars| |exact Logic.I|constructor; chars].
    apply (st_import at_env main_names "./lib" (lit " ") (lit " ") (lit " ") (lit " Digit as D, _ as Lib }") (lit "'./lib'")); [chars|chars|chars| |].
    + apply (nt_more (lit "Digit", lit "D") (lit "Digit as D") (lit " ") [(lit "_", lit "Lib")] (lit " _ as Lib }")); [|chars|].
      * apply (nt_as (lit "Digit") (lit "D") (lit " ") (lit " ")); [ident|ident|chars|chars|discriminate|discriminate].
      * apply (nt_last (lit "_", lit "Lib") (lit "_ as Lib") (lit " ") (lit " ")); [|chars|chars].
        apply (nt_as (lit "_") (lit "Lib") (lit " ") (lit " ")); [ident|ident|chars|chars|discriminate|discriminate].
    + exists (lit "./lib"). split; [text|reflexivity].
  - intros H. inversion H as [|x l _ H2]; subst. inversion H2 as [|y l' H3 _]; subst. vm_compute in H3. intuition discriminate.
  - apply (bt_pattern at_env [] _ (lit "(<D>)") _ []); [chars| |constructor; chars].
    apply (w_captured at_env Unsigned Unsigned (KName "D") [] Once (lit "<D>") [] []); [|chars|chars].
    eapply (bare _ _ _ _ _ _ [] (lit "D") [] [] []); [chars|constructor; ident|chars|constructor|exact Logic.I|constructor|reflexivity].
Qed.
Lemma main_sound : sound at_env two_files "/p/main" main_script.
Proof.
  apply so_file with (full := lit "/p/main").
  - exists main_text. split; [reflexivity|]. split; [reflexivity|]. split; [apply ascii_text; reflexivity|].
    split; [reflexivity|exact main_written].
  - apply so_import with (file := lit "/p/lib") (d := lib_script); [reflexivity| | |constructor].
    + apply so_file with (full := lit "/p/lib").
      * exists lib_text. split; [reflexivity|]. split; [reflexivity|]. split; [apply ascii_text; reflexivity|].
        split; [reflexivity|exact lib_written].
      * eapply so_own; [reflexivity|reflexivity|constructor].
      * constructor.
    + constructor; [|constructor; [|constructor]].
      * right. split; [discriminate|]. now left.
      * left. split; [reflexivity|discriminate].
  - repeat constructor.
Qed.

(* scripts that are not written well *)
Definition sevens : str := "<='7'> oops <='7'>".
Definition seven : pat := Pat Plain Unsigned Unsigned (KText "7") [] Once.
Lemma sevens_broken : broken_body at_env [seven] sevens.
Proof.
  apply (bb_pattern at_env [] seven (lit "<='7'>") [] (lit " oops <='7'>")); [chars|apply w_plain; exact digit_written|].
  apply (bb_junk at_env (lit " ") (lit "oops <='7'>")); [chars|].
  exists "o"%char, (lit "ops <='7'>"). split; [reflexivity|]. split; [vm_compute; split; congruence|].
  intros H. cbn in H. repeat destruct H as [H|H]; try discriminate; contradiction.
Qed.
Definition a_head (attr value : str) : str := lit "<!--[adextopa " ++ attr ++ lit "='" ++ value ++ lit "'] Digit = <='7'>-->".
Lemma head_written (attr value : str) : attr_name attr -> literal_text "'" value value ->
  head_text at_env [(attr, value)] [Define "Digit" Unsigned Unsigned (KText "7") [] Once] (a_head attr value).
Proof.
  intros Ha Hv. unfold a_head.
  replace (lit "<!--[adextopa " ++ attr ++ lit "='" ++ value ++ lit "'] Digit = <='7'>-->") with
    (lit "<!--[adextopa" ++ lit " " ++ (attr ++ [] ++ lit "=" ++ [] ++ lit "'" ++ value ++ lit "'" ++ [] ++ []) ++ lit "]" ++ lit " Digit = <='7'>" ++ lit "-->").
  2: { cbn [app lit list_ascii_of_string]. rewrite <- !app_assoc. cbn [app]. rewrite <- !app_assoc. reflexivity. }
  apply (hd_text at_env _ [(attr, value)]).
  - chars.
  - apply (at_cons attr value value [] [] [] [] [] []); auto; try chars. constructor.
  - apply (ht_statement at_env (lit " ") _ (lit "Digit = <='7'>") _ []); [chars| |exact Logic.I|constructor; chars].
    apply (st_define at_env (lit "Digit") _ _ _ _ _ (lit " ") (lit " ") (lit "<='7'>")); [ident|chars|chars|exact digit_written].
  - intros H. inversion H as [|x l _ H2]; subst. inversion H2 as [|y l' H3 _]; subst. vm_compute in H3. intuition discriminate.
  - right. discriminate.
Qed.

(* texts that end before the value of an attribute *)
Definition until_value : str := "<='7'> (?'x' <[ <='8'> | <='9' a='b' _c =".
Lemma until_value_open : open_script at_env until_value.
Proof.
  apply ox_patterns.
  apply (oy_after at_env [] seven (lit "<='7'>") (lit " (?'x' <[ <='8'> | <='9' a='b' _c =")); [chars|apply w_plain; exact digit_written|].
  apply (oy_here at_env (lit " ") (lit "(?'x' <[ <='8'> | <='9' a='b' _c =")); [chars|].
  apply (op_named at_env (lit "x") (lit "'x'") [] (lit " ") (lit "<[ <='8'> | <='9' a='b' _c =")); [exists (lit "x"); split; [text|reflexivity]|chars|chars|].
  apply (on_core at_env Unsigned Unsigned [] (lit "[ <='8'> | <='9' a='b' _c =")); [chars|].
  apply (oc_switch at_env (lit " <='8'> | <='9' a='b' _c =")).
  apply (ol_after at_env (lit " ") (Pat Plain Unsigned Unsigned (KText "8") [] Once) (lit "<='8'>") (lit " ") (lit " <='9' a='b' _c =")); [chars| |chars|].
  { apply w_plain. eapply (bare _ _ _ _ _ _ [] (lit "='8'") [] [] []); [chars|apply (a_text (lit "8") (lit "8")); text|chars|constructor|exact Logic.I|constructor|reflexivity]. }
  apply (ol_here at_env (lit " ") (lit "<='9' a='b' _c =")); [chars|]. apply op_plain.
  apply (on_attrs at_env Unsigned Unsigned [] (KText "9") (lit "='9'") (lit " ") (lit "a='b' _c =")).
  - chars.
  - apply (a_text (lit "9") (lit "9")); text.
  - chars.
  - intros l. exact Logic.I.
  - apply (oa_value [(lit "a", lit "b")] [(lit "a", lit "b")] (lit "a='b' ") (lit "_c") (lit " ") []); [|discriminate|chars|chars|chars].
    eapply (at_cons (lit "a") (lit "b") (lit "b") [] [] (lit " ") [] [] []); try chars; [|text|constructor].
    eexists _, _; split; [reflexivity|]; split; [discriminate|chars].
Qed.
Lemma until_version_open : open_script at_env "  <!--[adextopa version=".
Proof.
  apply (ox_attrs at_env (lit "  ") (lit " ") (lit "version=")).
  - apply ld_blank. chars.
  - chars.
  - apply (oa_value [] [] [] (lit "version") [] []); [constructor|discriminate|chars|chars|chars].
Qed.
Lemma unquoted_samples : unquoted "d" " e='f'> ]>)" /\ unquoted "1]" " Digit = <='7'>-->".
Proof.
  split; (split; [discriminate|split; [chars|right; char]]).
Qed.

(* written scripts with faults *)
Definition faulty_text : str := "<!--[adextopa version='1'] Digit = <='7'>-->(<Digit>{3,2}) <=''>".
Definition faulty_script : script := mkScript
  (Some ([(lit "version", lit "1")], [Define "Digit" Unsigned Unsigned (KText "7") [] Once]))
  [Pat Captured Unsigned Unsigned (KName "Digit") [] (Between 3 2); Pat Plain Unsigned Unsigned (KText []) [] Once].
Lemma empty_written : writes at_env (Pat Plain Unsigned Unsigned (KText []) [] Once) "<=''>".
Proof.
  apply w_plain. eapply (bare _ _ _ _ _ _ [] (lit "=''") [] [] []); [chars|apply (a_text [] []); text|chars|constructor|exact Logic.I|constructor|reflexivity].
Qed.
Lemma faulty_written : script_text at_env faulty_script faulty_text.
Proof.
  apply (sx_head at_env _ [(lit "version", lit "1")] (lit "1") 1 _ _ [] (lit " ") (lit "version='1'") (lit " Digit = <='7'>") (lit "(<Digit>{3,2}) <=''>")).
  - apply ld_blank. chars.
  - chars.
  - exact version_written.
  - reflexivity.
  - left. apply a_number; [reflexivity|discriminate|reflexivity|discriminate].
  - apply (ht_statement at_env (lit " ") _ (lit "Digit = <='7'>") _ []); [chars| |exact Logic.I|constructor; chars].
    apply (st_define at_env (lit "Digit") _ _ _ _ _ (lit " ") (lit " ") (lit "<='7'>")); [ident|chars|chars|exact digit_written].
  - intros H. inversion H as [|x l _ H2]; subst. inversion H2 as [|y l' H3 _]; subst. vm_compute in H3. intuition discriminate.
  - apply (bt_pattern at_env [] _ (lit "(<Digit>{3,2})") _ (lit " <=''>")); [chars| |].
    + apply (w_captured at_env Unsigned Unsigned (KName (lit "Digit")) [] (Between 3 2) (lit "<Digit>{3,2}") [] []); [|chars|chars].
      eapply (bare _ _ _ _ _ _ [] (lit "Digit") [] [] (lit "{3,2}")); [chars|constructor; ident|chars|constructor|exact Logic.I| |reflexivity].
      apply (rt_between 3 (lit "3") 2 (lit "2") [] [] [] []); try chars; (apply a_count; [reflexivity|discriminate|reflexivity]).
    + apply (bt_pattern at_env (lit " ") _ (lit "<=''>") _ []); [chars|exact empty_written|constructor; chars].
Qed.
(* the definition is looked at first, its panic wins *)
Definition senseless_text : str := "<!--[adextopa version='1'] Odd = <%'','b',''>--><=''>".
Definition senseless_script : script := mkScript
  (Some ([(lit "version", lit "1")], [Define "Odd" Unsigned Unsigned (KSequence [] "b" []) [] Once]))
  [Pat Plain Unsigned Unsigned (KText []) [] Once].
Lemma senseless_written : script_text at_env senseless_script senseless_text.
Proof.
  apply (sx_head at_env _ [(lit "version", lit "1")] (lit "1") 1 _ _ [] (lit " ") (lit "version='1'") (lit " Odd = <%'','b',''>") (lit "<=''>")).
  - apply ld_blank. chars.
  - chars.
  - exact version_written.
  - reflexivity.
  - left. apply a_number; [reflexivity|discriminate|reflexivity|discriminate].
  - apply (ht_statement at_env (lit " ") _ (lit "Odd = <%'','b',''>") _ []); [chars| |exact Logic.I|constructor; chars].
    apply (st_define at_env (lit "Odd") _ _ _ _ _ (lit " ") (lit " ") (lit "<%'','b',''>")); [ident|chars|chars|].
    eapply (bare _ _ _ _ _ _ [] (lit "%'','b',''") [] [] []); [chars| |chars|constructor|exact Logic.I|constructor|reflexivity].
    apply (w_sequence at_env [] (lit "b") [] (lit "''") (lit "'b'") (lit "''") [] [] [] [] []); try chars.
    + exists []. split; [text|reflexivity].
    + exists (lit "b"). split; [text|reflexivity].
    + exists []. split; [text|reflexivity].
  - intros H. inversion H as [|x l _ H2]; subst. inversion H2 as [|y l' H3 _]; subst. vm_compute in H3. intuition discriminate.
  - apply (bt_pattern at_env [] _ (lit "<=''>") _ []); [chars|exact empty_written|constructor; chars].
Qed.
(* three files: the second asks the third for what it does not have *)
Definition wanting_text : str := "<!--[adextopa version='1'] import { Digit, Other } from './base'-->".
Definition wanting_script : script := mkScript
  (Some ([(lit "version", lit "1")], [Import [(lit "Digit", lit "Digit"); (lit "Other", lit "Other")] "./base"])) [].
Definition three_files : fs :=
  mkFs (fun full path => if str_eqb path "./lib" then Some (lit "/p/lib") else if str_eqb path "./base" then Some (lit "/p/base") else None)
       (fun file => Some file)
       (fun full => if str_eqb full "/p/base" then Some lib_text
                    else if str_eqb full "/p/lib" then Some wanting_text
                    else if str_eqb full "/p/main" then Some main_text else None).
Lemma wanting_written : script_text at_env wanting_script wanting_text.
Proof.
  apply (sx_head at_env _ [(lit "version", lit "1")] (lit "1") 1 (s_statements wanting_script) _ [] (lit " ") (lit "version='1'")
           (lit " import { Digit, Other } from './base'") []).
  - apply ld_blank. chars.
  - chars.
  - exact version_written.
  - reflexivity.
  - left. apply a_number; [reflexivity|discriminate|reflexivity|discriminate].
  - apply (ht_statement at_env (lit " ") _ (lit "import { Digit, Other } from './base'") _ []); [chars| |exact Logic.I|constructor; chars].
    apply (st_import at_env [(lit "Digit", lit "Digit"); (lit "Other", lit "Other")] "./base" (lit " ") (lit " ") (lit " ") (lit " Digit, Other }") (lit "'./base'")); [chars|chars|chars| |].
    + apply (nt_more (lit "Digit", lit "Digit") (lit "Digit") (lit " ") [(lit "Other", lit "Other")] (lit " Other }")); [|chars|].
      * apply nt_same. ident.
      * apply (nt_last (lit "Other", lit "Other") (lit "Other") (lit " ") (lit " ")); [|chars|chars]. apply nt_same. ident.
    + exists (lit "./base"). split; [text|reflexivity].
  - intros H. inversion H as [|x l _ H2]; subst. inversion H2 as [|y l' H3 _]; subst. vm_compute in H3. intuition discriminate.
  - constructor. chars.
Qed.
Lemma wanting_culprit : culprit at_env three_files "/p/main" (Refuses (parser_named wanting_text "/p/lib") (Missing "Other" "/p/base")).
Proof.
  apply cu_statement with (full := lit "/p/main") (src := main_text) (d := main_script).
  { split; [reflexivity|]. split; [reflexivity|]. split; [apply ascii_text; reflexivity|]. split; [reflexivity|exact main_written]. }
  apply ci_import with (file := lit "/p/lib"); [reflexivity|].
  apply cu_statement with (full := lit "/p/lib") (src := wanting_text) (d := wanting_script).
  { split; [reflexivity|]. split; [reflexivity|]. split; [apply ascii_text; reflexivity|]. split; [reflexivity|exact wanting_written]. }
  apply (ci_name at_env three_files wanting_text (lit "/p/lib") [(lit "Digit", lit "Digit")] (lit "Other", lit "Other") [] _ (lit "/p/base") lib_script); [reflexivity| | |].
  - apply so_file with (full := lit "/p/base").
    + exists lib_text. split; [reflexivity|]. split; [reflexivity|]. split; [apply ascii_text; reflexivity|].
      split; [reflexivity|exact lib_written].
    + eapply so_own; [reflexivity|reflexivity|constructor].
    + constructor.
  - constructor; [|constructor]. right. split; [discriminate|]. now left.
  - intros [[H _]|[_ [H|[]]]]; vm_compute in H; discriminate.
Qed.
