(* The unit tests of /repo/src/script/v1/parser.rs replayed on the model.  The
   regular expressions that occur in the scripts are given in the notation of
   ReEngine.v; the test files of /repo/src/script/v1/tests/script are the files of
   a small file system. *)
From Verif Require Import Samples ConformMatchers ScriptBuild ConformGrammar.
Open Scope string_scope.
Open Scope list_scope.
Open Scope N_scope.

(* a letter regardless of case *)
Definition fold_case (s : string) : list item :=
  map (fun a => One (fun x => (x =? N_of_ascii a) || (x + 32 =? N_of_ascii a))) (lit s).
(* Regex::new for the expressions of the tests *)
Definition test_regex (s : str) : option finder :=
  if str_eqb s "(?i)test" then Some (re_find [fold_case "test"])
  else if str_eqb s "(?i)wow" then Some (re_find [fold_case "wow"])
  else if str_eqb s "(?i)\w+" then Some (re_find [plus (cword at_env)])
  else if str_eqb s "\w+" then Some (re_find [plus (cword at_env)])
  else if str_eqb s "\s+" then Some (re_find [plus (cspace at_env)])
  else if str_eqb s "\d+" then Some (re_find [plus (cdigit at_env)])
  else None.
Definition sc_env : env :=
  mkEnv true (e_map_ok at_env) (e_map_err at_env) (e_catch at_env) (e_user at_env)
        (e_word at_env) (e_space at_env) (e_digit at_env) test_regex.

(* parse with ScriptPattern, then construct_matcher_from_pattern *)
Definition construct_from (src : str) : option (cres matcher) :=
  match snd (parse_in (ScriptPattern at_env) src) with
  | Ret (TOk a) st => Some (construct_pattern sc_env st a)
  | _ => None
  end.
(* a regular expression inside the result *)
Definition regex_of (s : str) : finder := match test_regex s with Some f => f | None => fun _ => None end.

(* lines 710-738 *)
Example construct_equals1 : construct_from "<='test'>" = Some (COk (MDiscard (Equals_ "test"))).
Proof. vm_compute. reflexivity. Qed.
(* lines 741-764 *)
Example construct_equals2 :
  construct_from "(<='test'>{2,3})" = Some (COk (MProgram [Equals_ "test"] (mkPI "Loop" (Some (2, 3)) false false))).
Proof. vm_compute. reflexivity. Qed.
(* lines 767-790 *)
Example construct_equals3 :
  construct_from "(?'Test'<='test'>+)"
  = Some (COk (MProgram [EqualsN "Name" "test"] (mkPI "Loop" (Some (1, 18446744073709551615)) false false))).
Proof. vm_compute. reflexivity. Qed.
(* lines 793-822 *)
Example construct_regex : construct_from "</test/i>" = Some (COk (MDiscard (Matches_ (regex_of "(?i)test")))).
Proof. vm_compute. reflexivity. Qed.
(* lines 825-854 *)
Example construct_sequence : construct_from "<%'[',']','\\'>" = Some (COk (MDiscard (Sequence_ "[" "]" "\"))).
Proof. vm_compute. reflexivity. Qed.
(* lines 870-899 *)
Example construct_custom : construct_from "<Test>" = Some (COk (MDiscard (Ref_ "Test"))).
Proof. vm_compute. reflexivity. Qed.
(* lines 902-925 *)
Example construct_switch :
  construct_from "(<[<='test'>|(?'Derp'</wow/i>)]>)"
  = Some (COk (Switch_ [MDiscard (Equals_ "test"); MatchesN "Name" (regex_of "(?i)wow")])).
Proof. vm_compute. reflexivity. Qed.
(* lines 928-951 *)
Example construct_program :
  construct_from "(<{<='test'>(?'Derp'</wow/i>)}>)"
  = Some (COk (Program_ [MDiscard (Equals_ "test"); MatchesN "Name" (regex_of "(?i)wow")])).
Proof. vm_compute. reflexivity. Qed.
(* lines 954-997 *)
Example construct_attributes :
  match construct_from "(</test/i test='1' hello='derp'>)" with
  | Some (COk m) =>
      match m with MMap (MMatches _ n _) (MapAttrs l) => n = lit "Matches" | _ => False end
      /\ parse_check m "test"
           [CName [] "Matches"; CCap [] 0 4; CMat [] 0 4; CVal [] "test"; CMVal [] "test";
            CAttr [] "test" "1"; CAttr [] "hello" "derp"] = true
  | _ => False
  end.
Proof. vm_compute. auto. Qed.

(* the test files *)
Definition test_word : str :=
"<!--[adextopa version='1' name='Word']
  # Simply match against ""test""

  Word = </\w+/i hello='world'>
-->

(<Word>)
".
Definition test_import : str :=
"<!--[adextopa version='1' name='TestImport']
  # Use an import, and match against
  # words...

  import { _ as Word, Word as Chunk } from './test_word.axo'
-->

(<Word>)</\s+/>(<Chunk>)
".
Definition test_attribute_error1 : str :=
"<!--[adextopa version='1' name=Word]
  # Simply match against ""test""

  Word = </\w+/i hello='world'>
-->

(<Word>)
".
Definition test_fs : fs :=
  mkFs (fun _ p => if str_eqb p "./test_word.axo" then Some (lit "/d/test_word.axo") else None)
       (fun p => Some p)
       (fun p => if str_eqb p "/d/test_word.axo" then Some test_word
                 else if str_eqb p "/d/test_import.axo" then Some test_import
                 else if str_eqb p "/d/test_attribute_error1.axo" then Some test_attribute_error1
                 else None).
(* compile a file, then tokenize a text with the result *)
Definition compile_and_parse (file text : str) (l : list check) : bool :=
  match compile_file 5 100 sc_env test_fs false file empty_state with
  | Ret (ScriptOk m _) st =>
      let P := parser_new text in
      let (c, st) := context_new P "Test" st in
      match tokenize 100 sc_env P c m st with
      | Ret (TOk a) st => forallb (holds st a) l
      | _ => false
      end
  | _ => false
  end.
(* lines 603-640 *)
Example compile_word :
  compile_and_parse "/d/test_word.axo" "test"
    [CName [] "Word"; CCap [] 0 4; CMat [] 0 4; CVal [] "test"; CMVal [] "test"; CLen [] 1%nat;
     CName [0%nat] "Word"; CCap [0%nat] 0 4; CMat [0%nat] 0 4; CVal [0%nat] "test"; CMVal [0%nat] "test";
     CLen [0%nat] 0%nat; CAttr [0%nat] "hello" "world"] = true.
Proof. vm_compute. reflexivity. Qed.
(* lines 643-701 *)
Example compile_import :
  compile_and_parse "/d/test_import.axo" "hello world"
    [CName [] "TestImport"; CCap [] 0 11; CMat [] 0 11; CVal [] "hello world"; CMVal [] "hello world"; CLen [] 2%nat;
     CName [0%nat] "Word"; CCap [0%nat] 0 5; CMat [0%nat] 0 5; CVal [0%nat] "hello"; CMVal [0%nat] "hello"; CLen [0%nat] 1%nat;
     CName [0%nat; 0%nat] "Word"; CCap [0%nat; 0%nat] 0 5; CMat [0%nat; 0%nat] 0 5; CVal [0%nat; 0%nat] "hello";
     CMVal [0%nat; 0%nat] "hello"; CLen [0%nat; 0%nat] 0%nat;
     CName [1%nat] "Chunk"; CCap [1%nat] 6 11; CMat [1%nat] 6 11; CVal [1%nat] "world"; CMVal [1%nat] "world"; CLen [1%nat] 0%nat;
     CAttr [0%nat; 0%nat] "hello" "world"; CAttr [1%nat] "hello" "world"] = true.
Proof. vm_compute. reflexivity. Qed.
(* lines 857-867 *)
Example compile_error :
  match compile_file 5 100 sc_env test_fs false "/d/test_attribute_error1.axo" empty_state with
  | Ret (ScriptErr [e]) _ =>
      pe_msg e = lit "Error: /d/test_attribute_error1.axo@[1:32-37]: Malformed attribute detected. Attribute value is not single-quoted. The proper format for an attribute is: name='value'"
      /\ pe_range e = Some (mkR 31 36)
  | _ => False
  end.
Proof. vm_compute. auto. Qed.
