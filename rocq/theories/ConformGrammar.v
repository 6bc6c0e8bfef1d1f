(* The unit tests of /repo/src/script/v1/matchers replayed on the model.
   Written by tools/conform.py from the assertions of the tests. *)
From Verif Require Import Samples ConformMatchers ScriptBuild.
Open Scope string_scope.
Open Scope list_scope.
Open Scope N_scope.

(* the facts that the tests state; a path leads from the result down the children *)
Inductive check :=
| CName (p : list nat) (s : str)
| CCap (p : list nat) (a b : N)
| CMat (p : list nat) (a b : N)
| CVal (p : list nat) (s : str)
| CCVal (p : list nat) (s : str)
| CMVal (p : list nat) (s : str)
| CLen (p : list nat) (n : nat)
| CAttr (p : list nat) (n v : str)
| CErr_ (p : list nat)
| CRange (a b : N)
| CRangeErr (s : str).

Fixpoint follow (st : state) (a : addr) (p : list nat) : option token :=
  match p with
  | [] => Some (tok st a)
  | n :: p' => match nth_error (tk_kids (tok st a)) n with Some k => follow st k p' | None => None end
  end.
Definition on (st : state) (a : addr) (p : list nat) (f : token -> bool) : bool :=
  match follow st a p with Some t => f t | None => false end.
Definition holds (st : state) (a : addr) (c : check) : bool :=
  match c with
  | CName p s => on st a p (fun t => str_eqb (tk_name t) s)
  | CCap p x y => on st a p (fun t => (rs (tk_cr t) =? x) && (re (tk_cr t) =? y))
  | CMat p x y => on st a p (fun t => (rs (tk_mr t) =? x) && (re (tk_mr t) =? y))
  | CVal p s => on st a p (fun t => str_eqb (get_value t) s)
  | CCVal p s => on st a p (fun t => str_eqb (get_cvalue t) s)
  | CMVal p s => on st a p (fun t => str_eqb (get_mvalue t) s)
  | CLen p n => on st a p (fun t => Nat.eqb (List.length (tk_kids t)) n)
  | CAttr p n v => on st a p (fun t => match get_attr n t with Some w => str_eqb v w | None => false end)
  | CErr_ p => on st a p is_error
  | CRange x y => match repeat_range st a with COk (u, v) => (u =? x) && (v =? y) | _ => false end
  | CRangeErr s => match repeat_range st a with CErr e => str_eqb e s | _ => false end
  end.

(* src/script/v1/matchers/whitespace.rs:1-36, with `*` and with `+` *)
Definition blank_ : N -> bool := fun x => cspace at_env x && negb (x =? 10) && negb (x =? 13).
Definition re_ws0_ : finder := re_ws0 at_env.
Definition re_wsn0_ : finder := re_wsn0 at_env.
Definition re_ws1_ : finder := re_find [plus blank_].
Definition re_wsn1_ : finder := re_find [plus (cspace at_env)].

(* the tests register the two recursive matchers first *)
Definition parse_in (m : matcher) (src : str) : parser * res tres :=
  let P := parser_new src in
  let c := init_ctx P "Test" in
  (P, tokenize 100 at_env P c m (register_all init_state c [ScriptSwitchMatcher at_env; ScriptProgramMatcher at_env])).
Definition parse_with (m : matcher) (src : str) : seen :=
  match snd (parse_in m src) with
  | Ret (TOk a) st => Tok (view_of 20 st a)
  | Ret (TErr FFail) _ => Fails
  | Ret (TErr (FError e)) _ => fatal e
  | _ => Other
  end.
Definition parse_check (m : matcher) (src : str) (l : list check) : bool :=
  match snd (parse_in m src) with
  | Ret (TOk a) st => forallb (holds st a) l
  | _ => false
  end.

(* src/script/v1/matchers/adextopa_scope.rs:96 *)
Example adextopa_scope_it_works1 :
  parse_check (ScriptAdextopaScope at_env) "<!--[adextopa version='1']
	# Just a test comment
	test = <='derp'>
	test2=test#another comment
-->"
  [CName [] "AdextopaScope";
   CCap [] 14 95;
   CMat [] 0 99;
   CVal [] "version='1']
	# Just a test comment
	test = <='derp'>
	test2=test#another comment";
   CMVal [] "<!--[adextopa version='1']
	# Just a test comment
	test = <='derp'>
	test2=test#another comment
-->";
   CLen [] 2%nat;
   CName [0%nat] "Attributes";
   CCap [0%nat] 14 24;
   CMat [0%nat] 14 25;
   CVal [0%nat] "version='1";
   CMVal [0%nat] "version='1'";
   CLen [0%nat] 1%nat;
   CName [1%nat] "Scope";
   CCap [1%nat] 28 95;
   CMat [1%nat] 26 96;
   CVal [1%nat] "# Just a test comment
	test = <='derp'>
	test2=test#another comment";
   CMVal [1%nat] "
	# Just a test comment
	test = <='derp'>
	test2=test#another comment
";
   CLen [1%nat] 4%nat;
   CName [1%nat; 0%nat] "Comment";
   CCap [1%nat; 0%nat] 28 49;
   CMat [1%nat; 0%nat] 28 49;
   CVal [1%nat; 0%nat] "# Just a test comment";
   CMVal [1%nat; 0%nat] "# Just a test comment";
   CName [1%nat; 1%nat] "AssignmentExpression";
   CCap [1%nat; 1%nat] 51 65;
   CMat [1%nat; 1%nat] 51 67;
   CVal [1%nat; 1%nat] "test = <='derp";
   CMVal [1%nat; 1%nat] "test = <='derp'>";
   CName [1%nat; 2%nat] "AssignmentExpression";
   CCap [1%nat; 2%nat] 69 79;
   CMat [1%nat; 2%nat] 69 79;
   CVal [1%nat; 2%nat] "test2=test";
   CMVal [1%nat; 2%nat] "test2=test";
   CName [1%nat; 3%nat] "Comment";
   CCap [1%nat; 3%nat] 79 95;
   CMat [1%nat; 3%nat] 79 95;
   CVal [1%nat; 3%nat] "#another comment";
   CMVal [1%nat; 3%nat] "#another comment";
   CAttr [] "version" "1"] = true.
Proof. vm_compute. reflexivity. Qed.

(* src/script/v1/matchers/adextopa_scope.rs:176 *)
Example adextopa_scope_it_works2 :
  parse_check (ScriptAdextopaScope at_env) "<!--[adextopa version='1' name='Test']-->"
  [CName [] "AdextopaScope";
   CCap [] 14 36;
   CMat [] 0 41;
   CVal [] "version='1' name='Test";
   CMVal [] "<!--[adextopa version='1' name='Test']-->";
   CLen [] 1%nat;
   CName [0%nat] "Attributes";
   CCap [0%nat] 14 36;
   CMat [0%nat] 14 37;
   CVal [0%nat] "version='1' name='Test";
   CMVal [0%nat] "version='1' name='Test'";
   CAttr [] "version" "1";
   CAttr [] "name" "Test"] = true.
Proof. vm_compute. reflexivity. Qed.

(* src/script/v1/matchers/adextopa_scope.rs:222 *)
Example adextopa_scope_it_should_fail_without_a_version_attribute :
  parse_check (ScriptAdextopaScope at_env) "<!--[adextopa name='Test']-->"
  [CName [] "Error";
   CCap [] 0 29;
   CMat [] 0 29;
   CVal [] "<!--[adextopa name='Test']-->";
   CMVal [] "<!--[adextopa name='Test']-->";
   CLen [] 0%nat;
   CAttr [] "__message" "Error: @[1:1-30]: Adextopa scope must have a 'version' attribute";
   CErr_ []] = true.
Proof. vm_compute. reflexivity. Qed.

(* src/script/v1/matchers/adextopa_scope.rs:253 *)
Example adextopa_scope_it_should_fail_if_unable_to_parse_version_attribute1 :
  parse_check (ScriptAdextopaScope at_env) "<!--[adextopa version='1.2']-->"
  [CName [] "Error";
   CCap [] 14 27;
   CMat [] 14 27;
   CVal [] "version='1.2'";
   CMVal [] "version='1.2'";
   CLen [] 0%nat;
   CAttr [] "__message" "Error: @[1:15-28]: Adextopa 'version' attribute must be a valid integer number";
   CErr_ []] = true.
Proof. vm_compute. reflexivity. Qed.

(* src/script/v1/matchers/adextopa_scope.rs:284 *)
Example adextopa_scope_it_should_fail_if_unable_to_parse_version_attribute2 :
  parse_check (ScriptAdextopaScope at_env) "<!--[adextopa version='']-->"
  [CName [] "Error";
   CCap [] 14 24;
   CMat [] 14 24;
   CVal [] "version=''";
   CMVal [] "version=''";
   CLen [] 0%nat;
   CAttr [] "__message" "Error: @[1:15-25]: Adextopa 'version' attribute must be a valid integer number";
   CErr_ []] = true.
Proof. vm_compute. reflexivity. Qed.

(* src/script/v1/matchers/adextopa_scope.rs:315 *)
Example adextopa_scope_it_should_fail_if_unable_to_parse_version_attribute3 :
  parse_check (ScriptAdextopaScope at_env) "<!--[adextopa version='derp']-->"
  [CName [] "Error";
   CCap [] 14 28;
   CMat [] 14 28;
   CVal [] "version='derp'";
   CMVal [] "version='derp'";
   CLen [] 0%nat;
   CAttr [] "__message" "Error: @[1:15-29]: Adextopa 'version' attribute must be a valid integer number";
   CErr_ []] = true.
Proof. vm_compute. reflexivity. Qed.

(* src/script/v1/matchers/adextopa_scope.rs:346 *)
Example adextopa_scope_it_fails1 :
  parse_with (ScriptAdextopaScope at_env) "Testing = " = Fails.
Proof. vm_compute. reflexivity. Qed.

(* src/script/v1/matchers/assignment_expression.rs:33 *)
Example assignment_expression_it_works1 :
  parse_check (ScriptAssignmentExpression at_env) "test = <='derp'>"
  [CName [] "AssignmentExpression";
   CCap [] 0 14;
   CMat [] 0 16;
   CVal [] "test = <='derp";
   CMVal [] "test = <='derp'>";
   CLen [] 2%nat;
   CName [0%nat] "Identifier";
   CCap [0%nat] 0 4;
   CMat [0%nat] 0 4;
   CVal [0%nat] "test";
   CMVal [0%nat] "test";
   CName [1%nat] "PatternDefinition";
   CCap [1%nat] 10 14;
   CMat [1%nat] 7 16;
   CVal [1%nat] "derp";
   CMVal [1%nat] "<='derp'>"] = true.
Proof. vm_compute. reflexivity. Qed.

(* src/script/v1/matchers/assignment_expression.rs:70 *)
Example assignment_expression_it_works2 :
  parse_check (ScriptAssignmentExpression at_env) "test=stuff"
  [CName [] "AssignmentExpression";
   CCap [] 0 10;
   CMat [] 0 10;
   CVal [] "test=stuff";
   CMVal [] "test=stuff";
   CLen [] 2%nat;
   CName [0%nat] "Identifier";
   CCap [0%nat] 0 4;
   CMat [0%nat] 0 4;
   CVal [0%nat] "test";
   CMVal [0%nat] "test";
   CName [1%nat] "Identifier";
   CCap [1%nat] 5 10;
   CMat [1%nat] 5 10;
   CVal [1%nat] "stuff";
   CMVal [1%nat] "stuff"] = true.
Proof. vm_compute. reflexivity. Qed.

(* src/script/v1/matchers/assignment_expression.rs:107 *)
Example assignment_expression_it_fails1 :
  parse_with (ScriptAssignmentExpression at_env) "Testing = " = Fails.
Proof. vm_compute. reflexivity. Qed.

(* src/script/v1/matchers/attribute.rs:29 *)
Example attribute_it_works1 :
  parse_check (ScriptAttribute at_env) "test='derp'"
  [CName [] "Attribute";
   CCap [] 0 10;
   CMat [] 0 11;
   CVal [] "test='derp";
   CMVal [] "test='derp'";
   CLen [] 2%nat;
   CName [0%nat] "Name";
   CCap [0%nat] 0 4;
   CMat [0%nat] 0 4;
   CVal [0%nat] "test";
   CMVal [0%nat] "test";
   CName [1%nat] "Value";
   CCap [1%nat] 6 10;
   CMat [1%nat] 5 11;
   CVal [1%nat] "derp";
   CMVal [1%nat] "'derp'"] = true.
Proof. vm_compute. reflexivity. Qed.

(* src/script/v1/matchers/attribute.rs:64 *)
Example attribute_it_reports_an_error_when_the_name_starts_with_underscore :
  parse_check (ScriptAttribute at_env) "_test='derp'"
  [CName [] "Attribute";
   CCap [] 0 11;
   CMat [] 0 12;
   CVal [] "_test='derp";
   CMVal [] "_test='derp'";
   CLen [] 3%nat;
   CName [0%nat] "Name";
   CCap [0%nat] 0 5;
   CMat [0%nat] 0 5;
   CVal [0%nat] "_test";
   CMVal [0%nat] "_test";
   CName [1%nat] "Value";
   CCap [1%nat] 7 11;
   CMat [1%nat] 6 12;
   CVal [1%nat] "derp";
   CMVal [1%nat] "'derp'";
   CName [2%nat] "Error";
   CCap [2%nat] 0 5;
   CMat [2%nat] 0 5;
   CVal [2%nat] "_test";
   CMVal [2%nat] "_test";
   CAttr [2%nat] "__message" "Error: @[1:1-6]: Attribute names can not start with an underscore"] = true.
Proof. vm_compute. reflexivity. Qed.

(* src/script/v1/matchers/attribute.rs:110 *)
Example attribute_it_panics_when_the_value_is_not_a_string :
  parse_with (ScriptAttribute at_env) "_test=derp"
  = Fatal "Error: @[1:7-11]: Malformed attribute detected. Attribute value is not single-quoted. The proper format for an attribute is: name='value'" (Some (6, 10)).
Proof. vm_compute. reflexivity. Qed.

(* src/script/v1/matchers/attribute.rs:129 *)
Example attribute_it_fails1 :
  parse_with (ScriptAttribute at_env) "Testing" = Fails.
Proof. vm_compute. reflexivity. Qed.

(* src/script/v1/matchers/attributes.rs:20 *)
Example attributes_it_works1 :
  parse_check (ScriptAttributes at_env) "test='derp' stuff='things'"
  [CName [] "Attributes";
   CCap [] 0 25;
   CMat [] 0 26;
   CVal [] "test='derp' stuff='things";
   CMVal [] "test='derp' stuff='things'";
   CLen [] 2%nat;
   CName [0%nat] "Attribute";
   CCap [0%nat] 0 10;
   CMat [0%nat] 0 11;
   CVal [0%nat] "test='derp";
   CMVal [0%nat] "test='derp'";
   CLen [0%nat] 2%nat;
   CName [1%nat] "Attribute";
   CCap [1%nat] 12 25;
   CMat [1%nat] 12 26;
   CVal [1%nat] "stuff='things";
   CMVal [1%nat] "stuff='things'";
   CLen [1%nat] 2%nat] = true.
Proof. vm_compute. reflexivity. Qed.

(* src/script/v1/matchers/attributes.rs:57 *)
Example attributes_it_reports_an_error_when_the_name_starts_with_underscore :
  parse_check (ScriptAttributes at_env) "_test='derp'"
  [CName [] "Attributes";
   CCap [] 0 11;
   CMat [] 0 12;
   CVal [] "_test='derp";
   CMVal [] "_test='derp'";
   CLen [] 2%nat;
   CName [0%nat] "Attribute";
   CCap [0%nat] 0 11;
   CMat [0%nat] 0 12;
   CVal [0%nat] "_test='derp";
   CMVal [0%nat] "_test='derp'";
   CLen [0%nat] 2%nat;
   CName [1%nat] "Error";
   CCap [1%nat] 0 5;
   CMat [1%nat] 0 5;
   CVal [1%nat] "_test";
   CMVal [1%nat] "_test";
   CLen [1%nat] 0%nat;
   CAttr [1%nat] "__message" "Error: @[1:1-6]: Attribute names can not start with an underscore"] = true.
Proof. vm_compute. reflexivity. Qed.

(* src/script/v1/matchers/attributes.rs:98 *)
Example attributes_it_panics_when_the_value_is_not_a_string :
  parse_with (ScriptAttributes at_env) "_test=derp"
  = Fatal "Error: @[1:7-11]: Malformed attribute detected. Attribute value is not single-quoted. The proper format for an attribute is: name='value'" (Some (6, 10)).
Proof. vm_compute. reflexivity. Qed.

(* src/script/v1/matchers/attributes.rs:117 *)
Example attributes_it_fails1 :
  parse_with (ScriptAttributes at_env) "Testing" = Fails.
Proof. vm_compute. reflexivity. Qed.

(* src/script/v1/matchers/comment.rs:18 *)
Example comment_it_works1 :
  parse_check (ScriptComment) "# Testing
"
  [CName [] "Comment";
   CCap [] 0 9;
   CMat [] 0 9;
   CVal [] "# Testing";
   CMVal [] "# Testing";
   CLen [] 0%nat] = true.
Proof. vm_compute. reflexivity. Qed.

(* src/script/v1/matchers/comment.rs:39 *)
Example comment_it_works2 :
  parse_check (Loop_ [Switch_ [ScriptComment; MatchesN "Whitespace" spaces; MatchesN "Number" digits]]) "1234 # Testing"
  [CName [] "Loop";
   CCap [] 0 14;
   CMat [] 0 14;
   CVal [] "1234 # Testing";
   CMVal [] "1234 # Testing";
   CLen [] 3%nat;
   CName [0%nat] "Number";
   CCap [0%nat] 0 4;
   CMat [0%nat] 0 4;
   CVal [0%nat] "1234";
   CMVal [0%nat] "1234";
   CName [1%nat] "Whitespace";
   CCap [1%nat] 4 5;
   CMat [1%nat] 4 5;
   CVal [1%nat] " ";
   CMVal [1%nat] " ";
   CName [2%nat] "Comment";
   CCap [2%nat] 5 14;
   CMat [2%nat] 5 14;
   CVal [2%nat] "# Testing";
   CMVal [2%nat] "# Testing"] = true.
Proof. vm_compute. reflexivity. Qed.

(* src/script/v1/matchers/comment.rs:85 *)
Example comment_it_fails1 :
  parse_with (ScriptComment) "Testing" = Fails.
Proof. vm_compute. reflexivity. Qed.

(* src/script/v1/matchers/custom_matcher.rs:19 *)
Example custom_matcher_it_works1 :
  parse_check (ScriptCustomMatcher) "test"
  [CName [] "CustomMatcher";
   CCap [] 0 4;
   CMat [] 0 4;
   CVal [] "test";
   CMVal [] "test"] = true.
Proof. vm_compute. reflexivity. Qed.

(* src/script/v1/matchers/custom_matcher.rs:39 *)
Example custom_matcher_it_fails1 :
  parse_with (ScriptCustomMatcher) "<test>" = Fails.
Proof. vm_compute. reflexivity. Qed.

(* src/script/v1/matchers/equals_matcher.rs:20 *)
Example equals_matcher_it_works1 :
  parse_check (ScriptEqualsMatcher) "='test'"
  [CName [] "EqualsMatcher";
   CCap [] 2 6;
   CMat [] 0 7;
   CVal [] "test";
   CMVal [] "='test'";
   CLen [] 1%nat] = true.
Proof. vm_compute. reflexivity. Qed.

(* src/script/v1/matchers/equals_matcher.rs:41 *)
Example equals_matcher_it_fails1 :
  parse_with (ScriptEqualsMatcher) "Testing" = Fails.
Proof. vm_compute. reflexivity. Qed.

(* src/script/v1/matchers/identifier.rs:21 *)
Example identifier_it_works1 :
  parse_check (ScriptIdentifier) "_Testing"
  [CName [] "Identifier";
   CCap [] 0 8;
   CVal [] "_Testing"] = true.
Proof. vm_compute. reflexivity. Qed.

(* src/script/v1/matchers/identifier.rs:37 *)
Example identifier_it_works2 :
  parse_check (ScriptIdentifier) "$Test_ing"
  [CName [] "Identifier";
   CCap [] 0 9;
   CVal [] "$Test_ing"] = true.
Proof. vm_compute. reflexivity. Qed.

(* src/script/v1/matchers/identifier.rs:53 *)
Example identifier_it_fails1 :
  parse_with (ScriptIdentifier) "0Testing" = Fails.
Proof. vm_compute. reflexivity. Qed.

(* src/script/v1/matchers/import_statement.rs:52 *)
Example import_statement_it_works1 :
  parse_check (ScriptImportStatement at_env) "import { _ as derp, Stuff as Things, Wow } from '../test'"
  [CName [] "ImportStatement";
   CCap [] 9 56;
   CMat [] 0 57;
   CVal [] "_ as derp, Stuff as Things, Wow } from '../test";
   CMVal [] "import { _ as derp, Stuff as Things, Wow } from '../test'";
   CLen [] 2%nat;
   CName [0%nat] "ImportIdentifiers";
   CCap [0%nat] 9 40;
   CMat [0%nat] 7 42;
   CVal [0%nat] "_ as derp, Stuff as Things, Wow";
   CMVal [0%nat] "{ _ as derp, Stuff as Things, Wow }";
   CLen [0%nat] 3%nat;
   CName [0%nat; 0%nat] "ImportIdentifier";
   CCap [0%nat; 0%nat] 9 18;
   CMat [0%nat; 0%nat] 9 19;
   CVal [0%nat; 0%nat] "_ as derp";
   CMVal [0%nat; 0%nat] "_ as derp,";
   CLen [0%nat; 0%nat] 2%nat;
   CName [0%nat; 1%nat] "ImportIdentifier";
   CCap [0%nat; 1%nat] 20 35;
   CMat [0%nat; 1%nat] 20 36;
   CVal [0%nat; 1%nat] "Stuff as Things";
   CMVal [0%nat; 1%nat] "Stuff as Things,";
   CLen [0%nat; 1%nat] 2%nat;
   CName [0%nat; 2%nat] "ImportIdentifier";
   CCap [0%nat; 2%nat] 37 40;
   CMat [0%nat; 2%nat] 37 40;
   CVal [0%nat; 2%nat] "Wow";
   CMVal [0%nat; 2%nat] "Wow";
   CLen [0%nat; 2%nat] 1%nat;
   CName [1%nat] "Path";
   CCap [1%nat] 49 56;
   CMat [1%nat] 48 57;
   CVal [1%nat] "../test";
   CMVal [1%nat] "'../test'"] = true.
Proof. vm_compute. reflexivity. Qed.

(* src/script/v1/matchers/import_statement.rs:121 *)
Example import_statement_it_fails1 :
  parse_with (ScriptImportStatement at_env) "Testing 'derp'" = Fails.
Proof. vm_compute. reflexivity. Qed.

(* src/script/v1/matchers/import_statement.rs:133 *)
Example import_statement_it_fails2 :
  parse_with (ScriptImportStatement at_env) "import
'test'" = Fails.
Proof. vm_compute. reflexivity. Qed.

(* src/script/v1/matchers/matcher.rs:31 *)
Example matcher_it_works1 :
  parse_check (Loop_ [ScriptMatcher at_env]) "='test'%'[',']',''/test/icustom"
  [CName [] "Loop";
   CCap [] 2 31;
   CMat [] 0 31;
   CVal [] "test'%'[',']',''/test/icustom";
   CMVal [] "='test'%'[',']',''/test/icustom";
   CLen [] 4%nat;
   CName [0%nat] "EqualsMatcher";
   CCap [0%nat] 2 6;
   CMat [0%nat] 0 7;
   CVal [0%nat] "test";
   CMVal [0%nat] "='test'";
   CName [1%nat] "SequenceMatcher";
   CCap [1%nat] 9 17;
   CMat [1%nat] 7 18;
   CVal [1%nat] "[',']','";
   CMVal [1%nat] "%'[',']',''";
   CName [2%nat] "RegexMatcher";
   CCap [2%nat] 18 25;
   CMat [2%nat] 18 25;
   CVal [2%nat] "test";
   CMVal [2%nat] "/test/i";
   CName [3%nat] "CustomMatcher";
   CCap [3%nat] 25 31;
   CMat [3%nat] 25 31;
   CVal [3%nat] "custom";
   CMVal [3%nat] "custom"] = true.
Proof. vm_compute. reflexivity. Qed.

(* src/script/v1/matchers/matcher.rs:83 *)
Example matcher_it_works2 :
  parse_check (ScriptMatcher at_env) "='test'"
  [CName [] "EqualsMatcher";
   CCap [] 2 6;
   CMat [] 0 7;
   CVal [] "test";
   CMVal [] "='test'"] = true.
Proof. vm_compute. reflexivity. Qed.

(* src/script/v1/matchers/matcher.rs:106 *)
Example matcher_it_works3 :
  parse_check (ScriptMatcher at_env) "/\s+/"
  [CName [] "RegexMatcher";
   CCap [] 0 5;
   CMat [] 0 5;
   CVal [] "\s+";
   CMVal [] "/\s+/"] = true.
Proof. vm_compute. reflexivity. Qed.

(* src/script/v1/matchers/matcher.rs:129 *)
Example matcher_it_fails1 :
  parse_with (ScriptMatcher at_env) "!" = Fails.
Proof. vm_compute. reflexivity. Qed.

(* src/script/v1/matchers/matcher_name.rs:20 *)
Example matcher_name_it_works1 :
  parse_check (ScriptMatcherName) "?'test'"
  [CName [] "MatcherName";
   CCap [] 2 6;
   CMat [] 0 7;
   CVal [] "test";
   CMVal [] "?'test'";
   CLen [] 1%nat] = true.
Proof. vm_compute. reflexivity. Qed.

(* src/script/v1/matchers/matcher_name.rs:41 *)
Example matcher_name_it_fails1 :
  parse_with (ScriptMatcherName) "Testing" = Fails.
Proof. vm_compute. reflexivity. Qed.

(* src/script/v1/matchers/pattern.rs:35 *)
Example pattern_it_works1 :
  parse_check (ScriptPattern at_env) "<!/test/i>"
  [CName [] "PatternDefinition";
   CCap [] 1 9;
   CMat [] 0 10;
   CVal [] "!/test/i";
   CMVal [] "<!/test/i>";
   CLen [] 2%nat;
   CName [0%nat] "InnerNotModifier";
   CCap [0%nat] 1 2;
   CMat [0%nat] 1 2;
   CVal [0%nat] "!";
   CMVal [0%nat] "!";
   CName [1%nat] "RegexMatcher";
   CCap [1%nat] 2 9;
   CMat [1%nat] 2 9;
   CVal [1%nat] "test";
   CMVal [1%nat] "/test/i"] = true.
Proof. vm_compute. reflexivity. Qed.

(* src/script/v1/matchers/pattern.rs:73 *)
Example pattern_it_works2 :
  parse_check (ScriptPattern at_env) "(<!/test/i>)"
  [CName [] "PatternDefinitionCaptured";
   CCap [] 2 10;
   CMat [] 0 12;
   CVal [] "!/test/i";
   CMVal [] "(<!/test/i>)";
   CLen [] 1%nat;
   CName [0%nat] "PatternDefinition";
   CCap [0%nat] 2 10;
   CMat [0%nat] 1 11;
   CVal [0%nat] "!/test/i";
   CMVal [0%nat] "<!/test/i>"] = true.
Proof. vm_compute. reflexivity. Qed.

(* src/script/v1/matchers/pattern.rs:104 *)
Example pattern_it_works3 :
  parse_check (ScriptPattern at_env) "(
	?'name'
	<!/test/i>
)"
  [CName [] "PatternDefinitionCaptured";
   CCap [] 5 21;
   CMat [] 0 24;
   CVal [] "name'
	<!/test/i";
   CMVal [] "(
	?'name'
	<!/test/i>
)";
   CLen [] 2%nat;
   CName [0%nat] "MatcherName";
   CCap [0%nat] 5 9;
   CMat [0%nat] 3 10;
   CVal [0%nat] "name";
   CMVal [0%nat] "?'name'";
   CName [1%nat] "PatternDefinition";
   CCap [1%nat] 13 21;
   CMat [1%nat] 12 22;
   CVal [1%nat] "!/test/i";
   CMVal [1%nat] "<!/test/i>"] = true.
Proof. vm_compute. reflexivity. Qed.

(* src/script/v1/matchers/pattern.rs:142 *)
Example pattern_it_fails1 :
  parse_with (ScriptPattern at_env) "(test)" = Fails.
Proof. vm_compute. reflexivity. Qed.

(* src/script/v1/matchers/pattern_definition.rs:77 *)
Example pattern_definition_it_works1 :
  parse_check (ScriptPatternDefinition at_env) "<!/test/i>"
  [CName [] "PatternDefinition";
   CCap [] 1 9;
   CMat [] 0 10;
   CVal [] "!/test/i";
   CMVal [] "<!/test/i>";
   CLen [] 2%nat;
   CName [0%nat] "InnerNotModifier";
   CCap [0%nat] 1 2;
   CMat [0%nat] 1 2;
   CVal [0%nat] "!";
   CMVal [0%nat] "!";
   CName [1%nat] "RegexMatcher";
   CCap [1%nat] 2 9;
   CMat [1%nat] 2 9;
   CVal [1%nat] "test";
   CMVal [1%nat] "/test/i"] = true.
Proof. vm_compute. reflexivity. Qed.

(* src/script/v1/matchers/pattern_definition.rs:115 *)
Example pattern_definition_it_works_with_attributes :
  parse_check (ScriptPatternDefinition at_env) "<!/test/i attr1='test' attr2 = 'derp'>"
  [CName [] "PatternDefinition";
   CCap [] 1 36;
   CMat [] 0 38;
   CVal [] "!/test/i attr1='test' attr2 = 'derp";
   CMVal [] "<!/test/i attr1='test' attr2 = 'derp'>";
   CLen [] 3%nat;
   CName [0%nat] "InnerNotModifier";
   CCap [0%nat] 1 2;
   CMat [0%nat] 1 2;
   CVal [0%nat] "!";
   CMVal [0%nat] "!";
   CName [1%nat] "RegexMatcher";
   CCap [1%nat] 2 9;
   CMat [1%nat] 2 9;
   CVal [1%nat] "test";
   CMVal [1%nat] "/test/i";
   CName [2%nat] "Attributes";
   CCap [2%nat] 10 36;
   CMat [2%nat] 10 37;
   CVal [2%nat] "attr1='test' attr2 = 'derp";
   CMVal [2%nat] "attr1='test' attr2 = 'derp'";
   CLen [2%nat] 2%nat;
   CName [2%nat; 0%nat] "Attribute";
   CCap [2%nat; 0%nat] 10 21;
   CMat [2%nat; 0%nat] 10 22;
   CVal [2%nat; 0%nat] "attr1='test";
   CMVal [2%nat; 0%nat] "attr1='test'";
   CName [2%nat; 1%nat] "Attribute";
   CCap [2%nat; 1%nat] 23 36;
   CMat [2%nat; 1%nat] 23 37;
   CVal [2%nat; 1%nat] "attr2 = 'derp";
   CMVal [2%nat; 1%nat] "attr2 = 'derp'";
   CAttr [] "attr1" "test";
   CAttr [] "attr2" "derp"] = true.
Proof. vm_compute. reflexivity. Qed.

(* src/script/v1/matchers/pattern_definition.rs:181 *)
Example pattern_definition_it_works2 :
  parse_check (ScriptPatternDefinition at_env) "!<='test'>"
  [CName [] "PatternDefinition";
   CCap [] 0 8;
   CMat [] 0 10;
   CVal [] "!<='test";
   CMVal [] "!<='test'>";
   CLen [] 2%nat;
   CName [0%nat] "OuterNotModifier";
   CCap [0%nat] 0 1;
   CMat [0%nat] 0 1;
   CVal [0%nat] "!";
   CMVal [0%nat] "!";
   CName [1%nat] "EqualsMatcher";
   CCap [1%nat] 4 8;
   CMat [1%nat] 2 9;
   CVal [1%nat] "test";
   CMVal [1%nat] "='test'"] = true.
Proof. vm_compute. reflexivity. Qed.

(* src/script/v1/matchers/pattern_definition.rs:219 *)
Example pattern_definition_it_works3 :
  parse_check (ScriptPatternDefinition at_env) "<?='test'>"
  [CName [] "PatternDefinition";
   CCap [] 1 8;
   CMat [] 0 10;
   CVal [] "?='test";
   CMVal [] "<?='test'>";
   CLen [] 2%nat;
   CName [0%nat] "InnerOptionalModifier";
   CCap [0%nat] 1 2;
   CMat [0%nat] 1 2;
   CVal [0%nat] "?";
   CMVal [0%nat] "?";
   CName [1%nat] "EqualsMatcher";
   CCap [1%nat] 4 8;
   CMat [1%nat] 2 9;
   CVal [1%nat] "test";
   CMVal [1%nat] "='test'"] = true.
Proof. vm_compute. reflexivity. Qed.

(* src/script/v1/matchers/pattern_definition.rs:257 *)
Example pattern_definition_it_works4 :
  parse_check (ScriptPatternDefinition at_env) "< %'[',']','' >"
  [CName [] "PatternDefinition";
   CCap [] 4 12;
   CMat [] 0 15;
   CVal [] "[',']','";
   CMVal [] "< %'[',']','' >";
   CLen [] 1%nat;
   CName [0%nat] "SequenceMatcher";
   CCap [0%nat] 4 12;
   CMat [0%nat] 2 13;
   CVal [0%nat] "[',']','";
   CMVal [0%nat] "%'[',']',''"] = true.
Proof. vm_compute. reflexivity. Qed.

(* src/script/v1/matchers/pattern_definition.rs:288 *)
Example pattern_definition_it_works5 :
  parse_check (ScriptPatternDefinition at_env) "</\s+/>"
  [CName [] "PatternDefinition";
   CCap [] 1 6;
   CMat [] 0 7;
   CVal [] "/\s+/";
   CMVal [] "</\s+/>";
   CLen [] 1%nat;
   CName [0%nat] "RegexMatcher";
   CCap [0%nat] 1 6;
   CMat [0%nat] 1 6;
   CVal [0%nat] "\s+";
   CMVal [0%nat] "/\s+/"] = true.
Proof. vm_compute. reflexivity. Qed.

(* src/script/v1/matchers/pattern_definition.rs:319 *)
Example pattern_definition_it_works_with_repeat_specifier1 :
  parse_check (ScriptPatternDefinition at_env) "<='test'>+"
  [CName [] "PatternDefinition";
   CCap [] 3 10;
   CMat [] 0 10;
   CVal [] "test'>+";
   CMVal [] "<='test'>+";
   CLen [] 2%nat;
   CName [0%nat] "EqualsMatcher";
   CCap [0%nat] 3 7;
   CMat [0%nat] 1 8;
   CVal [0%nat] "test";
   CMVal [0%nat] "='test'";
   CName [1%nat] "RepeatOneOrMore";
   CCap [1%nat] 9 10;
   CMat [1%nat] 9 10;
   CVal [1%nat] "+";
   CMVal [1%nat] "+"] = true.
Proof. vm_compute. reflexivity. Qed.

(* src/script/v1/matchers/pattern_definition.rs:357 *)
Example pattern_definition_it_works_with_repeat_specifier2 :
  parse_check (ScriptPatternDefinition at_env) "<='test'>*"
  [CName [] "PatternDefinition";
   CCap [] 3 10;
   CMat [] 0 10;
   CVal [] "test'>*";
   CMVal [] "<='test'>*";
   CLen [] 2%nat;
   CName [0%nat] "EqualsMatcher";
   CCap [0%nat] 3 7;
   CMat [0%nat] 1 8;
   CVal [0%nat] "test";
   CMVal [0%nat] "='test'";
   CName [1%nat] "RepeatZeroOrMore";
   CCap [1%nat] 9 10;
   CMat [1%nat] 9 10;
   CVal [1%nat] "*";
   CMVal [1%nat] "*"] = true.
Proof. vm_compute. reflexivity. Qed.

(* src/script/v1/matchers/pattern_definition.rs:395 *)
Example pattern_definition_it_works_with_repeat_specifier3 :
  parse_check (ScriptPatternDefinition at_env) "<='test'>{2,}"
  [CName [] "PatternDefinition";
   CCap [] 3 12;
   CMat [] 0 13;
   CVal [] "test'>{2,";
   CMVal [] "<='test'>{2,}";
   CLen [] 2%nat;
   CName [0%nat] "EqualsMatcher";
   CCap [0%nat] 3 7;
   CMat [0%nat] 1 8;
   CVal [0%nat] "test";
   CMVal [0%nat] "='test'";
   CName [1%nat] "RepeatRange";
   CCap [1%nat] 10 12;
   CMat [1%nat] 9 13;
   CVal [1%nat] "2,";
   CMVal [1%nat] "{2,}"] = true.
Proof. vm_compute. reflexivity. Qed.

(* src/script/v1/matchers/pattern_definition.rs:433 *)
Example pattern_definition_it_fails_on_not_optional1 :
  parse_check (ScriptPatternDefinition at_env) "<?!='test'>"
  [CName [] "PatternDefinition";
   CCap [] 1 9;
   CMat [] 0 11;
   CVal [] "?!='test";
   CMVal [] "<?!='test'>";
   CLen [] 2%nat;
   CName [0%nat] "Error";
   CCap [0%nat] 1 3;
   CMat [0%nat] 1 3;
   CVal [0%nat] "?!";
   CMVal [0%nat] "?!";
   CAttr [0%nat] "__message" "Error: @[1:2-4]: Can not use ? and ! at the same time in this context. Use one or the other, not both.";
   CName [1%nat] "EqualsMatcher";
   CCap [1%nat] 5 9;
   CMat [1%nat] 3 10;
   CVal [1%nat] "test";
   CMVal [1%nat] "='test'"] = true.
Proof. vm_compute. reflexivity. Qed.

(* src/script/v1/matchers/pattern_definition.rs:475 *)
Example pattern_definition_it_fails_on_not_optional2 :
  parse_check (ScriptPatternDefinition at_env) "!?<='test'>"
  [CName [] "PatternDefinition";
   CCap [] 0 9;
   CMat [] 0 11;
   CVal [] "!?<='test";
   CMVal [] "!?<='test'>";
   CLen [] 2%nat;
   CName [0%nat] "Error";
   CCap [0%nat] 0 2;
   CMat [0%nat] 0 2;
   CVal [0%nat] "!?";
   CMVal [0%nat] "!?";
   CAttr [0%nat] "__message" "Error: @[1:1-3]: Can not use ? and ! at the same time in this context. Use one or the other, not both.";
   CName [1%nat] "EqualsMatcher";
   CCap [1%nat] 5 9;
   CMat [1%nat] 3 10;
   CVal [1%nat] "test";
   CMVal [1%nat] "='test'"] = true.
Proof. vm_compute. reflexivity. Qed.

(* src/script/v1/matchers/pattern_definition.rs:517 *)
Example pattern_definition_it_fails1 :
  parse_with (ScriptPatternDefinition at_env) "Testing" = Fails.
Proof. vm_compute. reflexivity. Qed.

(* src/script/v1/matchers/pattern_scope.rs:44 *)
Example pattern_scope_it_works1 :
  parse_check (ScriptPatternScope at_env) " <='test'>
	(</test/i>)
"
  [CName [] "PatternScope";
   CCap [] 4 21;
   CMat [] 0 24;
   CVal [] "test'>
	(</test/i";
   CMVal [] " <='test'>
	(</test/i>)
";
   CLen [] 2%nat;
   CName [0%nat] "PatternDefinition";
   CCap [0%nat] 4 8;
   CMat [0%nat] 1 10;
   CVal [0%nat] "test";
   CMVal [0%nat] "<='test'>";
   CName [1%nat] "PatternDefinitionCaptured";
   CCap [1%nat] 14 21;
   CMat [1%nat] 12 23;
   CVal [1%nat] "/test/i";
   CMVal [1%nat] "(</test/i>)"] = true.
Proof. vm_compute. reflexivity. Qed.

(* src/script/v1/matchers/pattern_scope.rs:106 *)
Example pattern_scope_it_fails1 :
  parse_with (ScriptPatternScope at_env) "<!--[adextopa version='1']-->" = Fails.
Proof. vm_compute. reflexivity. Qed.

(* src/script/v1/matchers/program_matcher.rs:34 *)
Example program_matcher_it_works1 :
  parse_check (ScriptProgramMatcher at_env) "{
	<='test'>
	(</test/i>)}"
  [CName [] "ProgramMatcher";
   CCap [] 6 23;
   CMat [] 0 26;
   CVal [] "test'>
	(</test/i";
   CMVal [] "{
	<='test'>
	(</test/i>)}";
   CLen [] 2%nat;
   CName [0%nat] "PatternDefinition";
   CCap [0%nat] 6 10;
   CMat [0%nat] 3 12;
   CVal [0%nat] "test";
   CMVal [0%nat] "<='test'>";
   CName [1%nat] "PatternDefinitionCaptured";
   CCap [1%nat] 16 23;
   CMat [1%nat] 14 25;
   CVal [1%nat] "/test/i";
   CMVal [1%nat] "(</test/i>)"] = true.
Proof. vm_compute. reflexivity. Qed.

(* src/script/v1/matchers/program_matcher.rs:73 *)
Example program_matcher_it_fails1 :
  parse_with (ScriptProgramMatcher at_env) "<test>" = Fails.
Proof. vm_compute. reflexivity. Qed.

(* src/script/v1/matchers/regex_matcher.rs:68 *)
Example regex_matcher_it_works1 :
  parse_check (ScriptRegexMatcher) "/test\/[chars/\]]stuff/i>"
  [CName [] "RegexMatcher";
   CCap [] 0 24;
   CMat [] 0 24;
   CVal [] "test\/[chars/\]]stuff";
   CMVal [] "/test\/[chars/\]]stuff/i";
   CLen [] 7%nat;
   CName [0%nat] "RegexStart";
   CCap [0%nat] 0 1;
   CMat [0%nat] 0 1;
   CVal [0%nat] "/";
   CMVal [0%nat] "/";
   CName [1%nat] "Part";
   CCap [1%nat] 1 5;
   CMat [1%nat] 1 5;
   CVal [1%nat] "test";
   CMVal [1%nat] "test";
   CName [2%nat] "Part";
   CCap [2%nat] 5 7;
   CMat [2%nat] 5 7;
   CVal [2%nat] "\/";
   CMVal [2%nat] "\/";
   CName [3%nat] "Part";
   CCap [3%nat] 8 16;
   CMat [3%nat] 7 17;
   CVal [3%nat] "chars/]";
   CMVal [3%nat] "[chars/\]]";
   CName [4%nat] "Part";
   CCap [4%nat] 17 22;
   CMat [4%nat] 17 22;
   CVal [4%nat] "stuff";
   CMVal [4%nat] "stuff";
   CName [5%nat] "RegexEnd";
   CCap [5%nat] 22 23;
   CMat [5%nat] 22 23;
   CVal [5%nat] "/";
   CMVal [5%nat] "/";
   CName [6%nat] "Flags";
   CCap [6%nat] 23 24;
   CMat [6%nat] 23 24;
   CVal [6%nat] "i";
   CMVal [6%nat] "i"] = true.
Proof. vm_compute. reflexivity. Qed.

(* src/script/v1/matchers/regex_matcher.rs:138 *)
Example regex_matcher_it_works2 :
  parse_check (ScriptRegexMatcher) "/test\/[chars/\]]stuff/i>"
  [CName [] "RegexMatcher";
   CCap [] 0 24;
   CMat [] 0 24;
   CVal [] "test\/[chars/\]]stuff";
   CMVal [] "/test\/[chars/\]]stuff/i";
   CLen [] 7%nat;
   CName [0%nat] "RegexStart";
   CCap [0%nat] 0 1;
   CMat [0%nat] 0 1;
   CVal [0%nat] "/";
   CMVal [0%nat] "/";
   CName [1%nat] "Part";
   CCap [1%nat] 1 5;
   CMat [1%nat] 1 5;
   CVal [1%nat] "test";
   CMVal [1%nat] "test";
   CName [2%nat] "Part";
   CCap [2%nat] 5 7;
   CMat [2%nat] 5 7;
   CVal [2%nat] "\/";
   CMVal [2%nat] "\/";
   CName [3%nat] "Part";
   CCap [3%nat] 8 16;
   CMat [3%nat] 7 17;
   CVal [3%nat] "chars/]";
   CMVal [3%nat] "[chars/\]]";
   CName [4%nat] "Part";
   CCap [4%nat] 17 22;
   CMat [4%nat] 17 22;
   CVal [4%nat] "stuff";
   CMVal [4%nat] "stuff";
   CName [5%nat] "RegexEnd";
   CCap [5%nat] 22 23;
   CMat [5%nat] 22 23;
   CVal [5%nat] "/";
   CMVal [5%nat] "/";
   CName [6%nat] "Flags";
   CCap [6%nat] 23 24;
   CMat [6%nat] 23 24;
   CVal [6%nat] "i";
   CMVal [6%nat] "i"] = true.
Proof. vm_compute. reflexivity. Qed.

(* src/script/v1/matchers/regex_matcher.rs:208 *)
Example regex_matcher_it_works3 :
  parse_check (ScriptRegexMatcher) "/\w+/i"
  [CName [] "RegexMatcher";
   CCap [] 0 6;
   CMat [] 0 6;
   CVal [] "\w+";
   CMVal [] "/\w+/i"] = true.
Proof. vm_compute. reflexivity. Qed.

(* src/script/v1/matchers/regex_matcher.rs:228 *)
Example regex_matcher_it_works4 :
  parse_check (ScriptRegexMatcher) "/\s+/"
  [CName [] "RegexMatcher";
   CCap [] 0 5;
   CMat [] 0 5;
   CVal [] "\s+";
   CMVal [] "/\s+/"] = true.
Proof. vm_compute. reflexivity. Qed.

(* src/script/v1/matchers/regex_matcher.rs:248 *)
Example regex_matcher_it_fails1 :
  parse_with (ScriptRegexMatcher) "Testing" = Fails.
Proof. vm_compute. reflexivity. Qed.

(* src/script/v1/matchers/repeat_range.rs:27 *)
Example repeat_range_it_works1 :
  parse_check (ScriptRepeatRange at_env) "{10}"
  [CName [] "RepeatRange";
   CCap [] 1 3;
   CMat [] 0 4;
   CVal [] "10";
   CMVal [] "{10}";
   CLen [] 1%nat;
   CName [0%nat] "Minimum";
   CCap [0%nat] 1 3;
   CMat [0%nat] 1 3;
   CVal [0%nat] "10";
   CMVal [0%nat] "10"] = true.
Proof. vm_compute. reflexivity. Qed.

(* src/script/v1/matchers/repeat_range.rs:55 *)
Example repeat_range_it_works2 :
  parse_check (ScriptRepeatRange at_env) "{ 9, 11 }"
  [CName [] "RepeatRange";
   CCap [] 2 7;
   CMat [] 0 9;
   CVal [] "9, 11";
   CMVal [] "{ 9, 11 }";
   CLen [] 3%nat;
   CName [0%nat] "Minimum";
   CCap [0%nat] 2 3;
   CMat [0%nat] 2 3;
   CVal [0%nat] "9";
   CMVal [0%nat] "9";
   CName [1%nat] "Seperator";
   CCap [1%nat] 3 4;
   CMat [1%nat] 3 4;
   CVal [1%nat] ",";
   CMVal [1%nat] ",";
   CName [2%nat] "Maximum";
   CCap [2%nat] 5 7;
   CMat [2%nat] 5 7;
   CVal [2%nat] "11";
   CMVal [2%nat] "11"] = true.
Proof. vm_compute. reflexivity. Qed.

(* src/script/v1/matchers/repeat_range.rs:97 *)
Example repeat_range_it_works3 :
  parse_check (ScriptRepeatRange at_env) "{19,}"
  [CName [] "RepeatRange";
   CCap [] 1 4;
   CMat [] 0 5;
   CVal [] "19,";
   CMVal [] "{19,}";
   CLen [] 2%nat;
   CName [0%nat] "Minimum";
   CCap [0%nat] 1 3;
   CMat [0%nat] 1 3;
   CVal [0%nat] "19";
   CMVal [0%nat] "19";
   CName [1%nat] "Seperator";
   CCap [1%nat] 3 4;
   CMat [1%nat] 3 4;
   CVal [1%nat] ",";
   CMVal [1%nat] ","] = true.
Proof. vm_compute. reflexivity. Qed.

(* src/script/v1/matchers/repeat_range.rs:132 *)
Example repeat_range_it_fails1 :
  parse_with (ScriptRepeatRange at_env) "Testing" = Fails.
Proof. vm_compute. reflexivity. Qed.

(* src/script/v1/matchers/repeat_specifier.rs:72 *)
Example repeat_specifier_it_works1 :
  parse_check (ScriptRepeatSpecifier at_env) "+*{}"
  [CRange 1 usize_max;
   CName [] "RepeatOneOrMore";
   CCap [] 0 1;
   CMat [] 0 1;
   CVal [] "+";
   CMVal [] "+";
   CLen [] 0%nat] = true.
Proof. vm_compute. reflexivity. Qed.

(* src/script/v1/matchers/repeat_specifier.rs:95 *)
Example repeat_specifier_it_works2 :
  parse_check (ScriptRepeatSpecifier at_env) "*+{}"
  [CRange 0 usize_max;
   CName [] "RepeatZeroOrMore";
   CCap [] 0 1;
   CMat [] 0 1;
   CVal [] "*";
   CMVal [] "*";
   CLen [] 0%nat] = true.
Proof. vm_compute. reflexivity. Qed.

(* src/script/v1/matchers/repeat_specifier.rs:118 *)
Example repeat_specifier_it_works3 :
  parse_check (ScriptRepeatSpecifier at_env) "{10,}*+"
  [CRange 10 usize_max;
   CName [] "RepeatRange";
   CCap [] 1 4;
   CMat [] 0 5;
   CVal [] "10,";
   CMVal [] "{10,}";
   CLen [] 2%nat] = true.
Proof. vm_compute. reflexivity. Qed.

(* src/script/v1/matchers/repeat_specifier.rs:144 *)
Example repeat_specifier_it_works4 :
  parse_check (ScriptRepeatSpecifier at_env) "{10, 15}*+"
  [CRange 10 15;
   CName [] "RepeatRange";
   CCap [] 1 7;
   CMat [] 0 8;
   CVal [] "10, 15";
   CMVal [] "{10, 15}";
   CLen [] 3%nat] = true.
Proof. vm_compute. reflexivity. Qed.

(* src/script/v1/matchers/repeat_specifier.rs:167 *)
Example repeat_specifier_it_fails1 :
  parse_check (ScriptRepeatSpecifier at_env) "{15, 10}*+"
  [CRangeErr "Error with repeat specifier: Maximum range is smaller than minimum: {15, 10}"] = true.
Proof. vm_compute. reflexivity. Qed.

(* src/script/v1/matchers/repeat_specifier.rs:188 *)
Example repeat_specifier_it_fails2 :
  parse_with (ScriptRepeatSpecifier at_env) " +" = Fails.
Proof. vm_compute. reflexivity. Qed.

(* src/script/v1/matchers/script.rs:47 *)
Example script_it_works1 :
  parse_check (Script_ at_env) " <='test'>
	(</test/i>)
"
  [CName [] "Script";
   CCap [] 4 21;
   CMat [] 0 24;
   CVal [] "test'>
	(</test/i";
   CMVal [] " <='test'>
	(</test/i>)
";
   CLen [] 1%nat;
   CName [0%nat] "PatternScope";
   CCap [0%nat] 4 21;
   CMat [0%nat] 1 24;
   CVal [0%nat] "test'>
	(</test/i";
   CMVal [0%nat] "<='test'>
	(</test/i>)
"] = true.
Proof. vm_compute. reflexivity. Qed.

(* src/script/v1/matchers/script.rs:79 *)
Example script_it_works2 :
  parse_check (Script_ at_env) " 

<!--[adextopa version='1']--> <='test'>
	(</test/i>)
"
  [CName [] "Script";
   CCap [] 17 53;
   CMat [] 0 56;
   CVal [] "version='1']--> <='test'>
	(</test/i";
   CMVal [] " 

<!--[adextopa version='1']--> <='test'>
	(</test/i>)
";
   CLen [] 2%nat;
   CName [0%nat] "AdextopaScope";
   CCap [0%nat] 17 27;
   CMat [0%nat] 3 32;
   CVal [0%nat] "version='1";
   CMVal [0%nat] "<!--[adextopa version='1']-->";
   CName [1%nat] "PatternScope";
   CCap [1%nat] 36 53;
   CMat [1%nat] 32 56;
   CVal [1%nat] "test'>
	(</test/i";
   CMVal [1%nat] " <='test'>
	(</test/i>)
"] = true.
Proof. vm_compute. reflexivity. Qed.

(* src/script/v1/matchers/script.rs:117 *)
Example script_it_fails1 :
  parse_with (Script_ at_env) "derp" = Fails.
Proof. vm_compute. reflexivity. Qed.

(* src/script/v1/matchers/script.rs:131 *)
Example script_it_fails_when_empty :
  parse_check (Script_ at_env) "# there is nothing here but a comment"
  [CName [] "Error";
   CCap [] 0 37;
   CMat [] 0 37;
   CVal [] "# there is nothing here but a comment";
   CMVal [] "# there is nothing here but a comment";
   CLen [] 0%nat;
   CAttr [] "__message" "Error: @[1:1-38]: Nothing to parse. No scopes found."] = true.
Proof. vm_compute. reflexivity. Qed.

(* src/script/v1/matchers/sequence_matcher.rs:22 *)
Example sequence_matcher_it_works1 :
  parse_check (ScriptSequenceMatcher at_env) "%'{','}',''"
  [CName [] "SequenceMatcher";
   CCap [] 2 10;
   CMat [] 0 11;
   CVal [] "{','}','";
   CMVal [] "%'{','}',''";
   CLen [] 3%nat;
   CName [0%nat] "StartPattern";
   CCap [0%nat] 2 3;
   CMat [0%nat] 1 4;
   CVal [0%nat] "{";
   CMVal [0%nat] "'{'";
   CName [1%nat] "EndPattern";
   CCap [1%nat] 6 7;
   CMat [1%nat] 5 8;
   CVal [1%nat] "}";
   CMVal [1%nat] "'}'";
   CName [2%nat] "EscapePattern";
   CCap [2%nat] 10 10;
   CMat [2%nat] 9 11;
   CVal [2%nat] "";
   CMVal [2%nat] "''"] = true.
Proof. vm_compute. reflexivity. Qed.

(* src/script/v1/matchers/sequence_matcher.rs:64 *)
Example sequence_matcher_it_works2 :
  parse_check (ScriptSequenceMatcher at_env) "%'{' , '}',  '\\' "
  [CName [] "SequenceMatcher";
   CCap [] 2 16;
   CMat [] 0 17;
   CVal [] "{' , '}',  '\\";
   CMVal [] "%'{' , '}',  '\\'";
   CLen [] 3%nat;
   CName [0%nat] "StartPattern";
   CCap [0%nat] 2 3;
   CMat [0%nat] 1 4;
   CVal [0%nat] "{";
   CMVal [0%nat] "'{'";
   CName [1%nat] "EndPattern";
   CCap [1%nat] 8 9;
   CMat [1%nat] 7 10;
   CVal [1%nat] "}";
   CMVal [1%nat] "'}'";
   CName [2%nat] "EscapePattern";
   CCap [2%nat] 14 16;
   CMat [2%nat] 13 17;
   CVal [2%nat] "\";
   CMVal [2%nat] "'\\'"] = true.
Proof. vm_compute. reflexivity. Qed.

(* src/script/v1/matchers/sequence_matcher.rs:106 *)
Example sequence_matcher_it_fails1 :
  parse_with (ScriptSequenceMatcher at_env) "Testing" = Fails.
Proof. vm_compute. reflexivity. Qed.

(* src/script/v1/matchers/string.rs:19 *)
Example string_it_works1 :
  parse_check (ScriptString) "'A \'test\' string!' after string"
  [CName [] "String";
   CCap [] 1 19;
   CMat [] 0 20;
   CVal [] "A 'test' string!";
   CMVal [] "'A \'test\' string!'"] = true.
Proof. vm_compute. reflexivity. Qed.

(* src/script/v1/matchers/string.rs:37 *)
Example string_it_fails1 :
  parse_with (ScriptString) "Testing" = Fails.
Proof. vm_compute. reflexivity. Qed.

(* src/script/v1/matchers/switch_matcher.rs:43 *)
Example switch_matcher_it_works1 :
  parse_check (ScriptSwitchMatcher at_env) "[
	<='test'>|
	(</test/i>)]"
  [CName [] "SwitchMatcher";
   CCap [] 6 24;
   CMat [] 0 27;
   CVal [] "test'>|
	(</test/i";
   CMVal [] "[
	<='test'>|
	(</test/i>)]";
   CLen [] 2%nat;
   CName [0%nat] "PatternDefinition";
   CCap [0%nat] 6 10;
   CMat [0%nat] 3 12;
   CVal [0%nat] "test";
   CMVal [0%nat] "<='test'>";
   CName [1%nat] "PatternDefinitionCaptured";
   CCap [1%nat] 17 24;
   CMat [1%nat] 15 26;
   CVal [1%nat] "/test/i";
   CMVal [1%nat] "(</test/i>)"] = true.
Proof. vm_compute. reflexivity. Qed.

(* src/script/v1/matchers/switch_matcher.rs:82 *)
Example switch_matcher_it_fails1 :
  parse_with (ScriptSwitchMatcher at_env) "<test>" = Fails.
Proof. vm_compute. reflexivity. Qed.

(* src/script/v1/matchers/whitespace.rs:54 *)
Example whitespace_it_matches_against_zero_or_more :
  executed "" (MatchesN "Whitespace" re_ws0_) = Some (Ok (SSkip 0)).
Proof. vm_compute. reflexivity. Qed.

(* src/script/v1/matchers/whitespace.rs:70 *)
Example whitespace_it_matches_against_one_or_more :
  parse_check (MatchesN "Whitespace" re_ws0_) "  "
  [CName [] "Whitespace";
   CCap [] 0 2;
   CMat [] 0 2;
   CVal [] "  ";
   CMVal [] "  "] = true.
Proof. vm_compute. reflexivity. Qed.

(* src/script/v1/matchers/whitespace.rs:90 *)
Example whitespace_it_will_not_match_against_new_lines :
  parse_check (MatchesN "Whitespace" re_ws1_) (lit "  
 	" ++ ["013"%char] ++ lit "
")
  [CName [] "Whitespace";
   CCap [] 0 2;
   CMat [] 0 2;
   CVal [] "  ";
   CMVal [] "  "] = true.
Proof. vm_compute. reflexivity. Qed.

(* src/script/v1/matchers/whitespace.rs:110 *)
Example whitespace_it_will_match_against_newlines :
  executed (lit "" ++ ["013"%char] ++ lit "
" ++ ["013"%char] ++ lit "  
") (MDiscard (MatchesN "Whitespace" re_wsn1_)) = Some (Ok (SSkip 6)).
Proof. vm_compute. reflexivity. Qed.

(* src/script/v1/matchers/whitespace.rs:126 *)
Example whitespace_it_fails1 :
  executed "Testing" (MatchesN "Whitespace" re_ws0_) = Some (Ok (SSkip 0)).
Proof. vm_compute. reflexivity. Qed.

(* src/script/v1/matchers/whitespace.rs:142 *)
Example whitespace_it_fails2 :
  parse_with (MatchesN "Whitespace" re_ws1_) "Testing" = Fails.
Proof. vm_compute. reflexivity. Qed.
