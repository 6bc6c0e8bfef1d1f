(* The unit tests of /repo/src (outside src/script) replayed on the model: for
   every test the expectations it states, evaluated.  The regular expressions of
   the tests are given in the notation of ReEngine.v. *)
From Verif Require Import Samples.
Open Scope string_scope.
Open Scope list_scope.
Open Scope N_scope.

(* a token and what is below it: name, captured range, matched range, value,
   matched value, attributes, children *)
Inductive view :=
| V (name : str) (cr mr : N * N) (value mvalue : str) (attrs : list (str * str)) (kids : list view).
Fixpoint view_of (fuel : nat) (st : state) (a : addr) : view :=
  let t := tok st a in
  V (tk_name t) (rs (tk_cr t), re (tk_cr t)) (rs (tk_mr t), re (tk_mr t)) (get_value t) (get_mvalue t)
    (filter (fun p => negb (str_eqb (fst p) "__value")) (tk_attrs t))
    (match fuel with O => [] | S f => map (view_of f st) (tk_kids t) end).

(* outcomes of ParserContext::tokenize and of Matcher::exec *)
Inductive seen := Tok (v : view) | Fails | Fatal (msg : str) (r : option (N * N)) | Other.
Definition fatal (e : parse_error) : seen :=
  Fatal (pe_msg e) (match pe_range e with Some r => Some (rs r, re r) | None => None end).
Definition tokenized_with (E : env) (src : str) (m : matcher) : seen :=
  let P := parser_new src in
  match tokenize 100 E P (init_ctx P "Test") m init_state with
  | Ret (TOk a) st => Tok (view_of 20 st a)
  | Ret (TErr FFail) _ => Fails
  | Ret (TErr (FError e)) _ => fatal e
  | _ => Other
  end.
Definition tokenized := tokenized_with at_env.
Definition executed (src : str) (m : matcher) : option mres :=
  let P := parser_new src in
  match exec 100 at_env P m (init_ctx P "Test") 0%nat init_state with
  | Ret r _ => Some r
  | _ => None
  end.
(* a token whose value is its text and that has no children *)
Definition leaf (name : str) (a b : N) (v : str) : view := V name (a, b) (a, b) v v [] [].

Definition words : finder := re_find [plus (cword at_env)].
Definition digits : finder := re_find [plus (cdigit at_env)].
Definition spaces : finder := re_find [plus (cspace at_env)].
Definition one_word : finder := re_find [[One (cword at_env)]].
Definition one_space : finder := re_find [[One (cspace at_env)]].
Definition src1 : str := "Testing 1234".

(* src/token_visitor.rs:87-144 *)
Example visitor_works :
  let P := parser_new "Testing 1234 one two three" in
  let m := Program_ [Program_ [Equals_ "Testing"; Equals_ " "; Matches_ digits];
                     Loop_ [Matches_ one_space; Matches_ words]] in
  match tokenize 100 at_env P (init_ctx P "Test") m init_state with
  | Ret (TOk a) st =>
      visit st [(lit "Equals", fun a w => VOk (w ++ [lit "Equals = " ++ get_value (tok st a)]));
                (lit "*", fun a w => VOk (w ++ [tk_name (tok st a) ++ lit ": " ++ get_value (tok st a)]))] a []
      = VOk [lit "Program: Testing 1234 one two three"; lit "Program: Testing 1234"; lit "Equals = Testing";
             lit "Equals =  "; lit "Matches: 1234"; lit "Loop:  one two three"; lit "Matches:  ";
             lit "Matches: one"; lit "Matches:  "; lit "Matches: two"; lit "Matches:  "; lit "Matches: three"]
  | _ => False
  end.
Proof. vm_compute. reflexivity. Qed.

(* src/source_range.rs:124-129 *)
Example source_range_slice : range_text (parser_new "Hello world!") (mkR 0 5) = lit "Hello".
Proof. reflexivity. Qed.

(* src/scope_context.rs:62-99 *)
Example scope_context_works :
  let st := sc_set (sc_push (sc_set (sc_push init_state 0%nat) 0%nat "Test" (VString "Hello World")) 0%nat)
                   0%nat "Test" (VString "Hello World 2") in
  sc_get st 0%nat "Test" = Some (VString "Hello World 2")
  /\ sc_get (sc_pop st 0%nat) 0%nat "Test" = Some (VString "Hello World").
Proof. split; reflexivity. Qed.

(* src/parser_context.rs:390-466 *)
Definition lines_src : str := lit "Test 1" ++ ["010"%char] ++ lit "Test 2" ++ ["013"%char; "010"%char] ++ lit "Test 3" ++ ["013"%char] ++ lit "Test 4".
Example lines :
  map (fun p => get_lines (parser_new lines_src) (mkR (fst p) (snd p))) [(4, 6); (8, 9); (14, 15); (23, 24)]
  = map (fun p => Val p) [(1, 1); (2, 2); (3, 3); (4, 4)].
Proof. vm_compute. reflexivity. Qed.
Example columns :
  map (fun p => get_columns at_env (parser_new lines_src) (mkR (fst p) (snd p))) [(0, 2); (8, 9); (13, 15)]
  = map (fun p => Val p) [(1, 3); (2, 3); (7, 7)].
Proof. vm_compute. reflexivity. Qed.
Example lines_and_columns :
  map (fun p => (get_lines (parser_new lines_src) (mkR (fst p) (snd p)), get_columns at_env (parser_new lines_src) (mkR (fst p) (snd p))))
      [(0, 2); (8, 9); (15, 17); (0, 19)]
  = map (fun p => (Val (fst p), Val (snd p))) [((1, 1), (1, 3)); ((2, 2), (2, 3)); ((3, 3), (1, 3)); ((1, 3), (1, 5))].
Proof. vm_compute. reflexivity. Qed.

(* src/matchers/break.rs *)
Example break_works : executed src1 (MBreak "Test") = Some (Ok (SBreak "Test" SNone)).
Proof. vm_compute. reflexivity. Qed.

(* src/matchers/catch.rs *)
Definition catch_env : env :=
  mkEnv true (e_map_ok at_env) (e_map_err at_env)
        (fun _ _ c st => Ret (Err (FError (mkPE "There was a big fat error!" (Some (c_off c))))) st)
        (e_user at_env) (e_word at_env) (e_space at_env) (e_digit at_env) (e_regex at_env).
Example catch_success : tokenized_with catch_env src1 (MCatch (Equals_ "Testing") 0) = Tok (leaf "Equals" 0 7 "Testing").
Proof. vm_compute. reflexivity. Qed.
Example catch_failure : tokenized_with catch_env src1 (MCatch (Equals_ "Derp") 0) = Fatal "There was a big fat error!" (Some (0, 12)).
Proof. vm_compute. reflexivity. Qed.
(* the failure that the closure gets to see *)
Example catch_error : tokenized src1 (MCatch (MPanic "Holy malarky! I failed!") 0)
  = Fatal "Error: @[1:1]: Holy malarky! I failed!" (Some (0, 0)).
Proof. vm_compute. reflexivity. Qed.

(* src/matchers/debug.rs *)
Example debug_works : tokenized src1 (Debug_ (Equals_ "Testing")) = Tok (leaf "Equals" 0 7 "Testing").
Proof. vm_compute. reflexivity. Qed.

(* src/matchers/discard.rs *)
Example discard_skips : executed src1 (MDiscard (Equals_ "Testing")) = Some (Ok (SSkip 7)).
Proof. vm_compute. reflexivity. Qed.
Example discard_errors : tokenized src1 (MDiscard (Program_ [Equals_ "Testing"; MErrorP "This is an error"]))
  = Tok (V "Error" (0, 7) (0, 7) "Testing" "Testing" []
           [V "Error" (0, 7) (0, 7) "Testing" "Testing" [(lit "__message", lit "Error: @[1:8]: This is an error")] []]).
Proof. vm_compute. reflexivity. Qed.
Example discard_fails : tokenized src1 (MDiscard (Equals_ "testing")) = Fails.
Proof. vm_compute. reflexivity. Qed.

(* src/matchers/equals.rs *)
Example equals_works : tokenized src1 (Equals_ "Testing") = Tok (leaf "Equals" 0 7 "Testing").
Proof. vm_compute. reflexivity. Qed.
Example equals_fails : tokenized src1 (Equals_ "testing") = Fails.
Proof. vm_compute. reflexivity. Qed.

(* src/matchers/error.rs *)
Example error_works :
  tokenized src1 (Program_ [Matches_ words; MErrorP "There was an error!"; MDiscard (Matches_ spaces); Matches_ digits])
  = Tok (V "Program" (0, 12) (0, 12) src1 src1 []
          [leaf "Matches" 0 7 "Testing";
           V "Error" (0, 7) (0, 7) "Testing" "Testing" [(lit "__message", lit "Error: @[1:8]: There was an error!")] [];
           leaf "Matches" 8 12 "1234"]).
Proof. vm_compute. reflexivity. Qed.

(* src/matchers/expand_range.rs *)
Example expand_works : tokenized "'Testing' 1234" (MExpand (Sequence_ "'" "'" "\"))
  = Tok (V "ExpandRange" (0, 9) (0, 9) "'Testing'" "'Testing'" []
          [V "Sequence" (1, 8) (0, 9) "Testing" "'Testing'" [] []]).
Proof. vm_compute. reflexivity. Qed.
Example expand_fails : tokenized src1 (MExpand (MPanic "Holy malarky! I failed!"))
  = Fatal "Error: @[1:1]: Holy malarky! I failed!" (Some (0, 0)).
Proof. vm_compute. reflexivity. Qed.

(* src/matchers/fetch.rs *)
Example fetch_works1 : tokenized src1 (Switch_ [StoreS "test" "Testing"; EqualsF "test"]) = Tok (leaf "Equals" 0 7 "Testing").
Proof. vm_compute. reflexivity. Qed.
Example fetch_works2 :
  tokenized "Testing Testing" (Program_ [StoreM "test" (Matches_ words); MDiscard (Matches_ spaces); EqualsF "test.captured_value"])
  = Tok (V "Program" (0, 15) (0, 15) "Testing Testing" "Testing Testing" []
          [leaf "Matches" 0 7 "Testing"; leaf "Equals" 8 15 "Testing"]).
Proof. vm_compute. reflexivity. Qed.

(* src/matchers/map.rs *)
Definition map_env (src : str) : env :=
  let P := parser_new src in
  mkEnv true
    (fun k a c s st =>
       if k =? 0 then
         Ret (Ok (SToken a)) (modify st a (fun t => set_attr "was_mapped" "true"
            (set_cr P (mkR (rs (tk_cr t) + 1) (re (tk_cr t) - 1)) (set_tname "WOW" t))))
       else error_token_at at_env P "There was a big fat error!" (tk_mr (tok st a)) st)
    (e_map_err at_env) (e_catch at_env) (e_user at_env) (e_word at_env) (e_space at_env) (e_digit at_env) (e_regex at_env).
Example map_mutates : tokenized_with (map_env src1) src1 (MMap (Equals_ "Testing") (MapUser 0))
  = Tok (V "WOW" (1, 6) (0, 7) "estin" "Testing" [(lit "was_mapped", lit "true")] []).
Proof. vm_compute. reflexivity. Qed.
Example map_error : tokenized_with (map_env src1) src1 (MMap (Equals_ "Testing") (MapUser 1))
  = Tok (V "Error" (0, 7) (0, 7) "Testing" "Testing" [(lit "__message", lit "Error: @[1:1-8]: There was a big fat error!")] []).
Proof. vm_compute. reflexivity. Qed.
Example map_fails : tokenized_with (map_env src1) src1 (MMap (Equals_ "testing") (MapUser 0)) = Fails.
Proof. vm_compute. reflexivity. Qed.

(* src/matchers/matches.rs *)
Example matches_works : tokenized src1 (Matches_ words) = Tok (leaf "Matches" 0 7 "Testing").
Proof. vm_compute. reflexivity. Qed.
Example matches_offset :
  let P := parser_new src1 in
  match tokenize 100 at_env P (with_start (init_ctx P "Test") 8) (Matches_ (re_find [plus (fun x => negb (x =? 10))])) init_state with
  | Ret (TOk a) st => view_of 5 st a = leaf "Matches" 8 12 "1234"
  | _ => False
  end.
Proof. vm_compute. reflexivity. Qed.
Example matches_fails : tokenized src1 (Matches_ digits) = Fails.
Proof. vm_compute. reflexivity. Qed.

(* src/matchers/not.rs *)
Example not_fails : tokenized src1 (MNot (Equals_ "Testing")) = Fails.
Proof. vm_compute. reflexivity. Qed.
Example not_works : executed src1 (MNot (Equals_ "testing")) = Some (Ok (SSkip 0)).
Proof. vm_compute. reflexivity. Qed.

(* src/matchers/null.rs *)
Example null_works : executed src1 MNull = Some (Ok (SSkip 0)).
Proof. vm_compute. reflexivity. Qed.

(* src/matchers/optional.rs *)
Example optional_works : tokenized src1 (MOptional (Equals_ "Testing")) = Tok (leaf "Equals" 0 7 "Testing").
Proof. vm_compute. reflexivity. Qed.
Example optional_skips : executed src1 (MOptional (Equals_ "testing")) = Some (Ok (SSkip 0)).
Proof. vm_compute. reflexivity. Qed.

(* src/matchers/panic.rs *)
Example panic_works :
  tokenized src1 (Program_ [Matches_ words; MPanic "There was an error!"; MDiscard (Matches_ spaces); Matches_ digits])
  = Fatal "Error: @[1:1-8]: There was an error!" (Some (0, 7)).
Proof. vm_compute. reflexivity. Qed.

(* src/matchers/pin.rs *)
Example pin_offset : tokenized src1 (PinNOM "Pin" (FStr "8") (Equals_ "1234")) = Tok (leaf "Equals" 8 12 "1234").
Proof. vm_compute. reflexivity. Qed.
Example pin_stored :
  tokenized src1 (Program_ [StoreM "stored_offset" Pin_; Equals_ "Testing";
                            PinNOM "Pin" (FFetch "stored_offset.range") (Equals_ "Testing");
                            MDiscard (Matches_ spaces); Matches_ digits])
  = Tok (V "Program" (0, 12) (0, 12) src1 src1 []
          [leaf "Equals" 0 7 "Testing"; leaf "Equals" 0 7 "Testing"; leaf "Matches" 8 12 "1234"]).
Proof. vm_compute. reflexivity. Qed.
Example pin_relative1 : tokenized src1 (PinNOM "Pin" (FStr "+8") (Equals_ "1234")) = Tok (leaf "Equals" 8 12 "1234").
Proof. vm_compute. reflexivity. Qed.
Example pin_relative2 :
  tokenized src1 (Program_ [Equals_ "Testing"; PinNOM "Pin" (FStr "-7") (Equals_ "Testing")])
  = Tok (V "Program" (0, 7) (0, 7) "Testing" "Testing" [] [leaf "Equals" 0 7 "Testing"; leaf "Equals" 0 7 "Testing"]).
Proof. vm_compute. reflexivity. Qed.
Example pin_tight : tokenized src1 (PinNOM "Pin" (FStr "0..4") (Equals_ "Testing")) = Fails.
Proof. vm_compute. reflexivity. Qed.

(* src/matchers/program.rs *)
Example program_works :
  tokenized src1 (Program_ [Equals_ "Testing"; Equals_ " "; Matches_ digits])
  = Tok (V "Program" (0, 12) (0, 12) src1 src1 [] [leaf "Equals" 0 7 "Testing"; leaf "Equals" 7 8 " "; leaf "Matches" 8 12 "1234"]).
Proof. vm_compute. reflexivity. Qed.
Example program_fails : tokenized src1 (Program_ [Equals_ "Testing"; Matches_ digits]) = Fails.
Proof. vm_compute. reflexivity. Qed.
Example switch_works : tokenized src1 (Switch_ [Equals_ " "; Matches_ digits; Equals_ "Testing"]) = Tok (leaf "Equals" 0 7 "Testing").
Proof. vm_compute. reflexivity. Qed.
Definition letters : str := "A B C D E F ".
Definition pair_at (i : N) (x : str) : list view := [leaf "Matches" i (i + 1) x; leaf "Equals" (i + 1) (i + 2) " "].
Example loop_works :
  tokenized letters (Loop_ [Matches_ one_word; Equals_ " "])
  = Tok (V "Loop" (0, 12) (0, 12) letters letters []
          (pair_at 0 "A" ++ pair_at 2 "B" ++ pair_at 4 "C" ++ pair_at 6 "D" ++ pair_at 8 "E" ++ pair_at 10 "F")).
Proof. vm_compute. reflexivity. Qed.
Definition prog_at (i : N) (x : str) : view :=
  V "Program" (i, i + 2) (i, i + 2) (x ++ lit " ") (x ++ lit " ") [] (pair_at i x).
Example loop_program :
  tokenized letters (Loop_ [Program_ [Matches_ one_word; Equals_ " "]])
  = Tok (V "Loop" (0, 12) (0, 12) letters letters []
          [prog_at 0 "A"; prog_at 2 "B"; prog_at 4 "C"; prog_at 6 "D"; prog_at 8 "E"; prog_at 10 "F"]).
Proof. vm_compute. reflexivity. Qed.
Example loop_break :
  tokenized "A B C break D E F "
    (LoopRN (Included 0) (Excluded 10) "Loop"
       [MOptional (Program_ [Equals_ "break"; MBreak ""]); Program_ [Matches_ one_word; Equals_ " "]])
  = Tok (V "Loop" (0, 11) (0, 11) "A B C break" "A B C break" []
          [prog_at 0 "A"; prog_at 2 "B"; prog_at 4 "C";
           V "Program" (6, 11) (6, 11) "break" "break" [] [leaf "Equals" 6 11 "break"]]).
Proof. vm_compute. reflexivity. Qed.

(* src/matchers/proxy_children.rs *)
Example proxy_works :
  tokenized src1 (LoopN "Loop" [Proxy_ (Loop_ [Switch_ [MatchesN "Whitespace" spaces;
    MatchesN "Word" (re_find [One (fun x => rng "a" "z" x || rng "A" "Z" x || ch "_" x) :: plus (cword at_env)]);
    MatchesN "Number" digits]])])
  = Tok (V "Loop" (0, 12) (0, 12) src1 src1 [] [leaf "Word" 0 7 "Testing"; leaf "Whitespace" 7 8 " "; leaf "Number" 8 12 "1234"]).
Proof. vm_compute. reflexivity. Qed.

(* src/matchers/ref.rs, register.rs *)
Definition hello : view :=
  V "Program" (0, 11) (0, 11) "Hello World" "Hello World" [] [leaf "Word" 0 5 "Hello"; leaf "Matches" 5 6 " "; leaf "Word" 6 11 "World"].
Example ref_works : tokenized "Hello World" (Program_ [MatchesN "Word" words; Matches_ spaces; Ref_ "Word"]) = Tok hello.
Proof. vm_compute. reflexivity. Qed.
Example register_works :
  tokenized "Hello World" (Program_ [MRegister [MatchesN "Word" words]; Ref_ "Word"; Matches_ spaces; Ref_ "Word"]) = Tok hello.
Proof. vm_compute. reflexivity. Qed.

(* src/matchers/sequence.rs *)
Example sequence_works :
  tokenized """This is a \""cool\\beans\"" string!"" stuff after string" (Sequence_ """" """" "\")
  = Tok (V "Sequence" (1, 34) (0, 35) "This is a ""cool\beans"" string!" """This is a \""cool\\beans\"" string!""" [] []).
Proof. vm_compute. reflexivity. Qed.
Example sequence_fails : tokenized """Testing 1234" (Sequence_ """" """" "\") = Fails.
Proof. vm_compute. reflexivity. Qed.

(* src/matchers/set_scope.rs *)
Example set_scope_works :
  let P := parser_new src1 in
  match tokenize 100 at_env P (init_ctx P "Test") (MSetScope (Some 1%nat) (StoreM "StoredValue" (Equals_ "Testing"))) (sc_new init_state) with
  | Ret (TOk a) st =>
      view_of 5 st a = leaf "Equals" 0 7 "Testing" /\ sc_get st 1%nat "StoredValue" = Some (VToken a)
      /\ sc_get st 0%nat "StoredValue" = None
  | _ => False
  end.
Proof. vm_compute. auto. Qed.

(* src/matchers/store.rs *)
Example store_works1 :
  let P := parser_new src1 in
  match tokenize 100 at_env P (init_ctx P "Test") (StoreM "test" (Equals_ "Testing")) init_state with
  | Ret (TOk a) st => view_of 5 st a = leaf "Equals" 0 7 "Testing" /\ sc_get st 0%nat "test" = Some (VToken a)
  | _ => False
  end.
Proof. vm_compute. auto. Qed.
Example store_works2 :
  let P := parser_new src1 in
  match tokenize 100 at_env P (init_ctx P "Test") (Switch_ [StoreS "test" "This is a test!"; Equals_ "Testing"]) init_state with
  | Ret (TOk a) st => view_of 5 st a = leaf "Equals" 0 7 "Testing" /\ sc_get st 0%nat "test" = Some (VString "This is a test!")
  | _ => False
  end.
Proof. vm_compute. auto. Qed.
