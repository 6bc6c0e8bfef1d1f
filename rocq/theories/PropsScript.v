(* C40 to C44, C48, C49, C52, C53: scripts.  [repeat_means], [pattern_means],
   [def_means], [script_says], [token_says] (SpecScript.v); [writes], [assigned],
   [wraps] (SpecMore.v). *)
From Verif Require Import ScriptBuild Spec ScriptProofs FlowProofs SpecScript SpecMore Samples ConformMatchers ConformGrammar ConformScript.
Open Scope string_scope.
Open Scope list_scope.
Open Scope N_scope.

(* ---------------------------------------------------------------- C40 *)

Theorem C40_ranges : forall st a lo hi, repeat_range st a = COk (lo, hi) <-> repeat_means st a lo hi.
Proof. exact repeat_range_spec. Qed.
Print Assumptions C40_ranges.

Theorem C40_reversed_rejected : forall st a k k' sep n n',
  tk_name (tok st a) = "RepeatRange" -> first_kid st a ["Minimum"] k -> usize_text n (get_cvalue (tok st k)) ->
  first_kid st a ["Seperator"] sep -> first_kid st a ["Maximum"] k' -> usize_text n' (get_cvalue (tok st k')) ->
  n' < n -> exists e, repeat_range st a = CErr e.
Proof. exact repeat_rejects. Qed.
Print Assumptions C40_reversed_rejected.

(* from the text *)
Definition C40_read (s : str) : option (cres (N * N)) :=
  match snd (parse_in (ScriptRepeatSpecifier at_env) s) with
  | Ret (TOk a) st => Some (repeat_range st a)
  | _ => None
  end.
Example C40_example :
  map (fun s : string => C40_read s) ["*"; "+"; "{3}"; "{ 07 ,}"; "{2, 18446744073709551615}"; "{4,4}"]%string
  = [Some (COk (0, usize_max)); Some (COk (1, usize_max)); Some (COk (0, 3)); Some (COk (7, usize_max));
     Some (COk (2, usize_max)); Some (COk (4, 4))].
Proof. vm_compute. reflexivity. Qed.
Example C40_example_rejected :
  (exists e, C40_read "{3,2}" = Some (CErr e)) /\ (exists e, C40_read "{18446744073709551616}" = Some (CErr e)).
Proof. split; eexists; vm_compute; reflexivity. Qed.

(* ---------------------------------------------------------------- C41 *)

(* error tokens have no effect on what a script says *)
Theorem C41_errors_ignored : forall E F compile st sc from_file l,
  (forall a, In a l -> tk_name (tok st a) = "Error" -> get_attr "__message" (tok st a) <> None) ->
  forall w w',
  script_says E F compile st sc from_file l w w' <->
  script_says E F compile st sc from_file (filter (fun a => negb (str_eqb (tk_name (tok st a)) "Error")) l) w w'.
Proof. exact errors_ignored. Qed.
Print Assumptions C41_errors_ignored.

(* the parse reports an error, the compilation does not *)
Definition C41_text : str := "<!--[adextopa version='1'] A = <='a'> -->(<='a'>) ??? and so on".
Example C41_example :
  match snd (parse_in (Script_ at_env) C41_text) with
  | Ret (TOk a) st => map (fun k => (tk_name (tok st k), is_error (tok st k))) (tk_kids (tok st a))
                      = [(lit "AdextopaScope", false); (lit "Error", true)]
  | _ => False
  end /\
  match compile_str 100 sc_env C41_text "T" false empty_state with Ret (ScriptOk _ _) _ => True | _ => False end.
Proof. vm_compute. auto. Qed.

(* ---------------------------------------------------------------- C42 *)

(* a named capture takes the name of the token that holds the name ... *)
Theorem C42_token_name : forall E st a nt nk nr m, is_tree st a ->
  tk_name (tok st a) = "PatternDefinitionCaptured" -> first_kid st a ["MatcherName"] nt ->
  tk_kids (tok st nt) = nk :: nr ->
  (construct_pattern E st a = COk m <->
   exists x d r, tk_kids (tok st a) = x :: d :: r /\ def_means E st d (tk_name (tok st nk)) m).
Proof. exact named_capture. Qed.
Print Assumptions C42_token_name.

(* ... and that token is called "Name", whatever text it has *)
Theorem C42_always_name : forall E P c s st a st', c_debug c = 0 -> tame E ->
  Runs E P ScriptMatcherName c s st (Ok (SToken a)) st' ->
  exists k, tk_kids (tok st' a) = [k] /\ tk_name (tok st' k) = "Name".
Proof. exact matcher_name_child. Qed.
Print Assumptions C42_always_name.

Example C42_example :
  construct_from "(?'Alpha'<='x'>)" = Some (COk (EqualsN "Name" "x")) /\
  construct_from "(?'Beta'<='x'>)" = Some (COk (EqualsN "Name" "x")) /\
  construct_from "(<='x'>)" = Some (COk (Equals_ "x")).
Proof. vm_compute. auto. Qed.

(* ---------------------------------------------------------------- C43 *)

(* an assignment of an identifier refers to the text of the whole assignment *)
Theorem C43_alias : forall E F compile st sc from_file a i v r name pats s w',
  tk_name (tok st a) = "AssignmentExpression" -> tk_kids (tok st a) = i :: v :: r ->
  tk_name (tok st v) = "Identifier" ->
  (token_says E F compile st sc from_file a (name, pats, s) w' <->
   w' = (name, pats,
         sc_set s sc (get_value (tok st i)) (VMatcher (MRef (FStr (get_value (tok st a))) "Ref" false)))).
Proof. exact alias_only. Qed.
Print Assumptions C43_alias.

(* such a reference ends in an error, unless something has that text as its name *)
Theorem C43_unresolved : forall E P x n c s st, (forall m, sc_get st s x <> Some (VMatcher m)) ->
  exists e, Runs E P (MRef (FStr x) n false) c s st (Err (FError e)) st.
Proof. exact unresolved. Qed.
Print Assumptions C43_unresolved.

Definition C43_text : str := "<!--[adextopa version='1'] A = <='a'> B = A -->(<B>)".
Example C43_example :
  match compile_str 100 sc_env C43_text "T" false empty_state with
  | Ret (ScriptOk m sc) st =>
      sc_get st sc "B" = Some (VMatcher (Ref_ "B = A")) /\
      let P := parser_new "a" in
      let (c, st) := context_new P "Test" st in
      match tokenize 100 sc_env P c m st with
      | Ret (TErr (FError e)) _ => pe_msg e = lit "`Ref` matcher unable to locate target reference `B = A`"
      | _ => False
      end
  | _ => False
  end.
Proof. vm_compute. auto. Qed.

(* ---------------------------------------------------------------- C44 *)

(* after a definition was used, its name stands for the bare pattern *)
Theorem C44_loses_modifiers : forall E P core m c s st r st',
  let W := fun n v => n = m_name core -> v = VMatcher core in
  scope_tame E -> user_writes W E -> m_custom core = true -> writes W core -> scopes_write W st ->
  valid_scope st s -> wraps core m ->
  Runs E P m c s st r st' -> sc_get st' s (m_name core) = Some (VMatcher core).
Proof. exact first_use. Qed.
Print Assumptions C44_loses_modifiers.

Example C44_example_core :
  let core := EqualsN "W" "a" in
  let W := fun n v => n = m_name core -> v = VMatcher core in
  user_writes W at_env /\ m_custom core = true /\ writes W core /\
  wraps core (MMap core (MapAttrs [(lit "x", lit "1")])).
Proof.
  split; [|split; [reflexivity|split]].
  - intros st Hs. split; [|split; [|split]]; cbn; intros;
      match goal with H : Ret _ _ = Ret _ _ |- _ => injection H as _ <- end; split; auto; intros s0 n; now left.
  - constructor; [intros _ _; reflexivity|exact I|intros x []].
  - repeat constructor.
Qed.
Definition C44_text : str := "<!--[adextopa version='1'] W = <='a' x='1'> -->(<W>)(<W>)".
Example C44_example :
  match compile_str 100 sc_env C44_text "T" false empty_state with
  | Ret (ScriptOk m sc) st =>
      sc_get st sc "W" = Some (VMatcher (MMap (EqualsN "W" "a") (MapAttrs [(lit "x", lit "1")]))) /\
      let P := parser_new "aa" in
      let (c, st) := context_new P "Test" st in
      match tokenize 100 sc_env P c m st with
      | Ret (TOk a) st' =>
          map (fun k => (tk_name (tok st' k), tk_mr (tok st' k), get_attr "x" (tok st' k))) (tk_kids (tok st' a))
          = [(lit "W", mkR 0 1, Some (lit "1")); (lit "W", mkR 1 2, None)] /\
          sc_get st' sc "W" = Some (VMatcher (EqualsN "W" "a"))
      | _ => False
      end
  | _ => False
  end.
Proof. vm_compute. auto. Qed.

(* ---------------------------------------------------------------- C48 *)

(* the layers of a pattern, see [def_means] *)
Theorem C48_layers : forall E st a m, is_tree st a ->
  (construct_pattern E st a = COk m <-> pattern_means E st a m).
Proof. exact construct_spec. Qed.
Print Assumptions C48_layers.

Theorem C48_definition : forall E st a name captured m, is_tree st a ->
  (construct_definition E st a name captured = COk m <->
   exists m', def_means E st a name m' /\ m = if captured then m' else MDiscard m').
Proof. exact definition_spec. Qed.
Print Assumptions C48_definition.

Definition C48_loop (lo hi : N) (m : matcher) : matcher := MProgram [m] (mkPI "Loop" (Some (lo, hi)) false false).
(* every combination of the signs, with and without repetition and parentheses *)
Example C48_example :
  let x := Equals_ "x" in
  construct_from "<='x'>" = Some (COk (MDiscard x)) /\
  construct_from "?<='x'>" = Some (COk (MDiscard (MOptional x))) /\
  construct_from "!<='x'>" = Some (COk (MDiscard (MNot x))) /\
  construct_from "<?='x'>" = Some (COk (MDiscard (MOptional x))) /\
  construct_from "?<?='x'>" = Some (COk (MDiscard (MOptional (MOptional x)))) /\
  construct_from "!<?='x'>" = Some (COk (MDiscard (MNot (MOptional x)))) /\
  construct_from "<!='x'>" = Some (COk (MDiscard (MNot x))) /\
  construct_from "?<!='x'>" = Some (COk (MDiscard (MOptional (MNot x)))) /\
  construct_from "!<!='x'>" = Some (COk (MDiscard (MNot (MNot x)))) /\
  construct_from "!<?='x'>{2,3}" = Some (COk (MDiscard (MNot (C48_loop 2 3 (MOptional x))))) /\
  construct_from "(?<!='x'>{2,3})" = Some (COk (MOptional (C48_loop 2 3 (MNot x)))) /\
  construct_from "(!<?='x' k='v'>*)"
    = Some (COk (MNot (C48_loop 0 usize_max (MOptional (MMap x (MapAttrs [(lit "k", lit "v")])))))) /\
  construct_from "(?'N' !<?='x' k='v'>+)"
    = Some (COk (MNot (C48_loop 1 usize_max (MOptional (MMap (EqualsN "Name" "x") (MapAttrs [(lit "k", lit "v")])))))).
Proof. vm_compute. repeat split. Qed.

(* ---------------------------------------------------------------- C49 *)

(* a string literal with a character of several bytes before its closing quote *)
Theorem C49_string_panics : forall name E P c s st text y t,
  sliceable (p_src P) (c_off c) ->
  window (p_src P) (rs (c_off c)) (re (c_off c)) ("'"%char :: text) ->
  passes "'" "\" text (y :: t) -> continuation y ->
  Panics E P (ScriptStringN name) c s st PSlice.
Proof. exact string_panics. Qed.
Print Assumptions C49_string_panics.

Theorem C49_first_character : forall name E P c s st x y t,
  sliceable (p_src P) (c_off c) ->
  window (p_src P) (rs (c_off c)) (re (c_off c)) ("'"%char :: x :: y :: t) ->
  192 <= N_of_ascii x -> continuation y ->
  Panics E P (ScriptStringN name) c s st PSlice.
Proof. exact string_panics_first. Qed.
Print Assumptions C49_first_character.

Example C49_example :
  compile_str 100 sc_env "<='é'>" "T" false empty_state = Pan PSlice /\
  compile_str 100 sc_env "</(/>" "T" false empty_state = Pan PUnwrap /\
  exists m, compile_str 100 sc_env "<%'',']',''>" "T" false empty_state = Pan m.
Proof. split; [vm_compute; reflexivity|]. split; [vm_compute; reflexivity|]. eexists. vm_compute. reflexivity. Qed.

(* ---------------------------------------------------------------- C52 *)

Theorem C52_assignments : forall (W : str -> variable -> Prop) E P m c s st r st',
  scope_tame E -> user_writes W E -> writes W m -> scopes_write W st ->
  Runs E P m c s st r st' -> scopes_write W st' /\ assigned W st st'.
Proof. exact runs_assigned. Qed.
Print Assumptions C52_assignments.

(* [scope_tame at_env] is C21_example_tame.  Only "v" and the name of the
   program are assigned: *)
Definition C52_sample : matcher := ProgramN "P" [StoreM "v" (Equals_ "a"); MDiscard (Equals_ "b")].
Definition C52_may (n : str) (v : variable) : Prop :=
  (n = lit "v" /\ (exists a, v = VToken a)) \/ (n = lit "v" /\ v = VMatcher (StoreM "v" (Equals_ "a"))) \/
  (n = lit "P" /\ v = VMatcher C52_sample).
Example C52_example_writes : writes C52_may C52_sample /\ user_writes C52_may at_env.
Proof.
  split.
  - constructor; [intros _; right; right; split; reflexivity|exact I|].
    intros x [<-|[<-|[]]].
    + constructor; [intros _; right; left; split; reflexivity|intros a; left; split; eauto|].
      intros x [<-|[]]. constructor; [discriminate|exact I|intros x []].
    + constructor; [discriminate|exact I|]. intros x [<-|[]]. constructor; [discriminate|exact I|intros x []].
  - intros st Hs. split; [|split; [|split]]; cbn; intros;
      match goal with H : Ret _ _ = Ret _ _ |- _ => injection H as _ <- end; split; auto; intros s0 n; now left.
Qed.
Example C52_example :
  exists st, exec 6 at_env (at_src "ab") C52_sample (at_ctx 0 2) 0%nat (sc_set at_state 0%nat "w" (VString "old"))
    = Ret (Ok (SToken 0%nat)) st /\
  sc_get st 0%nat "w" = Some (VString "old") /\ sc_get st 0%nat "v" = Some (VToken 1%nat).
Proof. eexists. split; [vm_compute; reflexivity|]. split; vm_compute; reflexivity. Qed.

(* ---------------------------------------------------------------- C53 *)

Theorem C53_compiled : forall E F compile P name from_file st m sc st', tame E -> tidy E ->
  ((exists fuel, compile_with fuel E F compile P name from_file false st = Ret (ScriptOk m sc) st') <->
   exists root st1 l name' pats,
     Tokenizes E P (script_ctx P name st) (Script_ E) (script_start E P name st) (TOk root) st1 /\
     tk_name (tok st1 root) = "Script" /\ preorder st1 [root] l /\
     script_says E F compile st1 (next_sid st1) from_file l (name, [], sc_new st1) (name', pats, st') /\
     sc = next_sid st1 /\
     m = MProgram [MSetScope (Some sc) (MProxy (MProgram pats (mkPI "Program" None false false)) "Flatten" false)]
                  (mkPI name' None false true)).
Proof. exact compile_spec. Qed.
Print Assumptions C53_compiled.

Definition C53_text : str :=
"<!--[adextopa version='1' name='Words']
  A = !<='a'>
-->
# two patterns
(<A>) </\s+/>".
Example C53_example :
  match compile_str 100 sc_env C53_text "T" false empty_state with
  | Ret (ScriptOk m sc) st =>
      m = MProgram [MSetScope (Some sc) (Proxy_ (Program_ [Ref_ "A"; MDiscard (Matches_ (regex_of "\s+"))]))]
                   (mkPI "Words" None false true) /\
      sc_get st sc "A" = Some (VMatcher (MNot (EqualsN "A" "a")))
  | _ => False
  end.
Proof. vm_compute. auto. Qed.
