(* What compiling scripts prints when asked to (FLAG_LOG_STDERR). *)
From Verif Require Export ScriptBuild.
Open Scope string_scope.
Open Scope list_scope.
Open Scope N_scope.

(* src/script/v1/parser.rs:463-476: the messages of the children of the root that
   are named "Error" (unwrap at 472) *)
Fixpoint log_tokens (st : state) (l : list addr) : may (list str) :=
  match l with
  | [] => Val []
  | k :: l' =>
      if str_eqb (tk_name (tok st k)) "Error" then
        let? m := or_die PUnwrap (get_attr "__message" (tok st k)) in
        let? ms := log_tokens st l' in Val (m :: ms)
      else log_tokens st l'
  end.

(* src/script/v1/parser.rs:477-486 *)
Definition log_errors (l : list parse_error) : list str := map pe_msg l.

(* The hooks of build_matcher_from_tokens (src/script/v1/parser.rs:286-434) beside
   a growing log; only compiling an imported file (365-380) adds to it. *)
Definition quiet (h : hook bst) : hook (bst * list str) := fun a w =>
  match h a (fst w) with
  | VOk x => VOk (x, snd w)
  | VErr x e => VErr (x, snd w) e
  | VPan p => VPan p
  | VFuel => VFuel
  end.
Definition hook_import_printing (F : fs) (compile : str -> state -> res (script_res * list str)) (st : state)
  (sc : sid) (from_file : option str) : hook (bst * list str) := fun a w =>
  let printed :=
    match from_file, find_child st (tok st a) "ImportIdentifiers", find_child st (tok st a) "Path" with
    | Some ff, Some _, Some p =>
        match fs_join F ff (get_value (tok st p)) with
        | Some file => match compile file (b_store (fst w)) with Ret (_, lines) _ => lines | _ => [] end
        | None => []
        end
    | _, _, _ => []
    end in
  quiet (hook_import F (fun file s => do x, s <- compile file s; Ret (fst x) s) st sc from_file) a
        (fst w, snd w ++ printed).

(* src/script/v1/parser.rs:263-456 and what is printed during it *)
Definition build_printing (E : env) (P : parser) (F : fs) (compile : str -> state -> res (script_res * list str))
  (root : addr) (name : str) (from_file : option str) (st : state) : res (script_res * list str) :=
  if negb (str_eqb (tk_name (tok st root)) "Script")
  then Ret (ScriptErr [mkPE "Expected provided token to be a `Script` token" None], []) st
  else
    let sc := next_sid st in
    let hooks := [
      (lit "Error", quiet (hook_error st));
      (lit "AdextopaScope", quiet (hook_scope st));
      (lit "AssignmentExpression", quiet (hook_assign E st sc));
      (lit "ImportStatement", hook_import_printing F compile st sc from_file);
      (lit "PatternScope", quiet (hook_patterns E st))] in
    match visit st hooks root (mkBst name [] [] (sc_new st), []) with
    | VOk (w, l) => Ret (ScriptOk (root_matcher (b_name w) sc (b_pats w)) sc, l) (b_store w)
    | VErr (w, l) e =>
        match pe_msg e with
        | [] => Ret (ScriptErr (b_errs w), l) (b_store w)
        | msg =>
            let r := match pe_range e with Some r => r | None => blank_range end in
            let! text := error_string E P msg r in
            Ret (ScriptErr (b_errs w ++ [mkPE text (Some r)]), l) (b_store w)
        end
    | VPan p => Pan p
    | VFuel => OOF
    end.

(* src/script/v1/parser.rs:489-551, compile_script with FLAG_LOG_STDERR, and all
   lines printed.  Lines printed before a panic are not kept. *)
Definition compile_printing (fuel : nat) (E : env) (F : fs) (compile : str -> state -> res (script_res * list str))
  (P : parser) (name : str) (from_file : option str) (st : state) : res (script_res * list str) :=
  let (c, st) := context_new P name st in
  let st := register_all st c [ScriptSwitchMatcher E; ScriptProgramMatcher E] in
  do r, st <- tokenize fuel E P c (Script_ E) st;
  match r with
  | TOk a =>
      do x, st' <- build_printing E P F compile a name from_file st;
      let (b, lines) := x in
      match b with
      | ScriptOk _ _ => let! own := log_tokens st (tk_kids (tok st a)) in Ret (b, lines ++ own) st'
      | ScriptErr l => Ret (b, lines ++ log_errors l) st'
      end
  | TErr FFail =>
      let l := [mkPE "Failed to parse script with an unknown error. This is likely a bug. Please report this issue to the adextopa maintainers." None] in
      Ret (ScriptErr l, log_errors l) st
  | TErr (FError e) => Ret (ScriptErr [e], log_errors [e]) st
  end.

(* src/script/v1/parser.rs:565-588 *)
Fixpoint compile_file_printing (depth : nat) (fuel : nat) (E : env) (F : fs) (file : str) (st : state)
  : res (script_res * list str) :=
  match depth with
  | O => OOF
  | S d =>
      match fs_canon F file with
      | None => Pan PUnwrap
      | Some full =>
          match fs_read F full with
          | None => Pan PUnwrap
          | Some src =>
              compile_printing fuel E F (compile_file_printing d fuel E F) (parser_named src full) file
                               (Some full) st
          end
      end
  end.
