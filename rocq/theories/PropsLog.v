(* C76: what compiling prints.  [compile_printing], [compile_file_printing]
   (LogOps.v) are compile_script with FLAG_LOG_STDERR and the lines it prints;
   [script_ctx], [script_start] (SpecScript.v) are the start of the parse. *)
From Verif Require Import LogProofs Samples SampleScripts SampleReads SampleGuard.
From Verif Require Import SpecScript SpecSyntax.
Open Scope string_scope.
Open Scope list_scope.
Open Scope N_scope.

(* ---------------------------------------------------------------- C76 *)

(* Asking for a log changes no result, no state and no panic. *)
Theorem C76_flag : forall fuel E F compile P name from_file st,
  compile_with fuel E F compile P name from_file true st = compile_with fuel E F compile P name from_file false st.
Proof. exact flag_with. Qed.
Print Assumptions C76_flag.

Theorem C76_flag_file : forall depth fuel E F file st,
  compile_file depth fuel E F true file st = compile_file depth fuel E F false file st.
Proof. exact flag_file. Qed.
Print Assumptions C76_flag_file.

Theorem C76_flag_text : forall fuel E src name st,
  compile_str fuel E src name true st = compile_str fuel E src name false st.
Proof. exact flag_str. Qed.
Print Assumptions C76_flag_text.

(* The compiler that keeps what it prints is the compiler. *)
Theorem C76_printing : forall depth fuel E F file st log,
  compile_file depth fuel E F log file st =
  match compile_file_printing depth fuel E F file st with
  | Ret (b, _) st' => Ret b st'
  | Pan p => Pan p
  | OOF => OOF
  end.
Proof. exact file_printing. Qed.
Print Assumptions C76_printing.

(* First comes what the compilations of imported files print.  Then come the
   messages of all errors returned, or, after a success, the messages of the
   error tokens directly below the root of the parse. *)
Theorem C76_lines : forall fuel E F compile P name from_file st b lines st',
  compile_printing fuel E F compile P name from_file st = Ret (b, lines) st' ->
  exists before own, lines = before ++ own /\
  (exists ls, before = List.concat ls /\ Forall (fun l => exists file s b s', compile file s = Ret (b, l) s') ls) /\
  match b with
  | ScriptErr l => own = map pe_msg l
  | ScriptOk _ _ => exists root st1,
      Tokenizes E P (script_ctx P name st) (Script_ E) (script_start E P name st) (TOk root) st1 /\
      Forall2 (fun k m => get_attr "__message" (tok st1 k) = Some m)
              (filter (fun k => str_eqb (tk_name (tok st1 k)) "Error") (tk_kids (tok st1 root))) own
  end.
Proof. exact own_lines. Qed.
Print Assumptions C76_lines.

(* Scripts that are written well print nothing, alone and in projects. *)
Theorem C76_silent : forall E P F compile name from_file d st, tame E -> tidy E -> scope_tame E ->
  ascii_only (p_src P) -> slen (p_src P) < isize_bound -> script_text E d (p_src P) ->
  (forall ns path, ~ In (Import ns path) (s_statements d)) -> script_fault d = None ->
  exists fuel st', compile_printing fuel E F compile P name from_file st =
    Ret (ScriptOk (compiled_script name (S (next_sid st)) d) (S (next_sid st)), []) st'.
Proof. exact silent_alone. Qed.
Print Assumptions C76_silent.

Theorem C76_silent_project : forall E F file d, tame E -> tidy E -> sound E F file d -> forall st, exists n m sc st',
  (forall depth fuel, (n <= depth)%nat -> (n <= fuel)%nat ->
     compile_file_printing depth fuel E F file st = Ret (ScriptOk m sc, []) st') /\
  compiled E F st' (next_sid st) (next_sid st') file d m sc /\ grown st st'.
Proof. exact silent_project. Qed.
Print Assumptions C76_silent_project.

(* Success does not mean that nothing is wrong: of these errors the caller
   learns nothing, they are only printed. *)
Theorem C76_success_is_silent_refuted : exists E F file depth fuel st m sc st' line,
  compile_file_printing depth fuel E F file st = Ret (ScriptOk m sc, [line]) st'.
Proof. exact success_hides. Qed.
Print Assumptions C76_success_is_silent_refuted.

Definition printed (r : res (script_res * list str)) : option (bool * list str) :=
  match r with
  | Ret (ScriptOk _ _, l) _ => Some (true, l)
  | Ret (ScriptErr _, l) _ => Some (false, l)
  | _ => None
  end.
Definition no_files : fs := mkFs (fun _ _ => None) (fun _ => None) (fun _ => None).
Example C76_example_oops : printed (compile_printing 100 at_env no_files (fun _ _ => OOF)
    (parser_new (a_head "version" "1" ++ sevens)) "T" None empty_state) =
  Some (true, [lit "Error: @[1:45]: Syntax error. Expected a pattern defintion, but instead found: oops <='7'>"]).
Proof. vm_compute. reflexivity. Qed.
Example C76_example_no_version : printed (compile_printing 100 at_env no_files (fun _ _ => OOF)
    (parser_new (a_head "name" "N" ++ lit "<='7'>")) "T" None empty_state) =
  Some (true, [lit "Error: @[1:1-42]: Adextopa scope must have a 'version' attribute"]).
Proof. vm_compute. reflexivity. Qed.
Example C76_example_refused : printed (compile_printing 100 at_env no_files (fun _ _ => OOF)
    (parser_new sevens) "T" None empty_state) =
  Some (false, [lit "Expected provided token to be a `Script` token"]).
Proof. vm_compute. reflexivity. Qed.
(* an error of an imported file is printed again by the file that imports it *)
Example C76_example_twice : printed (compile_file_printing 3 100 at_env three_files "/p/main" empty_state) =
  Some (false, [lit "Error: /p/lib@[1:44-49]: Failed to import `Other` from '/p/base': Not found";
                lit "Error: /p/lib@[1:44-49]: Failed to import `Other` from '/p/base': Not found"]).
Proof. vm_compute. reflexivity. Qed.
(* the project of C61_example_sound *)
Example C76_example_silent : printed (compile_file_printing 2 100 at_env two_files "/p/main" empty_state) = Some (true, []).
Proof. vm_compute. reflexivity. Qed.
