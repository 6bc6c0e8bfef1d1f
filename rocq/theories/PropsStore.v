(* Properties of executions in a store with other contents, and of scripts that
   import each other. *)
From Verif Require Import ScriptBuild Macros Spec SpecScript SpecMore Samples ImportProofs.
Open Scope string_scope.
Open Scope list_scope.
Open Scope N_scope.

(* ---------- C54: what exists already does not matter ---------- *)

(* A grammar does behind older tokens and scope contexts exactly what it does
   without them: it finishes, panics or runs forever alike, and result, tokens
   and scopes are the same but for their places. *)
Theorem C54_same_elsewhere H0 S0 U E E' P m c c' s st o :
  movable H0 S0 U E E' -> e_checks E' = e_checks E ->
  calls_only U m -> moved_ctx H0 S0 c c' -> scopes_call_only U st ->
  Does E P m c s st o ->
  Does E' P (moved_matcher S0 m) c' (moved_sid S0 s) (moved_state H0 S0 st) (moved_outcome H0 S0 o).
Proof. exact (moved_does H0 S0 U E E' P m c c' s st o). Qed.
Print Assumptions C54_same_elsewhere.

(* and nothing else *)
Theorem C54_nothing_else H0 S0 U E E' P m c c' s st o' :
  movable H0 S0 U E E' -> e_checks E' = e_checks E ->
  calls_only U m -> moved_ctx H0 S0 c c' -> scopes_call_only U st ->
  Does E' P (moved_matcher S0 m) c' (moved_sid S0 s) (moved_state H0 S0 st) o' ->
  exists o, Does E P m c s st o /\ o' = moved_outcome H0 S0 o.
Proof. exact (does_moved H0 S0 U E E' P m c c' s st o'). Qed.
Print Assumptions C54_nothing_else.

(* Grammars without user code need no assumption about it. *)
Theorem C54_no_user_code H0 S0 E : movable H0 S0 (fun _ => False) E E.
Proof. exact (nothing_movable H0 S0 E). Qed.
Print Assumptions C54_no_user_code.

(* a grammar that stores, refers and uses a scope context of its own, run
   behind a token and a scope context of somebody else *)
Example C54_example :
  let m := Program_ [MStore (SPMatcher (Equals_ "a")) "v" true;
                     MSetScope (Some 1%nat) (MRegister [MEquals (FFetch "v") "b" true]);
                     Equals_ "b"] in
  let old := [set_kids [5%nat] (std_token (at_src "zz") "Old" (mkR 0 2))] in
  let sc := [[[(lit "v", VToken 0%nat)]]] in
  let st := mkSt [] [[[]]; [[]]] in
  calls_only (fun _ => False) m /\ scopes_call_only (fun _ => False) st /\
  moved_ctx old sc (at_ctx 0 2) (mkCtx 0 1%nat [] (mkR 0 2) "other") /\
  moved_matcher sc m <> m /\
  exists r st', exec 9 at_env (at_src "ab") m (at_ctx 0 2) 0%nat st = Ret r st' /\ r = Ok (SToken 0%nat) /\
    exec 9 at_env (at_src "ab") (moved_matcher sc m) (mkCtx 0 1%nat [] (mkR 0 2) "other") 1%nat (moved_state old sc st)
      = Ret (Ok (SToken 1%nat)) (moved_state old sc st').
Proof.
  cbv zeta. split; [apply (quiet_calls 9); reflexivity|]. split.
  { intros stack sc n m [<-|[<-|[]]] [<-|[]] []. }
  split; [repeat split|]. split; [discriminate|].
  eexists. eexists. split; [vm_compute; reflexivity|]. split; [reflexivity|]. vm_compute. reflexivity.
Qed.

(* ---------- C50: imports in a circle ---------- *)

(* When the first statement of each of some files imports another of them, then
   compiling any of these files never returns, whatever the depth of imports
   [depth] and the work per file [fuel] that are allowed. *)
Theorem C50_circle E F (K : str -> Prop) :
  (forall full, K full -> exists next, imports_first E F full next /\ K next) ->
  forall depth fuel log file full st, fs_canon F file = Some full -> K full ->
  compile_file depth fuel E F log file st = OOF.
Proof. exact (circle E F K). Qed.
Print Assumptions C50_circle.

(* In particular a file whose first statement imports the file itself. *)
Theorem C50_self_import E F full : imports_first E F full full ->
  forall depth fuel log file st, fs_canon F file = Some full -> compile_file depth fuel E F log file st = OOF.
Proof. exact (self_import E F full). Qed.
Print Assumptions C50_self_import.

(* two files that import each other *)
Definition two_files : fs :=
  let x := lit "<!--[adextopa version='1'] import {_ as A} from 'y' -->" in
  let y := lit "<!--[adextopa version='1' name='B'] import {_ as C, d} from 'x' --> <='z'>" in
  mkFs (fun _ p => Some p) Some
       (fun p => if str_eqb p "x" then Some x else if str_eqb p "y" then Some y else None).

Example C50_example : imports_first at_env two_files "x" "y" /\ imports_first at_env two_files "y" "x" /\
  forall depth fuel log st, compile_file depth fuel at_env two_files log "x" st = OOF.
Proof.
  assert (Hx : imports_first at_env two_files "x" "y").
  { eapply (import_checked _ _ _ _ _ 200 [0; 2; 7; 8; 10; 13; 19]%nat 23%nat [28; 34; 35; 39; 50]%nat); [reflexivity|].
    vm_compute. reflexivity. }
  assert (Hy : imports_first at_env two_files "y" "x").
  { eapply (import_checked _ _ _ _ _ 200 [0; 2; 7; 8; 10; 13; 16; 18; 21; 27]%nat 31%nat
             [36; 42; 43; 47; 54; 55; 67; 77; 83; 90; 93]%nat); [reflexivity|].
    vm_compute. reflexivity. }
  split; [exact Hx|]. split; [exact Hy|]. intros depth fuel log st.
  apply (C50_circle at_env two_files (fun f => f = lit "x" \/ f = lit "y")) with (lit "x"); [|reflexivity|now left].
  intros full [->| ->]; [exists (lit "y")|exists (lit "x")]; auto.
Qed.
