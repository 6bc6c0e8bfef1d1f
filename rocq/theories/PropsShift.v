(* Properties of matching inside a window of a larger source. *)
From Verif Require Import Macros Spec SpecMore SpecShift Samples ShiftProofs.
Open Scope string_scope.
Open Scope list_scope.
Open Scope N_scope.

(* ---------- C85: what is around a window does not matter ---------- *)

(* [local] (SpecShift.v) are the matchers that make no errors, run no user code
   and use no positions as values.  In an ASCII source such a matcher finds in a
   window what it finds when the text of the window is all there is: the same
   result, variables and trees, each token [slen pre] bytes further on. *)
Theorem C85_window E P P' pre post m c s st r st1 :
  p_src P' = pre ++ p_src P ++ post -> ascii_only (p_src P') -> slen (p_src P') < isize_bound ->
  rs (c_off c) <= re (c_off c) <= slen (p_src P) -> local m -> scopes_local st ->
  Runs E P m c s st r st1 ->
  exists st2, Runs E P' m (shifted_ctx (slen pre) c) s st r st2 /\ same_but_shifted (slen pre) r st1 st2.
Proof. exact (fun H1 H2 H3 H4 H5 H6 => window_runs E P P' pre post H1 H2 H3 m c s st H4 H5 H6 r st1). Qed.
Print Assumptions C85_window.

(* and nothing else *)
Theorem C85_only E P P' pre post m c s st r st2 :
  p_src P' = pre ++ p_src P ++ post -> ascii_only (p_src P') -> slen (p_src P') < isize_bound ->
  rs (c_off c) <= re (c_off c) <= slen (p_src P) -> local m -> scopes_local st ->
  Runs E P' m (shifted_ctx (slen pre) c) s st r st2 ->
  exists st1, Runs E P m c s st r st1 /\ same_but_shifted (slen pre) r st1 st2.
Proof. exact (fun H1 H2 H3 H4 H5 H6 => window_only E P P' pre post H1 H2 H3 m c s st H4 H5 H6 r st2). Qed.
Print Assumptions C85_only.

Theorem C85_panics E P P' pre post m c s st p :
  p_src P' = pre ++ p_src P ++ post -> ascii_only (p_src P') -> slen (p_src P') < isize_bound ->
  rs (c_off c) <= re (c_off c) <= slen (p_src P) -> local m -> scopes_local st ->
  (Panics E P m c s st p <-> Panics E P' m (shifted_ctx (slen pre) c) s st p).
Proof. exact (fun H1 H2 H3 H4 H5 H6 => window_panics E P P' pre post H1 H2 H3 m c s st H4 H5 H6 p). Qed.
Print Assumptions C85_panics.

Theorem C85_diverges E P P' pre post m c s st :
  p_src P' = pre ++ p_src P ++ post -> ascii_only (p_src P') -> slen (p_src P') < isize_bound ->
  rs (c_off c) <= re (c_off c) <= slen (p_src P) -> local m -> scopes_local st ->
  (Diverges E P m c s st <-> Diverges E P' m (shifted_ctx (slen pre) c) s st).
Proof. exact (fun H1 H2 H3 H4 H5 H6 => window_diverges E P P' pre post H1 H2 H3 m c s st H4 H5 H6). Qed.
Print Assumptions C85_diverges.

(* [echo] (ShiftProofs.v) takes a quoted word, then "=" and the word again and
   again; here in the middle of a larger text, with something in the store *)
Example C85_example_local : local echo /\ scopes_local (mkSt [dead_token] [[[]]]).
Proof. split; [exact echo_local|]. intros stack sc n m [<-|[]] [<-|[]] []. Qed.
Example C85_example :
  let w := lit "'ab'=ababa" in let P' := parser_new (lit "x := " ++ w ++ lit "ab;") in
  let st := mkSt [dead_token] [[[]]] in
  exists st1 st2,
    exec 9 at_env (parser_new w) echo (at_ctx 0 10) 0%nat st = Ret (Ok (SToken 1%nat)) st1 /\
    exec 9 at_env P' echo (at_ctx 5 15) 0%nat st = Ret (Ok (SToken 1%nat)) st2 /\
    at_ctx 5 15 = shifted_ctx 5 (at_ctx 0 10) /\
    map (fun t => (tk_mr t, tk_cr t)) (tl (st_heap st1)) =
      [(mkR 0 9, mkR 1 9); (mkR 0 4, mkR 1 3); (mkR 4 5, mkR 4 5); (mkR 4 5, mkR 4 5); (mkR 5 9, mkR 5 9); (mkR 5 7, mkR 5 7); (mkR 7 9, mkR 7 9)] /\
    map (fun t => (tk_mr t, tk_cr t)) (tl (st_heap st2)) =
      [(mkR 5 14, mkR 6 14); (mkR 5 9, mkR 6 8); (mkR 9 10, mkR 9 10); (mkR 9 10, mkR 9 10); (mkR 10 14, mkR 10 14); (mkR 10 12, mkR 10 12); (mkR 12 14, mkR 12 14)].
Proof. eexists. eexists. split; [vm_compute; reflexivity|]. split; [vm_compute; reflexivity|]. repeat split. Qed.

(* Without the conditions it is not so: a position as a value, *)
Example C85_example_position :
  let m := Program_ [MStore (SPMatcher (Equals_ "a")) "k" false; MEquals (FFetch "k.start") "N" false] in
  let found := fun r => match r with Ret (Ok (SToken _)) _ => Some true | Ret (Err FFail) _ => Some false | _ => None end in
  found (exec 9 at_env (at_src "a0") m (at_ctx 0 2) 0%nat (mkSt [] [[[]]])) = Some true /\
  found (exec 9 at_env (at_src "-a0") m (at_ctx 1 3) 0%nat (mkSt [] [[[]]])) = Some false.
Proof. vm_compute. repeat split. Qed.
(* and the two bytes of a letter with an accent before the window *)
Example C85_example_accent :
  let value := fun r => match r with Ret (Ok (SToken a)) st => Some (get_value (tok st a)) | _ => None end in
  let accent := [ascii_of_N 195; ascii_of_N 169] in
  value (exec 9 at_env (at_src "ab") (Equals_ "a") (at_ctx 0 2) 0%nat (mkSt [] [[[]]])) = Some (lit "a") /\
  value (exec 9 at_env (parser_new (accent ++ lit "ab")) (Equals_ "a") (at_ctx 2 4) 0%nat (mkSt [] [[[]]])) = Some (lit "b").
Proof. vm_compute. repeat split. Qed.
