(* C07-C11: Equals, Matches and Sequence.
   [Runs E P m c s st r st'] (Spec.v): executing [m] returns [r] and leaves the
   state [st']; [Panics] likewise for panics. *)
From Verif Require Import AtomProofs Samples.
Open Scope string_scope.
Open Scope list_scope.
Open Scope N_scope.

(* ---------------------------------------------------------------- C07 *)

Theorem C07_equals_found : forall E P v name custom c s st rest,
  c_debug c = 0 -> sliceable (p_src P) (c_off c) -> v <> [] ->
  window (p_src P) (rs (c_off c)) (re (c_off c)) (v ++ rest) ->
  let m := MEquals (FStr v) name custom in
  exists t,
    Runs E P m c s st (Ok (SToken (List.length (st_heap st))))
         (mkSt (st_heap st ++ [t]) (scopes_after st s custom name m))
    /\ plain_token t name (mkR (rs (c_off c)) (rs (c_off c) + slen v))
    /\ (ascii_only (p_src P) -> tk_cvalue t = v /\ tk_mvalue t = v).
Proof. exact equals_found. Qed.
Print Assumptions C07_equals_found.

Theorem C07_equals_not_found : forall E P v name custom c s st,
  c_debug c = 0 -> sliceable (p_src P) (c_off c) ->
  v = [] \/ (~ exists rest, window (p_src P) (rs (c_off c)) (re (c_off c)) (v ++ rest)) ->
  let m := MEquals (FStr v) name custom in
  Runs E P m c s st (Err FFail) (mkSt (st_heap st) (scopes_after st s custom name m)).
Proof. exact equals_not_found. Qed.
Print Assumptions C07_equals_not_found.

Theorem C07_equals_panics : forall E P v name custom c s st,
  v <> [] -> ~ sliceable (p_src P) (c_off c) ->
  Panics E P (MEquals (FStr v) name custom) c s st PSlice.
Proof. exact equals_panics. Qed.
Print Assumptions C07_equals_panics.

Example C07_example :
  exec 1 at_env (at_src "let x") (EqualsN "kw" "let") (at_ctx 0 5) 0%nat at_state
  = Ret (Ok (SToken 0%nat)) (mkSt [std_token (at_src "let x") "kw" (mkR 0 3)]
                              [[[(lit "kw", VMatcher (EqualsN "kw" "let"))]]])
  /\ exec 1 at_env (at_src "let x") (Equals_ "let") (at_ctx 1 5) 0%nat at_state
     = Ret (Err FFail) at_state.
Proof. vm_compute; auto. Qed.

(* ---------------------------------------------------------------- C08 *)

Theorem C08_matches_found : forall E P f name custom c s st w n,
  sliceable (p_src P) (c_off c) ->
  window (p_src P) (rs (c_off c)) (re (c_off c)) w -> f w = Some (0, n) -> n <> 0 ->
  let m := MMatches f name custom in
  exists t,
    Runs E P m c s st (Ok (SToken (List.length (st_heap st))))
         (mkSt (st_heap st ++ [t]) (scopes_after st s custom name m))
    /\ plain_token t name (mkR (rs (c_off c)) (rs (c_off c) + n))
    /\ (ascii_only (p_src P) -> n <= slen w ->
        exists rest, w = tk_cvalue t ++ rest /\ slen (tk_cvalue t) = n /\ tk_mvalue t = tk_cvalue t).
Proof. exact matches_found. Qed.
Print Assumptions C08_matches_found.

Theorem C08_matches_empty : forall E P f name custom c s st w,
  c_debug c = 0 -> sliceable (p_src P) (c_off c) ->
  window (p_src P) (rs (c_off c)) (re (c_off c)) w -> f w = Some (0, 0) ->
  let m := MMatches f name custom in
  Runs E P m c s st (Ok (SSkip 0)) (mkSt (st_heap st) (scopes_after st s custom name m)).
Proof. exact matches_empty. Qed.
Print Assumptions C08_matches_empty.

Theorem C08_matches_not_found : forall E P f name custom c s st w,
  c_debug c = 0 -> sliceable (p_src P) (c_off c) ->
  window (p_src P) (rs (c_off c)) (re (c_off c)) w -> (forall n, f w <> Some (0, n)) ->
  let m := MMatches f name custom in
  Runs E P m c s st (Err FFail) (mkSt (st_heap st) (scopes_after st s custom name m)).
Proof. exact matches_not_found. Qed.
Print Assumptions C08_matches_not_found.

(* a finder for runs of `a` that are not at the end, or the empty match at `b` *)
Definition a_run : finder := fun w =>
  match w with
  | "a"%char :: "a"%char :: _ => Some (0, 2)
  | "b"%char :: _ => Some (0, 0)
  | _ :: "a"%char :: _ => Some (1, 1)
  | _ => None
  end.

Example C08_example :
  let run a := exec 1 at_env (at_src "aabca") (MMatches a_run "A" false) (at_ctx a 5) 0%nat at_state in
  run 0 = Ret (Ok (SToken 0%nat)) (mkSt [std_token (at_src "aabca") "A" (mkR 0 2)] [[[]]])
  /\ run 2 = Ret (Ok (SSkip 0)) at_state
  /\ run 3 = Ret (Err FFail) at_state.
Proof. vm_compute; auto. Qed.

(* ---------------------------------------------------------------- C09 *)

Theorem C09_sequence_found : forall E P sp ep esc name custom c s st text raw v,
  ascii_only (p_src P) -> c_debug c = 0 -> sp <> [] -> ep <> [] ->
  window (p_src P) (rs (c_off c)) (re (c_off c)) (sp ++ text) ->
  scans ep esc text raw v ->
  let m := MSequence (FStr sp) (FStr ep) (FStr esc) name custom in
  let inner := rs (c_off c) + slen sp in
  exists t,
    Runs E P m c s st (Ok (SToken (List.length (st_heap st))))
         (mkSt (st_heap st ++ [t]) (scopes_after st s custom name m))
    /\ tk_name t = name
    /\ tk_mr t = mkR (rs (c_off c)) (inner + slen raw + slen ep)
    /\ tk_cr t = mkR inner (inner + slen raw)
    /\ get_value t = v /\ tk_cvalue t = raw /\ tk_mvalue t = sp ++ raw ++ ep
    /\ tk_kind t = KStandard /\ tk_kids t = [] /\ tk_parent t = None /\ tk_flags t = 0.
Proof. exact sequence_found. Qed.
Print Assumptions C09_sequence_found.

Theorem C09_sequence_not_found : forall E P sp ep esc name custom c s st w,
  ascii_only (p_src P) -> c_debug c = 0 -> sp <> [] -> ep <> [] ->
  window (p_src P) (rs (c_off c)) (re (c_off c)) w ->
  (forall text raw v, w = sp ++ text -> ~ scans ep esc text raw v) ->
  let m := MSequence (FStr sp) (FStr ep) (FStr esc) name custom in
  Runs E P m c s st (Err FFail) (mkSt (st_heap st) (scopes_after st s custom name m)).
Proof. exact sequence_not_found. Qed.
Print Assumptions C09_sequence_not_found.

Theorem C09_empty_start_panics : forall E P fe fx name custom c s st,
  Panics E P (MSequence (FStr []) fe fx name custom) c s st
         (PMessage "Sequence `start` pattern of """" makes no sense").
Proof. exact sequence_empty_start. Qed.
Print Assumptions C09_empty_start_panics.

Theorem C09_empty_end_panics : forall E P sp fx name custom c s st, sp <> [] ->
  Panics E P (MSequence (FStr sp) (FStr []) fx name custom) c s st
         (PMessage "Sequence `end` pattern of """" makes no sense").
Proof. exact sequence_empty_end. Qed.
Print Assumptions C09_empty_end_panics.

Example C09_example :
  let run w := exec 1 at_env (at_src "<<a\>>b>>c") (Sequence_ "<<" ">>" "\") (at_ctx 0 w) 0%nat at_state in
  (match run 10 with
   | Ret (Ok (SToken 0%nat)) st =>
       tk_mr (tok st 0%nat) = mkR 0 9 /\ tk_cr (tok st 0%nat) = mkR 2 7 /\ get_value (tok st 0%nat) = lit "a>>b"
       /\ tk_cvalue (tok st 0%nat) = lit "a\>>b"
   | _ => False
   end)
  /\ run 8 = Ret (Err FFail) at_state.
Proof. vm_compute; auto. Qed.

(* ---------------------------------------------------------------- C10 *)

Theorem C10_quoting_round_trip : forall E P q e text name custom c s st pre post mid,
  ascii_only (p_src P) -> c_debug c = 0 -> q <> e ->
  p_src P = pre ++ quoted q e text ++ mid ++ post ->
  c_off c = mkR (slen pre) (slen (pre ++ quoted q e text ++ mid)) ->
  let m := MSequence (FStr [q]) (FStr [q]) (FStr [e]) name custom in
  exists t,
    Runs E P m c s st (Ok (SToken (List.length (st_heap st))))
         (mkSt (st_heap st ++ [t]) (scopes_after st s custom name m))
    /\ get_value t = text
    /\ tk_mr t = mkR (slen pre) (slen pre + slen (quoted q e text))
    /\ tk_mvalue t = quoted q e text.
Proof. exact quoted_round_trip. Qed.
Print Assumptions C10_quoting_round_trip.

Example C10_example : quoted "'"%char "\"%char "it's \" = lit "'it\'s \\'".
Proof. reflexivity. Qed.

(* ---------------------------------------------------------------- C11 *)

(* whenever the scan reaches the second byte of a multi-byte character *)
Theorem C11_sequence_panics : forall E P sp ep esc name custom c s st text y t,
  sp <> [] -> ep <> [] -> sliceable (p_src P) (c_off c) ->
  window (p_src P) (rs (c_off c)) (re (c_off c)) (sp ++ text) ->
  passes ep esc text (y :: t) -> continuation y ->
  Panics E P (MSequence (FStr sp) (FStr ep) (FStr esc) name custom) c s st PSlice.
Proof. exact sequence_panics. Qed.
Print Assumptions C11_sequence_panics.

(* 'ä' between quotes *)
Example C11_example :
  exec 1 at_env (mkParser ["'"; ascii_of_N 195; ascii_of_N 164; "'"]%char [])
       (Sequence_ "'" "'" "\") (at_ctx 0 4) 0%nat at_state = Pan PSlice.
Proof. reflexivity. Qed.
Example C11_example_passes :
  passes "'" "\" [ascii_of_N 195; ascii_of_N 164; "'"%char] [ascii_of_N 164; "'"%char]
  /\ continuation (ascii_of_N 164).
Proof.
  split; [|vm_compute; split; discriminate].
  apply pass_byte; [intros [t H]; discriminate|intros _ [t H]; discriminate|constructor].
Qed.
