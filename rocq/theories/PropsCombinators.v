(* C12-C15, C34, C35: combinators around one matcher, and ordered choice.
   [Runs], [Panics], [Diverges] (Spec.v): the execution returns, panics, never
   finishes; [Does .. o]: it has the outcome [o].  [renamed c n] is the context
   [c] under the name [n]. *)
From Verif Require Import MapProofs Samples.
Open Scope string_scope.
Open Scope list_scope.
Open Scope N_scope.

(* ---------------------------------------------------------------- C12 *)

Theorem C12_not : forall E P m c s st r st',
  Runs E P (MNot m) c s st r st' <->
  exists r0, Runs E P m (renamed c "Not") s st r0 st' /\
    match r0 with
    | Err FFail => r = Ok (SSkip 0)
    | Ok (SToken _) | Ok (SProxy _) => r = Err FFail
    | Ok (SSkip z) => (z = 0%Z /\ r = Ok (SSkip 0)) \/ (z <> 0%Z /\ r = Err FFail)
    | _ => r = r0
    end.
Proof. exact not_runs. Qed.
Print Assumptions C12_not.

Theorem C12_not_never_consumes : forall E P m c s st r st',
  Runs E P (MNot m) c s st r st' ->
  (forall a, r <> Ok (SToken a) /\ r <> Ok (SProxy a)) /\ (forall z, r = Ok (SSkip z) -> z = 0%Z).
Proof. exact not_never_consumes. Qed.
Print Assumptions C12_not_never_consumes.

Theorem C12_not_panics : forall E P m c s st p,
  Panics E P (MNot m) c s st p <-> Panics E P m (renamed c "Not") s st p.
Proof. exact not_panics. Qed.
Print Assumptions C12_not_panics.

Theorem C12_not_diverges : forall E P m c s st,
  Diverges E P (MNot m) c s st <-> Diverges E P m (renamed c "Not") s st.
Proof. exact not_diverges. Qed.
Print Assumptions C12_not_diverges.

(* a double negation cannot tell a match from a failure *)
Theorem C12_double_negation : forall E P m c s st r st',
  Runs E P m (renamed c "Not") s st r st' ->
  r = Err FFail \/ (exists a, r = Ok (SToken a) \/ r = Ok (SProxy a)) \/ (exists z, r = Ok (SSkip z)) ->
  Runs E P (MNot (MNot m)) c s st (Ok (SSkip 0)) st'.
Proof. exact double_not. Qed.
Print Assumptions C12_double_negation.

Example C12_example :
  at_run 2 (MNot (Equals_ "a")) "b" = Ret (Ok (SSkip 0)) at_state
  /\ (exists st, at_run 2 (MNot (Equals_ "a")) "a" = Ret (Err FFail) st)
  /\ at_run 2 (MNot (MBreak "x")) "a" = Ret (Ok (SBreak "x" SNone)) at_state
  /\ (exists st, at_run 3 (MNot (MNot (Equals_ "a"))) "a" = Ret (Ok (SSkip 0)) st)
  /\ (exists st, at_run 3 (MNot (MNot (Equals_ "a"))) "b" = Ret (Ok (SSkip 0)) st).
Proof. vm_compute; eauto 10. Qed.

(* ---------------------------------------------------------------- C13 *)

Theorem C13_optional : forall E P m c s st r st',
  Runs E P (MOptional m) c s st r st' <->
  (r = Ok (SSkip 0) /\ Runs E P m (renamed c "Optional") s st (Err FFail) st') \/
  (r <> Err FFail /\ Runs E P m (renamed c "Optional") s st r st').
Proof. exact optional_runs. Qed.
Print Assumptions C13_optional.

Theorem C13_optional_never_fails : forall E P m c s st st',
  ~ Runs E P (MOptional m) c s st (Err FFail) st'.
Proof. exact optional_never_fails. Qed.
Print Assumptions C13_optional_never_fails.

Theorem C13_optional_panics : forall E P m c s st p,
  Panics E P (MOptional m) c s st p <-> Panics E P m (renamed c "Optional") s st p.
Proof. exact optional_panics. Qed.
Print Assumptions C13_optional_panics.

Theorem C13_optional_diverges : forall E P m c s st,
  Diverges E P (MOptional m) c s st <-> Diverges E P m (renamed c "Optional") s st.
Proof. exact optional_diverges. Qed.
Print Assumptions C13_optional_diverges.

Theorem C13_optional_idempotent : forall E P m c s st,
  same_outcomes E P (MOptional (MOptional m)) c s st (MOptional m) c s st.
Proof. exact optional_idempotent. Qed.
Print Assumptions C13_optional_idempotent.

Example C13_example :
  at_run 2 (MOptional (Equals_ "a")) "b" = Ret (Ok (SSkip 0)) at_state
  /\ (exists st, at_run 2 (MOptional (Equals_ "a")) "a" = Ret (Ok (SToken 0%nat)) st)
  /\ (exists e st, at_run 2 (MOptional (Ref_ "nope")) "a" = Ret (Err (FError e)) st).
Proof. vm_compute; eauto 10. Qed.

(* ---------------------------------------------------------------- C14 *)

(* [wrapped x a wrap]: [x] is the token [a] (or its children), directly or as
   the payload of a break or continue; [wrap] puts the result back there *)
Theorem C14_discard : forall E P m c s st x a wrap st1 errs,
  wrapped x a wrap ->
  Runs E P m (renamed c "Discard") s st (Ok x) st1 ->
  errors_below st1 a errs ->
  let stop := re (tk_mr (tok st1 a)) in
  exists t, discard_token st1 (rs (c_off c)) stop errs t /\
  (errs <> [] ->
     Runs E P (MDiscard m) c s st (Ok (wrap (SToken (List.length (st_heap st1)))))
          (mkSt (st_heap st1 ++ [t]) (st_scopes st1))) /\
  (errs = [] -> rs (c_off c) < isize_bound -> stop < isize_bound ->
     Runs E P (MDiscard m) c s st (Ok (wrap (SSkip (Z.of_N stop - Z.of_N (rs (c_off c))))))
          (mkSt (st_heap st1 ++ [t]) (st_scopes st1))).
Proof. exact discard_token_result. Qed.
Print Assumptions C14_discard.

Theorem C14_discard_other : forall E P m c s st r st1,
  no_token r -> Runs E P m (renamed c "Discard") s st r st1 ->
  Runs E P (MDiscard m) c s st r st1.
Proof. exact discard_other. Qed.
Print Assumptions C14_discard_other.

Theorem C14_discard_panics : forall E P m c s st p,
  Panics E P m (renamed c "Discard") s st p -> Panics E P (MDiscard m) c s st p.
Proof. exact discard_panics. Qed.
Print Assumptions C14_discard_panics.

Theorem C14_discard_diverges : forall E P m c s st,
  Diverges E P m (renamed c "Discard") s st -> Diverges E P (MDiscard m) c s st.
Proof. exact discard_diverges. Qed.
Print Assumptions C14_discard_diverges.

Example C14_example :
  (exists st, at_run 2 (MDiscard (Equals_ "ab")) "abc" = Ret (Ok (SSkip 2)) st)
  /\ at_run 2 (MDiscard (Equals_ "ab")) "xbc" = Ret (Err FFail) at_state
  /\ (exists st, at_run 4 (MDiscard (Program_ [Equals_ "a"; MErrorP "bad"])) "abc" = Ret (Ok (SToken 3%nat)) st
        /\ tk_kids (tok st 3%nat) = [2%nat] /\ is_error (tok st 2%nat) = true
        /\ tk_mr (tok st 3%nat) = mkR 0 1).
Proof. vm_compute; eauto 20. Qed.

(* ---------------------------------------------------------------- C15 *)

(* [chooses E P c s alts st o] (Spec.v) is ordered choice over the outcomes of
   the alternatives, all of them tried in the same context *)
Theorem C15_switch : forall E P c i s st alts o,
  c_debug c = 0 -> pi_stop i = true -> pi_iter i = None -> rs (c_off c) <= usize_max ->
  chooses E P (pattern_ctx c (pi_name i) (List.length (st_heap st)) (rs (c_off c))) s alts
          (program_start P alts i s st) o ->
  Does E P (MProgram alts i) c s st o.
Proof. exact switch_does. Qed.
Print Assumptions C15_switch.

Example C15_example :
  (exists st, at_run 3 (Switch_ [Equals_ "b"; MOptional (Equals_ "c"); Pin_; EqualsN "x" "a"; Equals_ "a"]) "a"
     = Ret (Ok (SToken 2%nat)) st /\ tk_name (tok st 2%nat) = lit "x" /\ tk_kind (tok st 1%nat) = KPin)
  /\ (exists st, at_run 3 (Switch_ [Equals_ "b"; MOptional (Equals_ "c")]) "a" = Ret (Err FFail) st)
  /\ (exists st, at_run 3 (Switch_ [MBreak "l"; Equals_ "a"]) "a" = Ret (Ok (SBreak "l" SNone)) st).
Proof. vm_compute; eauto 20. Qed.

(* ---------------------------------------------------------------- C34 *)

Theorem C34_map_signals : forall E P m f c s st x st1,
  Runs E P m (renamed c "Map") s st (Ok x) st1 -> (forall a, x <> SToken a /\ x <> SProxy a) ->
  Runs E P (MMap m f) c s st (Ok x) st1.
Proof. exact map_signals. Qed.
Print Assumptions C34_map_signals.

Theorem C34_map_user_success : forall E P m k c s st x a st1 r st',
  Runs E P m (renamed c "Map") s st (Ok x) st1 -> x = SToken a \/ x = SProxy a ->
  e_map_ok E k a (renamed c "Map") s st1 = Ret r st' ->
  Runs E P (MMap m (MapUser k)) c s st r st'.
Proof. exact map_user_ok. Qed.
Print Assumptions C34_map_user_success.

Theorem C34_map_user_failure : forall E P m k c s st e st1 r st',
  Runs E P m (renamed c "Map") s st (Err e) st1 ->
  e_map_err E k e (renamed c "Map") s st1 = Ret r st' ->
  Runs E P (MMap m (MapUser k)) c s st r st'.
Proof. exact map_user_err. Qed.
Print Assumptions C34_map_user_failure.

Theorem C34_map_panics : forall E P m f c s st p,
  Panics E P m (renamed c "Map") s st p -> Panics E P (MMap m f) c s st p.
Proof. exact map_panics. Qed.
Print Assumptions C34_map_panics.

Theorem C34_map_diverges : forall E P m f c s st,
  Diverges E P m (renamed c "Map") s st -> Diverges E P (MMap m f) c s st.
Proof. exact map_diverges. Qed.
Print Assumptions C34_map_diverges.

Theorem C34_map_errors : forall E P m f c s st e st1,
  (forall k, f <> MapUser k) ->
  Runs E P m (renamed c "Map") s st (Err (FError e)) st1 ->
  Runs E P (MMap m f) c s st (Err (FError e)) st1.
Proof. exact map_errors. Qed.
Print Assumptions C34_map_errors.

Theorem C34_fatal_if_match : forall E P m msg c s st x a st1,
  let r := tk_mr (tok st1 a) in
  Runs E P m (renamed c "Map") s st (Ok x) st1 -> x = SToken a \/ x = SProxy a ->
  sliceable (p_src P) r -> re r < usize_max ->
  exists text, error_text P msg r text /\
    Runs E P (FatalIf m msg) c s st (Err (FError (mkPE text (Some r)))) st1.
Proof. exact fatal_if_match. Qed.
Print Assumptions C34_fatal_if_match.

Theorem C34_fatal_if_no_match : forall E P m msg c s st st1,
  Runs E P m (renamed c "Map") s st (Err FFail) st1 ->
  Runs E P (FatalIf m msg) c s st (Ok (SSkip 0)) st1.
Proof. exact fatal_if_no_match. Qed.
Print Assumptions C34_fatal_if_no_match.

Theorem C34_fatal_if_not_match : forall E P m msg c s st x a st1,
  Runs E P m (renamed c "Map") s st (Ok x) st1 -> x = SToken a \/ x = SProxy a ->
  Runs E P (FatalIfNot m msg) c s st (Ok (SSkip 0)) st1.
Proof. exact fatal_if_not_match. Qed.
Print Assumptions C34_fatal_if_not_match.

Theorem C34_fatal_if_not_no_match : forall E P m msg c s st st1,
  Runs E P m (renamed c "Map") s st (Err FFail) st1 ->
  sliceable (p_src P) (c_off c) -> re (c_off c) < usize_max ->
  exists text, error_text P msg (c_off c) text /\
    Runs E P (FatalIfNot m msg) c s st (Err (FError (mkPE text (Some (c_off c))))) st1.
Proof. exact fatal_if_not_no_match. Qed.
Print Assumptions C34_fatal_if_not_no_match.

Theorem C34_assert_if_match : forall E P m msg c s st x a st1,
  let r := tk_mr (tok st1 a) in
  Runs E P m (renamed c "Map") s st (Ok x) st1 -> x = SToken a \/ x = SProxy a ->
  sliceable (p_src P) r -> re r < usize_max ->
  exists text t, error_text P msg r text /\ message_token t r text /\
    Runs E P (AssertIf m msg) c s st (Ok (SToken (List.length (st_heap st1))))
         (mkSt (st_heap st1 ++ [t]) (st_scopes st1)).
Proof. exact assert_if_match. Qed.
Print Assumptions C34_assert_if_match.

Theorem C34_assert_if_no_match : forall E P m msg c s st st1,
  Runs E P m (renamed c "Map") s st (Err FFail) st1 ->
  Runs E P (AssertIf m msg) c s st (Ok (SSkip 0)) st1.
Proof. exact assert_if_no_match. Qed.
Print Assumptions C34_assert_if_no_match.

Theorem C34_assert_if_not_match : forall E P m msg c s st x a st1,
  Runs E P m (renamed c "Map") s st (Ok x) st1 -> x = SToken a \/ x = SProxy a ->
  Runs E P (AssertIfNot m msg) c s st (Ok (SSkip 0)) st1.
Proof. exact assert_if_not_match. Qed.
Print Assumptions C34_assert_if_not_match.

Theorem C34_assert_if_not_no_match : forall E P m msg c s st st1,
  let r := mkR (rs (c_off c)) (rs (c_off c)) in
  Runs E P m (renamed c "Map") s st (Err FFail) st1 ->
  sliceable (p_src P) r -> re r < usize_max ->
  exists text t, error_text P msg r text /\ message_token t r text /\
    Runs E P (AssertIfNot m msg) c s st (Ok (SToken (List.length (st_heap st1))))
         (mkSt (st_heap st1 ++ [t]) (st_scopes st1)).
Proof. exact assert_if_not_no_match. Qed.
Print Assumptions C34_assert_if_not_no_match.

Theorem C34_error_matcher : forall E P msg c s st,
  let r := mkR (rs (c_off c)) (rs (c_off c)) in
  sliceable (p_src P) r -> re r < usize_max ->
  exists text t, error_text P msg r text /\ message_token t r text /\
    Runs E P (MErrorP msg) c s st (Ok (SToken (List.length (st_heap st))))
         (mkSt (st_heap st ++ [t]) (st_scopes st)).
Proof. exact error_matcher. Qed.
Print Assumptions C34_error_matcher.

Theorem C34_panic_matcher : forall E P msg c s st,
  let r := mkR (match c_stack c with a :: _ => rs (tk_mr (tok st a)) | [] => rs (c_off c) end) (rs (c_off c)) in
  sliceable (p_src P) r -> re r < usize_max ->
  exists text, error_text P msg r text /\
    Runs E P (MPanic msg) c s st (Err (FError (mkPE text (Some r)))) st.
Proof. exact panic_matcher. Qed.
Print Assumptions C34_panic_matcher.

Example C34_example :
  (exists st, at_run 2 (FatalIf (Equals_ "ab") "no") "abc"
     = Ret (Err (FError (mkPE "Error: f.txt@[1:1-3]: no" (Some (mkR 0 2))))) st)
  /\ at_run 2 (FatalIf (Equals_ "b") "no") "abc" = Ret (Ok (SSkip 0)) at_state
  /\ (exists st, at_run 2 (AssertIfNot (Equals_ "b") "no") "abc" = Ret (Ok (SToken 0%nat)) st
        /\ tk_attrs (tok st 0%nat) = [(lit "__message", lit "Error: f.txt@[1:1]: no")])
  /\ at_run 2 (FatalIf (MBreak "x") "no") "abc" = Ret (Ok (SBreak "x" SNone)) at_state.
Proof. vm_compute; eauto 20. Qed.

(* ---------------------------------------------------------------- C35 *)

Theorem C35_catch_success : forall E P m k c s st x st1,
  Runs E P m (renamed c "Catch") s st (Ok x) st1 -> Runs E P (MCatch m k) c s st (Ok x) st1.
Proof. exact catch_ok. Qed.
Print Assumptions C35_catch_success.

Theorem C35_catch_failure : forall E P m k c s st e st1 r st',
  Runs E P m (renamed c "Catch") s st (Err e) st1 ->
  e_catch E k e (renamed c "Catch") st1 = Ret r st' ->
  Runs E P (MCatch m k) c s st r st'.
Proof. exact catch_err. Qed.
Print Assumptions C35_catch_failure.

Theorem C35_catch_only : forall E P m k c s st r st',
  Runs E P (MCatch m k) c s st r st' ->
  exists r0 st1, Runs E P m (renamed c "Catch") s st r0 st1 /\
    match r0 with Ok _ => r = r0 /\ st' = st1 | Err e => e_catch E k e (renamed c "Catch") st1 = Ret r st' end.
Proof. exact catch_inv. Qed.
Print Assumptions C35_catch_only.

Theorem C35_catch_panics : forall E P m k c s st p,
  Panics E P m (renamed c "Catch") s st p -> Panics E P (MCatch m k) c s st p.
Proof. exact catch_panics. Qed.
Print Assumptions C35_catch_panics.

Theorem C35_catch_diverges : forall E P m k c s st,
  Diverges E P m (renamed c "Catch") s st -> Diverges E P (MCatch m k) c s st.
Proof. exact catch_diverges. Qed.
Print Assumptions C35_catch_diverges.

(* a handler that turns everything into a skip is also called for failures *)
Definition quiet_env : env :=
  mkEnv true (fun _ a _ _ st => Ret (Ok (SToken a)) st) (fun _ e _ _ st => Ret (Err e) st)
        (fun _ _ _ st => Ret (Ok (SSkip 0)) st) (fun _ _ _ st => Ret (Err FFail) st)
        (fun _ => false) (fun _ => false) (fun _ => false) (fun _ => None).
Example C35_example :
  exec 2 quiet_env (at_src "b") (MCatch (Equals_ "a") 0) (at_ctx 0 1) 0%nat at_state = Ret (Ok (SSkip 0)) at_state
  /\ exec 2 quiet_env (at_src "b") (MCatch (Ref_ "nope") 0) (at_ctx 0 1) 0%nat at_state = Ret (Ok (SSkip 0)) at_state
  /\ (exists st, exec 2 quiet_env (at_src "a") (MCatch (Equals_ "a") 0) (at_ctx 0 1) 0%nat at_state
        = Ret (Ok (SToken 0%nat)) st).
Proof. vm_compute; eauto 10. Qed.
