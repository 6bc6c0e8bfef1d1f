(* C22-C26: scopes, Store, Fetch, Pin and Ref. *)
From Verif Require Import FetchProofs Samples.
Open Scope string_scope.
Open Scope list_scope.
Open Scope N_scope.

(* ---------------------------------------------------------------- C22 *)

Theorem C22_get_after_set : forall st s n v,
  valid_scope st s -> sc_get (sc_set st s n v) s n = Some v.
Proof. exact get_set_same. Qed.
Print Assumptions C22_get_after_set.

Theorem C22_other_names_and_scopes : forall st s n v s' n',
  s <> s' \/ n <> n' -> sc_get (sc_set st s n v) s' n' = sc_get st s' n'.
Proof. exact get_set_other. Qed.
Print Assumptions C22_other_names_and_scopes.

(* entering a scope, any assignments, leaving it *)
Theorem C22_pop_restores : forall st s l, valid_scope st s ->
  stack_of (sc_pop (fold_left (fun st nv => sc_set st s (fst nv) (snd nv)) l (sc_push st s)) s) s
  = stack_of st s.
Proof. exact pop_sets. Qed.
Print Assumptions C22_pop_restores.

(* a lookup finds the innermost scope that has the name *)
Theorem C22_innermost_first : forall st s inner sc outer n v,
  stack_of st s = inner ++ sc :: outer ->
  (forall sc' v', In sc' inner -> ~ In (n, v') sc') ->
  (exists before after, sc = before ++ (n, v) :: after /\ forall v', ~ In (n, v') before) ->
  sc_get st s n = Some v.
Proof. exact innermost. Qed.
Print Assumptions C22_innermost_first.

Theorem C22_unbound : forall st s n,
  (forall sc v, In sc (stack_of st s) -> ~ In (n, v) sc) <-> sc_get st s n = None.
Proof. exact unbound. Qed.
Print Assumptions C22_unbound.

Example C22_example :
  let st := mkSt [] [[[(lit "a", VString "1")]; [(lit "a", VString "2"); (lit "b", VString "3")]]] in
  sc_get st 0%nat "a" = Some (VString "1") /\ sc_get st 0%nat "b" = Some (VString "3")
  /\ sc_get (sc_pop st 0%nat) 0%nat "a" = Some (VString "2")
  /\ sc_get (sc_set st 0%nat "b" (VString "4")) 0%nat "b" = Some (VString "4")
  /\ sc_get (sc_pop (sc_set st 0%nat "b" (VString "4")) 0%nat) 0%nat "b" = Some (VString "3").
Proof. vm_compute; auto. Qed.

(* ---------------------------------------------------------------- C23 *)

(* the variable of a Store that returned a token holds that token *)
Theorem C23_stored : forall E P m name c s st a st',
  Runs E P (MStore (SPMatcher m) name true) c s st (Ok (SToken a)) st' -> valid_scope st' s ->
  sc_get st' s name = Some (VToken a).
Proof. exact store_fetch. Qed.
Print Assumptions C23_stored.

(* [says] (Spec.v): the text that a matcher argument stands for, in particular
   the eight things that can be fetched from a token *)
Theorem C23_fetch : forall st s f txt,
  says st s f txt -> fetch_value st s f = Val (GStr txt).
Proof. exact fetch_says. Qed.
Print Assumptions C23_fetch.

Theorem C23_fetch_bare : forall st s n a, no_dot n -> sc_get st s n = Some (VToken a) ->
  fetch_value st s (FFetch n) = Die (bad_ref n "Don't know how to fetch this value on a Token reference").
Proof. exact fetch_bare. Qed.
Print Assumptions C23_fetch_bare.

Theorem C23_fetch_other : forall st s n a sub, no_dot n -> sc_get st s n = Some (VToken a) ->
  (forall v, ~ fetches (tok st a) sub v) ->
  fetch_value st s (FFetch (n ++ lit "." ++ sub))
  = Die (bad_ref (n ++ lit "." ++ sub) "Don't know how to fetch this value on a Token reference").
Proof. exact fetch_other. Qed.
Print Assumptions C23_fetch_other.

Theorem C23_fetch_string_path : forall st s n v rest, no_dot n -> sc_get st s n = Some (VString v) ->
  fetch_value st s (FFetch (n ++ lit "." ++ rest))
  = Die (bad_ref (n ++ lit "." ++ rest) "Don't know how to fetch this value on a String reference").
Proof. exact fetch_string_path. Qed.
Print Assumptions C23_fetch_string_path.

Theorem C23_fetch_unbound : forall st s n rest, no_dot n -> sc_get st s n = None ->
  fetch_value st s (FFetch n) = Die (bad_ref n "Not found") /\
  fetch_value st s (FFetch (n ++ lit "." ++ rest)) = Die (bad_ref (n ++ lit "." ++ rest) "Not found").
Proof. exact fetch_unbound. Qed.
Print Assumptions C23_fetch_unbound.

(* pinning at the range of a stored token runs the matcher on exactly it *)
Theorem C23_pin_stored : forall E P m n name custom c s st a,
  let off := FFetch (n ++ lit "." ++ lit "range") in
  let self := MPin (Some m) off name custom in
  let st0 := mkSt (st_heap st) (scopes_after st s custom name self) in
  no_dot n -> n <> name ->
  rs (tk_mr (tok st a)) <= usize_max -> re (tk_mr (tok st a)) <= usize_max ->
  sc_get st s n = Some (VToken a) ->
  same_outcomes E P self c s st m (mkCtx (c_debug c) (c_scope c) (c_stack c) (tk_mr (tok st a)) name) s st0.
Proof. exact pin_stored. Qed.
Print Assumptions C23_pin_stored.

(* the same for every offset text with a meaning *)
Theorem C23_pin : forall E P m off name custom c s st txt r,
  let self := MPin (Some m) off name custom in
  let st0 := mkSt (st_heap st) (scopes_after st s custom name self) in
  says st0 s off txt -> pins (c_off c) txt r ->
  same_outcomes E P self c s st m (mkCtx (c_debug c) (c_scope c) (c_stack c) r name) s st0.
Proof. exact pin_runs_inside. Qed.
Print Assumptions C23_pin.

Theorem C23_pin_alone : forall E P off name custom c s st txt r,
  let self := MPin None off name custom in
  let st0 := mkSt (st_heap st) (scopes_after st s custom name self) in
  says st0 s off txt -> pins (c_off c) txt r ->
  exists t, Runs E P self c s st (Ok (SToken (List.length (st_heap st)))) (mkSt (st_heap st ++ [t]) (st_scopes st0)) /\
    pin_token_is t name r.
Proof. exact pin_alone. Qed.
Print Assumptions C23_pin_alone.

(* and [offset_to] lists all offset texts with a meaning *)
Theorem C23_offsets : forall E base dflt s n, e_checks E = true ->
  parse_offset E base dflt s = Val n <-> offset_to base dflt s n.
Proof. exact parse_offset_iff. Qed.
Print Assumptions C23_offsets.

Example C23_example :
  (exists st, at_run 5 (Program_ [StoreM "v" (Sequence_ "<" ">" "\"); PinNOM "p" (FFetch "v.captured_range") (Equals_ "ab")]) "<ab>"
     = Ret (Ok (SToken 0%nat)) st /\ tk_kids (tok st 0%nat) = [1%nat; 2%nat] /\ tk_mr (tok st 2%nat) = mkR 1 3)
  /\ (exists st, at_run 5 (Program_ [StoreM "v" (Equals_ "ab"); Equals_ "-"; EqualsF "v.matched_value"]) "ab-ab"
     = Ret (Ok (SToken 0%nat)) st /\ tk_mr (tok st 0%nat) = mkR 0 5)
  /\ (exists q, at_run 5 (Program_ [StoreM "v" (Equals_ "a"); EqualsF "v"]) "aa" = Pan q)
  /\ (exists q, at_run 5 (Program_ [StoreM "v" (Equals_ "a"); EqualsF "v.start.x"]) "aa" = Pan q)
  /\ (exists st, at_run 5 (Program_ [Equals_ "ab"; PinNOM "p" (FStr "-1..+1") (Equals_ "b")]) "abc"
     = Ret (Ok (SToken 0%nat)) st /\ tk_mr (tok st 2%nat) = mkR 1 2).
Proof. vm_compute; eauto 20. Qed.

(* ---------------------------------------------------------------- C24 *)

(* Store makes itself known under its name before the inner matcher runs;
   only a token replaces that binding *)
Theorem C24_store_token : forall E P m name c s st a st1,
  let self := MStore (SPMatcher m) name true in
  Runs E P m (renamed c name) s (sc_set st s name (VMatcher self)) (Ok (SToken a)) st1 ->
  Runs E P self c s st (Ok (SToken a)) (sc_set st1 s name (VToken a)).
Proof. exact store_token. Qed.
Print Assumptions C24_store_token.

Theorem C24_store_other : forall E P m name c s st r st1,
  let self := MStore (SPMatcher m) name true in
  (forall a, r <> Ok (SToken a)) ->
  Runs E P self c s st r st1 <->
  Runs E P m (renamed c name) s (sc_set st s name (VMatcher self)) r st1.
Proof. exact store_other. Qed.
Print Assumptions C24_store_other.

Theorem C24_failed_store_of_literal : forall E P v name c s st,
  let self := MStore (SPMatcher (MEquals (FStr v) "Equals" false)) name true in
  valid_scope st s -> c_debug c = 0 -> sliceable (p_src P) (c_off c) ->
  (~ exists rest, window (p_src P) (rs (c_off c)) (re (c_off c)) (v ++ rest)) ->
  exists st', Runs E P self c s st (Err FFail) st' /\ st_heap st' = st_heap st /\
    sc_get st' s name = Some (VMatcher self) /\
    (forall s' n, s <> s' \/ name <> n -> sc_get st' s' n = sc_get st s' n).
Proof. exact store_literal_failed. Qed.
Print Assumptions C24_failed_store_of_literal.

Example C24_example :
  let st := mkSt [] [[[(lit "v", VString "old")]]] in
  exec 2 at_env (at_src "b") (StoreM "v" (Equals_ "a")) (at_ctx 0 1) 0%nat st
  = Ret (Err FFail) (mkSt [] [[[(lit "v", VMatcher (StoreM "v" (Equals_ "a")))]]]).
Proof. vm_compute; auto. Qed.

(* ---------------------------------------------------------------- C25 *)

Theorem C25_reference : forall E P t name custom c s st m,
  let st0 := mkSt (st_heap st) (scopes_after st s custom name (MRef (FStr t) name custom)) in
  sc_get st0 s t = Some (VMatcher m) ->
  same_outcomes E P (MRef (FStr t) name custom) c s st m (renamed c name) s st0.
Proof. exact ref_resolves. Qed.
Print Assumptions C25_reference.

Theorem C25_unknown_reference : forall E P t name custom c s st,
  let st0 := mkSt (st_heap st) (scopes_after st s custom name (MRef (FStr t) name custom)) in
  (forall m, sc_get st0 s t <> Some (VMatcher m)) ->
  Runs E P (MRef (FStr t) name custom) c s st
       (Err (FError (mkPE (lit "`Ref` matcher unable to locate target reference `" ++ t ++ lit "`") None))) st0.
Proof. exact ref_unknown. Qed.
Print Assumptions C25_unknown_reference.

Example C25_example :
  let st := mkSt [] [[[(lit "a", VMatcher (Equals_ "x")); (lit "b", VString "x")]]] in
  (exists st', exec 2 at_env (at_src "xy") (Ref_ "a") (at_ctx 0 2) 0%nat st = Ret (Ok (SToken 0%nat)) st')
  /\ exec 2 at_env (at_src "xy") (Ref_ "b") (at_ctx 0 2) 0%nat st
     = Ret (Err (FError (mkPE "`Ref` matcher unable to locate target reference `b`" None))) st.
Proof. vm_compute; eauto. Qed.

(* ---------------------------------------------------------------- C26 *)

(* [enters x M m]: executing [m] first of all executes a reference to [x] *)
Theorem C26_left_recursion : forall E P x M s c st,
  enters x M M -> valid_scope st s -> sc_get st s x = Some (VMatcher M) ->
  Diverges E P M c s st.
Proof. exact left_recursion. Qed.
Print Assumptions C26_left_recursion.

Theorem C26_self_named_reference : forall E P x c s st, valid_scope st s ->
  Diverges E P (MRef (FStr x) x true) c s st.
Proof. exact self_named_ref. Qed.
Print Assumptions C26_self_named_reference.

Theorem C26_reference_cycle : forall E P (R : str -> Prop) s st,
  (forall x, R x -> exists name y, R y /\ sc_get st s x = Some (VMatcher (MRef (FStr y) name false))) ->
  forall x name c, R x -> Diverges E P (MRef (FStr x) name false) c s st.
Proof. exact ref_cycle. Qed.
Print Assumptions C26_reference_cycle.

(* expr <- expr "+" | "1", the classical left recursion *)
Definition expr : matcher :=
  Switch_ [Program_ [Ref_ "expr"; Equals_ "+"]; Equals_ "1"].
Example C26_example :
  forall src c, Diverges at_env (at_src src) expr c 0%nat (mkSt [] [[[(lit "expr", VMatcher expr)]]]).
Proof.
  intros src c. apply (C26_left_recursion at_env (at_src src) "expr" expr).
  - apply en_program; [apply en_program; [apply en_ref_plain|exact I|discriminate]|exact I|discriminate].
  - unfold valid_scope; cbn; auto.
  - reflexivity.
Qed.
