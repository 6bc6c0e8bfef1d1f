(* Matchers that change how results are taken up, assign variables or do
   nothing (C55-C59). *)
From Verif Require Import WrapProofs Samples.
Open Scope string_scope.
Open Scope list_scope.
Open Scope N_scope.

(* ---------------------------------------------------------------- C55 *)

Theorem C55_proxy : forall E P m name custom c s st o,
  let self := MProxy m name custom in
  let st0 := mkSt (st_heap st) (scopes_after st s custom name self) in
  Does E P self c s st o <->
  exists o0, Does E P m (renamed c name) s st0 o0 /\
    match o0 with
    | Done (Ok (SToken a)) st1 => o = Done (Ok (SProxy a)) st1
    | Done (Ok (SBreak n (SToken a))) st1 => o = Done (Ok (SBreak n (SProxy a))) st1
    | Done (Ok (SContinue n (SToken a))) st1 => o = Done (Ok (SContinue n (SProxy a))) st1
    | _ => o = o0
    end.
Proof. exact proxy_does. Qed.
Print Assumptions C55_proxy.

(* the inner program is not in the result, its children are *)
Example C55_example :
  match at_run 5 (Program_ [Equals_ "a"; MProxy (Program_ [Equals_ "b"; Equals_ "c"]) "ProxyChildren" false]) "abc" with
  | Ret (Ok (SToken r)) st => map (fun k => tk_cr (tok st k)) (tk_kids (tok st r)) = [mkR 0 1; mkR 1 2; mkR 2 3]
  | _ => False
  end /\
  (exists st a, at_run 5 (MProxy (Loop_ [Equals_ "a"; MBreak "x"]) "ProxyChildren" false) "ab"
                = Ret (Ok (SBreak "x" (SProxy a))) st) /\
  (exists st, at_run 5 (MProxy (Equals_ "a") "ProxyChildren" false) "b" = Ret (Err FFail) st).
Proof. vm_compute. eauto 10. Qed.

(* ---------------------------------------------------------------- C56 *)

Theorem C56_expand : forall E P m c s st o,
  Does E P (MExpand m) c s st o <->
  exists o0, Does E P m (renamed c "Catch") s st o0 /\
    match o0 with
    | Done (Ok (SToken a)) st1 =>
        exists t, o = Done (Ok (SProxy (List.length (st_heap st1)))) (mkSt (st_heap st1 ++ [t]) (st_scopes st1)) /\
          tk_kids t = [a] /\ plain_token (set_kids [] t) "ExpandRange" (tk_mr (tok st1 a)) /\
          tk_cvalue t = range_text P (tk_mr (tok st1 a)) /\ tk_mvalue t = tk_cvalue t
    | Done (Ok (SProxy a)) st1 =>
        exists t, o = Done (Ok (SProxy a)) (mkSt (upd a t (st_heap st1)) (st_scopes st1)) /\
          tk_cr t = tk_mr (tok st1 a) /\ same_but_captured t (tok st1 a) /\
          (tk_kind t = KStandard -> tk_cvalue t = range_text P (tk_cr t)) /\
          (tk_kind t = KPin -> tk_cvalue t = tk_cvalue (tok st1 a))
    | _ => o = o0
    end.
Proof. exact expand_does. Qed.
Print Assumptions C56_expand.

(* the program around a quoted word captures the quotes, the word does not *)
Example C56_example :
  match at_run 5 (Program_ [MExpand (Sequence_ "'" "'" "\")]) "'ab'" with
  | Ret (Ok (SToken r)) st =>
      tk_cr (tok st r) = mkR 0 4 /\ map (fun k => tk_cr (tok st k)) (tk_kids (tok st r)) = [mkR 1 3]
  | _ => False
  end /\
  match at_run 5 (Program_ [Sequence_ "'" "'" "\"]) "'ab'" with
  | Ret (Ok (SToken r)) st => tk_cr (tok st r) = mkR 1 3
  | _ => False
  end /\
  match at_run 6 (Program_ [MExpand (MProxy (Program_ [Sequence_ "'" "'" "\"]) "ProxyChildren" false)]) "'ab'" with
  | Ret (Ok (SToken r)) st =>
      tk_cr (tok st r) = mkR 0 4 /\ map (fun k => tk_cr (tok st k)) (tk_kids (tok st r)) = [mkR 1 3]
  | _ => False
  end.
Proof. now vm_compute. Qed.

(* ---------------------------------------------------------------- C57 *)

(* a scope that was given replaces the one that was passed *)
Theorem C57_given_scope : forall E P s1 m c s st,
  same_outcomes E P (MSetScope (Some s1) m) c s st m (renamed c "SetScope") s1 st.
Proof. exact set_scope_given. Qed.
Print Assumptions C57_given_scope.

(* without one, the scope context of the parser is used, not the one passed *)
Theorem C57_own_scope : forall E P m c s st o, valid_scope st (c_scope c) ->
  Does E P (MSetScope None m) c s st o <->
  exists st0 o0, entered st (c_scope c) st0 /\ Does E P m (renamed c "SetScope") (c_scope c) st0 o0 /\
    match o0 with
    | Done r st1 => exists st', o = Done r st' /\ exited st1 (c_scope c) st'
    | _ => o = o0
    end.
Proof. exact set_scope_own. Qed.
Print Assumptions C57_own_scope.

(* the scope context 1 has [r], the context of the parser (0) does not *)
Example C57_example :
  let st := mkSt [] [[[]]; [[(lit "r", VMatcher (Equals_ "a"))]]] in
  let run m := exec 5 at_env (at_src "a") m (at_ctx 0 1) 0%nat st in
  (exists st', run (MSetScope (Some 1%nat) (Ref_ "r")) = Ret (Ok (SToken 0%nat)) st') /\
  (exists e st', run (Ref_ "r") = Ret (Err (FError e)) st') /\
  (exists e st', run (MSetScope (Some 1%nat) (MSetScope None (Ref_ "r"))) = Ret (Err (FError e)) st') /\
  run (MSetScope None (StoreS "v" "x")) = Ret (Ok (SSkip 0)) st.
Proof. vm_compute. eauto 10. Qed.

(* ---------------------------------------------------------------- C58 *)

Theorem C58_register : forall E P ms c s st, exists st',
  Runs E P (MRegister ms) c s st (Ok (SSkip 0)) st' /\ st_heap st' = st_heap st /\
  (forall n m, valid_scope st s -> last_named n ms m -> sc_get st' s n = Some (VMatcher m)) /\
  (forall s' n, s' <> s \/ (forall m, In m ms -> m_name m <> n) -> sc_get st' s' n = sc_get st s' n).
Proof. exact register_does. Qed.
Print Assumptions C58_register.

(* so does registering with a parser context, and the matcher is found again *)
Theorem C58_context : forall ms c st n m, valid_scope st (c_scope c) -> last_named n ms m ->
  get_registered (register_all st c ms) c n = Some m.
Proof. exact registered_all. Qed.
Print Assumptions C58_context.

Example C58_example :
  match at_run 1 (MRegister [EqualsN "x" "1"; EqualsN "y" "2"; EqualsN "x" "3"]) "" with
  | Ret (Ok (SSkip 0)) st => sc_get st 0%nat "x" = Some (VMatcher (EqualsN "x" "3")) /\
                             sc_get st 0%nat "y" = Some (VMatcher (EqualsN "y" "2"))
  | _ => False
  end.
Proof. now vm_compute. Qed.

(* ---------------------------------------------------------------- C59 *)

Theorem C59_store_text : forall E P v name c s st, valid_scope st s -> exists st',
  Runs E P (MStore (SPString v) name true) c s st (Ok (SSkip 0)) st' /\ st_heap st' = st_heap st /\
  sc_get st' s name = Some (VString v) /\
  (forall s' n, s <> s' \/ name <> n -> sc_get st' s' n = sc_get st s' n).
Proof. exact store_text. Qed.
Print Assumptions C59_store_text.

Theorem C59_nothing : forall E P m c s st, m = MNull \/ (exists n, m = MFetch n) ->
  Runs E P m c s st (Ok (SSkip 0)) st.
Proof. exact does_nothing. Qed.
Print Assumptions C59_nothing.

Theorem C59_break : forall E P n c s st, Runs E P (MBreak n) c s st (Ok (SBreak n SNone)) st.
Proof. exact break_signals. Qed.
Print Assumptions C59_break.

Example C59_example :
  match at_run 3 (Program_ [StoreS "v" "b"; MNull; MFetch "v"; Equals_ "a"; EqualsF "v"]) "ab" with
  | Ret (Ok (SToken r)) st => tk_cr (tok st r) = mkR 0 2 /\ sc_get st 0%nat "v" = Some (VString "b")
  | _ => False
  end.
Proof. now vm_compute. Qed.
