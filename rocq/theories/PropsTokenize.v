(* C36, C37, C39, C51: tokenizing and visiting.  [hoisted], [nested_errors],
   [root_of], [walks], [hooked], [is_tree] (Spec.v). *)
From Verif Require Import TreeProofs Samples.
Open Scope string_scope.
Open Scope list_scope.
Open Scope N_scope.

(* ---------------------------------------------------------------- C36 *)

(* the whole property, for the result of any grammar *)
Theorem C36_errors_at_root : forall E P c m st a st', tame E -> tidy E ->
  Tokenizes E P c m st (TOk a) st' ->
  exists x st1 l,
    Runs E P m c (c_scope c) st (Ok x) st1 /\ root_of x a /\
    preorder st1 [a] l /\ NoDup l /\ hoisted st1 a st' /\
    (forall b, In b l -> b <> a -> error_kids st' b = []) /\
    Permutation (error_kids st' a) (filter (fun b => is_error (tok st1 b)) (tl l)) /\
    exists l', preorder st' [a] l' /\ Permutation l l'.
Proof. exact tokenize_hoists. Qed.
Print Assumptions C36_errors_at_root.

(* for any tree of tokens *)
Theorem C36_any_tree : forall st root, (root < heap_size st)%nat -> is_tree st root ->
  exists st', collect_errors root st = Some st' /\ hoisted st root st'.
Proof. exact collect_errors_ok. Qed.
Print Assumptions C36_any_tree.

(* [tame at_env] is C19_example_tame *)
Example C36_example_tidy : tidy at_env.
Proof.
  intros h st Hh Hf Ho. split; [|split; [|split]]; cbn; intros;
    match goal with H : Ret _ _ = Ret _ _ |- _ => injection H as <- <- end; exact Ho.
Qed.
(* two errors, at different depths *)
Example C36_example :
  exists n st,
    tokenize n at_env (at_src "abc") (at_ctx 0 3)
      (Program_ [Equals_ "a"; Program_ [Equals_ "b"; MErrorP "one"; Program_ [Equals_ "c"; MErrorP "two"]]]) at_state
    = Ret (TOk 0%nat) st
    /\ tk_kids (tok st 0%nat) = [1%nat; 2%nat; 7%nat; 4%nat]
    /\ tk_kids (tok st 2%nat) = [3%nat; 5%nat] /\ tk_kids (tok st 5%nat) = [6%nat].
Proof. exists 6%nat. eexists. vm_compute. repeat split. Qed.

(* ---------------------------------------------------------------- C37 *)

Theorem C37_token : forall E P c m st a, tame E -> tidy E ->
  ((exists st', Tokenizes E P c m st (TOk a) st') <->
   exists x st1, Runs E P m c (c_scope c) st (Ok x) st1 /\ root_of x a).
Proof. exact tokenize_token. Qed.
Print Assumptions C37_token.

Theorem C37_failure : forall E P c m st e st',
  Tokenizes E P c m st (TErr e) st' <->
  (Runs E P m c (c_scope c) st (Err e) st' \/
   e = FFail /\ exists x, Runs E P m c (c_scope c) st (Ok x) st' /\ forall a, ~ root_of x a).
Proof. exact tokenize_failure. Qed.
Print Assumptions C37_failure.

Example C37_example :
  (exists st, tokenize 3 at_env (at_src "abc") (at_ctx 0 3) (Equals_ "ab") at_state = Ret (TOk 0%nat) st)
  /\ (exists st, tokenize 3 at_env (at_src "abc") (at_ctx 0 3) (MDiscard (Equals_ "ab")) at_state = Ret (TErr FFail) st)
  /\ (exists st, tokenize 3 at_env (at_src "abc") (at_ctx 0 3) (MBreak "x") at_state = Ret (TErr FFail) st)
  /\ (exists e st, tokenize 3 at_env (at_src "abc") (at_ctx 0 3) (MPanic "no") at_state = Ret (TErr (FError e)) st).
Proof. repeat split; vm_compute; eauto. Qed.

(* ---------------------------------------------------------------- C39 *)

(* the whole outcome of a visit *)
Theorem C39_visit : forall (W : Type) (hooks : list (str * hook W)) st a l w r,
  preorder st [a] l -> (visit st hooks a w = r <-> walks hooks st l w r).
Proof. exact (@visit_walks). Qed.
Print Assumptions C39_visit.

(* a token that is its own child is visited forever *)
Theorem C39_cycle : forall (W : Type) (hooks : list (str * hook W)) st a w,
  (forall n w, exists w', run_hook hooks n a w = VOk w') ->
  tk_kids (tok st a) = [a] -> forall f, visit_go f st hooks a w = VFuel.
Proof. exact (@visit_cycle). Qed.
Print Assumptions C39_cycle.

Example C39_example :
  let tk n ks := mkTok KStandard blank_range blank_range n None "" "" None ks [] 0 in
  let st := mkSt [tk "A" [1%nat; 3%nat]; tk "B" [2%nat]; tk "C" []; tk "A" [4%nat]; tk "D" []] [] in
  let log (s : str) : hook (list (str * addr)) := fun a w => VOk (w ++ [(s, a)]) in
  visit st [(lit "A", log "a1"); (lit "*", log "any"); (lit "A", log "a2")] 0%nat []
    = VOk [(lit "a1", 0%nat); (lit "any", 1%nat); (lit "any", 2%nat); (lit "a1", 3%nat); (lit "any", 4%nat)]
  /\ preorder st [0%nat] [0%nat; 1%nat; 2%nat; 3%nat; 4%nat]
  /\ visit st [(lit "*", log "any"); (lit "C", fun a w => VErr w (mkPE "no" None))] 0%nat []
     = VErr [(lit "any", 0%nat); (lit "any", 1%nat)] (mkPE "no" None).
Proof.
  cbn zeta. split; [reflexivity|]. split; [|reflexivity].
  apply (pre_cons _ 0%nat [] [1%nat; 2%nat; 3%nat; 4%nat] []); [|constructor].
  apply (pre_cons _ 1%nat [3%nat] [2%nat] [3%nat; 4%nat]).
  - apply (pre_cons _ 2%nat [] [] []); constructor.
  - apply (pre_cons _ 3%nat [] [4%nat] []); [|constructor]. apply (pre_cons _ 4%nat [] [] []); constructor.
Qed.

(* ---------------------------------------------------------------- C51 *)

(* no token occurs twice in a result *)
Theorem C51_trees : forall E P m c s st r st', tame E -> tidy E ->
  Runs E P m c s st r st' -> forall a, In a (result_tokens r) -> is_tree st' a.
Proof. exact runs_trees. Qed.
Print Assumptions C51_trees.

(* and no token made on the way has an error with children below it *)
Theorem C51_all_tokens : forall E P m c s st r st', tame E -> tidy E ->
  Runs E P m c s st r st' -> orderly (heap_size st) st'.
Proof. exact runs_orderly. Qed.
Print Assumptions C51_all_tokens.

Example C51_example :
  exists st, at_run 7 (Program_ [Equals_ "a"; MProxy (Loop_ [Equals_ "b"]) "P" false; MDiscard (Program_ [Equals_ "c"; MErrorP "x"])]) "abbc"
    = Ret (Ok (SToken 0%nat)) st /\ tk_kids (tok st 0%nat) = [1%nat; 3%nat; 4%nat; 8%nat]
    /\ tk_kids (tok st 8%nat) = [7%nat] /\ tk_kids (tok st 2%nat) = [3%nat; 4%nat].
Proof. vm_compute; eauto 20. Qed.
