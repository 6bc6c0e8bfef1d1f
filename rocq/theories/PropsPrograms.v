(* C16-C19, C21, C27-C33: programs, loops, and what executions leave alone.
   [pass], [leads_to], [loops], [rounds], [closes], [takes_payload] (Spec.v)
   describe what a program does with the results of its patterns. *)
From Verif Require Import DepthProofs Samples.
Open Scope string_scope.
Open Scope list_scope.
Open Scope N_scope.

(* ---------------------------------------------------------------- C16 *)

(* a program is one pass over its patterns *)
Theorem C16_program : forall E P c i s st pats,
  c_debug c = 0 -> pi_stop i = false -> pi_iter i = None ->
  let pt := List.length (st_heap st) in
  forall w o,
  pass E P c (pi_name i) s pt pats [] (rs (c_off c)) (program_start P pats i s st) w ->
  leads_to E P pt (rs (c_off c)) w o ->
  Does E P (MProgram pats i) c s st o.
Proof. exact program_does. Qed.
Print Assumptions C16_program.

Theorem C16_program_only : forall E P c i s st pats,
  c_debug c = 0 -> pi_stop i = false -> pi_iter i = None ->
  let pt := List.length (st_heap st) in
  forall o, o <> Never ->
  Does E P (MProgram pats i) c s st o ->
  exists w, pass E P c (pi_name i) s pt pats [] (rs (c_off c)) (program_start P pats i s st) w /\
            leads_to E P pt (rs (c_off c)) w o.
Proof. exact does_program. Qed.
Print Assumptions C16_program_only.

(* nothing runs after a pattern that failed *)
Theorem C16_failure_ends : forall E P c i s st m pre rest l off' st' st1,
  c_debug c = 0 -> pi_stop i = false -> pi_iter i = None ->
  let pt := List.length (st_heap st) in
  chain E P c (pi_name i) s pt pre (rs (c_off c)) (program_start P (pre ++ m :: rest) i s st) l off' st' ->
  Runs E P m (pattern_ctx c (pi_name i) pt off') s st' (Err FFail) st1 ->
  Runs E P (MProgram (pre ++ m :: rest) i) c s st (Err FFail) st1.
Proof. exact chain_fails. Qed.
Print Assumptions C16_failure_ends.

Example C16_example :
  (exists st, at_run 4 (Program_ [Equals_ "ab"; MDiscard (Equals_ ","); Equals_ "c"; MOptional (Equals_ "d")]) "ab,c"
     = Ret (Ok (SToken 0%nat)) st /\ tk_kids (tok st 0%nat) = [1%nat; 4%nat]
     /\ tk_cr (tok st 0%nat) = mkR 0 4 /\ tk_mr (tok st 4%nat) = mkR 3 4)
  /\ (exists st, at_run 4 (Program_ [Equals_ "ab"; Equals_ "x"; MUser 0 "u" false true]) "abc" = Ret (Err FFail) st).
Proof. vm_compute; eauto 20. Qed.

(* ---------------------------------------------------------------- C17, C18 *)

(* the children of the token of a program know it and, if all patterns
   consume, lie within it; the result may be inside a break *)
Theorem C17_children_inside : forall E P pats i c s st r st' a,
  tame E -> pi_stop i = false -> (forall m, In m pats -> m_consuming m = true) ->
  Runs E P (MProgram pats i) c s st r st' -> In a (result_tokens r) ->
  forall k, In k (tk_kids (tok st' a)) -> tk_kind (tok st' k) = KStandard ->
  covers (tk_cr (tok st' a)) (tk_cr (tok st' k)) /\ covers (tk_mr (tok st' a)) (tk_mr (tok st' k)).
Proof. exact program_inside. Qed.
Print Assumptions C17_children_inside.

(* and the ranges are the smallest such ones, if every pattern returned an
   ordinary token *)
Theorem C17_smallest : forall E P c i s st pats l off' st',
  tame E -> c_debug c = 0 -> pi_stop i = false -> pi_iter i = None ->
  let pt := List.length (st_heap st) in
  chain E P c (pi_name i) s pt pats (rs (c_off c)) (program_start P pats i s st) l off' st' ->
  l <> [] ->
  lowest (map (fun a => tk_cr (tok st' a)) l) <> usize_max ->
  lowest (map (fun a => tk_mr (tok st' a)) l) <> usize_max ->
  exists st2,
    Runs E P (MProgram pats i) c s st (Ok (SToken pt)) st2 /\
    tk_kids (tok st2 pt) = l /\ tk_name (tok st2 pt) = pi_name i /\
    tk_cr (tok st2 pt) = hull (map (fun a => tk_cr (tok st2 a)) l) /\
    tk_mr (tok st2 pt) = hull (map (fun a => tk_mr (tok st2 a)) l) /\
    st_scopes st2 = st_scopes st' /\ heap_size st2 = heap_size st' /\
    (forall a, a <> pt -> tok st2 a = tok st' a).
Proof. exact chain_program. Qed.
Print Assumptions C17_smallest.

Theorem C18_children_know_parent : forall E P pats i c s st r st' a,
  tame E -> pi_stop i = false ->
  Runs E P (MProgram pats i) c s st r st' -> In a (result_tokens r) ->
  forall k, In k (tk_kids (tok st' a)) -> tk_parent (tok st' k) = Some a.
Proof. exact program_parent. Qed.
Print Assumptions C18_children_know_parent.

Example C17_example :
  exists st, at_run 5 (Program_ [Sequence_ "<" ">" "\"; Program_ [Equals_ "b"; Equals_ "c"]]) "<a>bc"
     = Ret (Ok (SToken 0%nat)) st /\ tk_kids (tok st 0%nat) = [1%nat; 2%nat]
     /\ tk_cr (tok st 0%nat) = mkR 1 5 /\ tk_mr (tok st 0%nat) = mkR 0 5
     /\ tk_cr (tok st 1%nat) = mkR 1 2 /\ tk_mr (tok st 1%nat) = mkR 0 3
     /\ map (fun k => tk_parent (tok st k)) [0%nat; 1%nat; 2%nat; 3%nat; 4%nat]
        = [None; Some 0%nat; Some 0%nat; Some 2%nat; Some 2%nat].
Proof. vm_compute; eauto 20. Qed.

(* a switch in between hands its token on, so a child's parent is the program *)
Example C18_example :
  exists st, at_run 5 (Program_ [Switch_ [Equals_ "x"; Equals_ "a"]]) "a" = Ret (Ok (SToken 0%nat)) st
     /\ tk_kids (tok st 0%nat) = [2%nat] /\ tk_parent (tok st 2%nat) = Some 0%nat.
Proof. vm_compute; eauto 20. Qed.

(* ---------------------------------------------------------------- C19 *)

(* no token that existed before is changed or returned; [tame]: user code obeys
   the same rule *)
Theorem C19_older_tokens_kept : forall E P m c s st r st',
  tame E -> Runs E P m c s st r st' -> stays_above (heap_size st) st r st'.
Proof. exact runs_frame. Qed.
Print Assumptions C19_older_tokens_kept.

Example C19_example_tame : tame at_env.
Proof.
  intros h st Hh Hf.
  assert (H : forall r, (forall a, In a (result_tokens r) -> (h <= a < heap_size st)%nat) -> stays_above h st r st).
  { intros r Hr. split; [split; auto|]. split; [exact Hf|exact Hr]. }
  split; [|split; [|split]]; cbn.
  - intros k a c s r st' Ha H0. injection H0 as <- <-. apply H. cbn. intros x [<-|[]]. exact Ha.
  - intros k e c s r st' H0. injection H0 as <- <-. apply H. cbn. intros x [].
  - intros k e c r st' H0. injection H0 as <- <-. apply H. cbn. intros x [].
  - intros k c s r st' H0. injection H0 as <- <-. apply H. cbn. intros x [].
Qed.

Example C19_example :
  let old := std_token (at_src "ab") "old" (mkR 0 1) in
  exists st, exec 4 at_env (at_src "ab") (Program_ [Equals_ "a"; Equals_ "b"]) (at_ctx 0 2) 0%nat (mkSt [old] [[[]]])
     = Ret (Ok (SToken 1%nat)) st /\ tok st 0%nat = old /\ heap_size st = 4%nat.
Proof. vm_compute; eauto 20. Qed.

(* ---------------------------------------------------------------- C21 *)

(* only innermost scopes are written; [scope_tame]: user code obeys that rule *)
Theorem C21_outer_scopes_kept : forall E P m c s st r st',
  scope_tame E -> Runs E P m c s st r st' -> outer_scopes_kept st st'.
Proof. exact runs_kept. Qed.
Print Assumptions C21_outer_scopes_kept.

Theorem C21_balanced : forall E P m c s st r st', scope_tame E -> Runs E P m c s st r st' ->
  forall s', List.length (stack_of st' s') = List.length (stack_of st s') \/
  (stack_of st s' = [] /\ List.length (stack_of st' s') = 1%nat).
Proof. exact runs_balanced. Qed.
Print Assumptions C21_balanced.

(* whatever runs in a scope of its own leaves the scopes as they were *)
Theorem C21_own_scope_restored : forall E P m c s st r st',
  scope_tame E -> valid_scope st (c_scope c) ->
  Runs E P (MSetScope None m) c s st r st' -> stack_of st' (c_scope c) = stack_of st (c_scope c).
Proof. exact set_scope_restores. Qed.
Print Assumptions C21_own_scope_restored.

Example C21_example_tame : scope_tame at_env.
Proof.
  split; [|split; [|split]]; intros; cbn in H; injection H as _ <-; split; auto.
Qed.

Example C21_example :
  let m := Program_ [StoreM "v" (Equals_ "a"); MSetScope None (Program_ [StoreM "w" (Equals_ "b"); MSetScope None (StoreM "v" (Equals_ "c"))])] in
  exists st, at_run 8 m "abc" = Ret (Ok (SToken 0%nat)) st
     /\ st_scopes st = [[[(lit "v", VToken 1%nat)]]].
Proof. vm_compute; eauto 20. Qed.

(* ---------------------------------------------------------------- C27 *)

(* a loop with the bounds [lo], [hi] is what [loops] says, with [hi - lo]
   iterations to go *)
Theorem C27_loop : forall E P c i s st pats lo hi o,
  c_debug c = 0 -> pi_stop i = false -> pi_iter i = Some (lo, hi) ->
  loops E P c i lo s (List.length (st_heap st)) pats (hi - lo) 0 [] (rs (c_off c)) (program_start P pats i s st) o ->
  Does E P (MProgram pats i) c s st o.
Proof. exact loop_does. Qed.
Print Assumptions C27_loop.

Theorem C27_loop_only : forall E P c i s st pats lo hi o,
  c_debug c = 0 -> pi_stop i = false -> pi_iter i = Some (lo, hi) -> o <> Never ->
  Does E P (MProgram pats i) c s st o ->
  loops E P c i lo s (List.length (st_heap st)) pats (hi - lo) 0 [] (rs (c_off c)) (program_start P pats i s st) o.
Proof. exact does_loop. Qed.
Print Assumptions C27_loop_only.

(* so there are at most [hi - lo] complete rounds, and fewer only if the pass
   that follows them is not completed *)
Theorem C27_rounds : forall E P c i s st pats lo hi o,
  c_debug c = 0 -> pi_stop i = false -> pi_iter i = Some (lo, hi) -> o <> Never ->
  Does E P (MProgram pats i) c s st o ->
  let pt := List.length (st_heap st) in
  exists n d off st1, n <= hi - lo /\
    rounds E P c i s pt pats n [] (rs (c_off c)) (program_start P pats i s st) d off st1 /\
    (n = hi - lo \/
     exists w, pass E P c (pi_name i) s pt pats d off st1 w /\ forall d' o' st2, w <> AllDone d' o' st2).
Proof. exact loop_runs_rounds. Qed.
Print Assumptions C27_rounds.

(* what was collected is never lost or reordered *)
Theorem C27_in_order : forall E P c i s pt pats n done off st d o st',
  rounds E P c i s pt pats n done off st d o st' -> exists more, d = done ++ more.
Proof. exact rounds_extends. Qed.
Print Assumptions C27_in_order.

(* `Loop!(lo..hi; ..)` is the loop with these bounds *)
Theorem C27_written : forall E P c s st pats lo hi o, c_debug c = 0 -> o <> Never ->
  Does E P (LoopR (Included lo) (Excluded hi) pats) c s st o <->
  loops E P c (mkPI "Loop" (Some (lo, hi)) false false) lo s (List.length (st_heap st)) pats (hi - lo) 0 []
    (rs (c_off c)) (program_start P pats (mkPI "Loop" (Some (lo, hi)) false false) s st) o.
Proof. exact written_loop. Qed.
Print Assumptions C27_written.

(* the end of `Loop!(lo..=hi; ..)` is ignored: any number of copies is taken *)
Theorem C27_inclusive_has_no_end : forall E P c s st v lo hi k,
  c_debug c = 0 -> v <> [] -> literal_run (p_src P) v (c_off c) k -> slen (p_src P) < usize_max ->
  (0 < k)%nat -> lo + N.of_nat k < usize_max ->
  exists st', let pt := List.length (st_heap st) in
    Runs E P (LoopR (Included lo) (Included hi) [Equals_ v]) c s st (Ok (SToken pt)) st' /\
    literal_row st' pt "Equals" v (rs (c_off c)) k.
Proof. exact inclusive_loop. Qed.
Print Assumptions C27_inclusive_has_no_end.

Example C27_inclusive_example :
  exists st, at_run 9 (LoopR (Included 0) (Included 1) [Equals_ "a"]) "aaab"
     = Ret (Ok (SToken 0%nat)) st /\ tk_kids (tok st 0%nat) = [1%nat; 2%nat; 3%nat].
Proof. vm_compute; eauto 20. Qed.

Example C27_example :
  (exists st, at_run 9 (LoopR (Included 1) (Excluded 3) [Equals_ "a"; Equals_ "b"]) "ababab"
     = Ret (Ok (SToken 0%nat)) st /\ tk_kids (tok st 0%nat) = [1%nat; 2%nat; 3%nat; 4%nat]
     /\ map (fun k => tk_cr (tok st k)) [1%nat; 2%nat; 3%nat; 4%nat] = [mkR 0 1; mkR 1 2; mkR 2 3; mkR 3 4])
  /\ (exists st, at_run 9 (LoopR (Included 0) (Excluded 9) [Equals_ "a"; Equals_ "b"]) "ababa"
     = Ret (Ok (SToken 0%nat)) st /\ tk_kids (tok st 0%nat) = [1%nat; 2%nat; 3%nat; 4%nat; 5%nat]).
Proof. vm_compute; eauto 20. Qed.

(* ---------------------------------------------------------------- C28 *)

(* a round that fails ends the loop with what was collected, however small
   the number of rounds *)
Theorem C28_minimum_not_enforced : forall E P c i s st pats lo hi n d off st1 d2 st2 r st',
  c_debug c = 0 -> pi_stop i = false -> pi_iter i = Some (lo, hi) -> n < hi - lo ->
  let pt := List.length (st_heap st) in
  rounds E P c i s pt pats n [] (rs (c_off c)) (program_start P pats i s st) d off st1 ->
  pass E P c (pi_name i) s pt pats d off st1 (NoMatch d2 st2) ->
  closes P pt d2 st2 r st' ->
  Runs E P (MProgram pats i) c s st r st'.
Proof. exact failing_round. Qed.
Print Assumptions C28_minimum_not_enforced.

(* a loop that may run fewer rounds than its minimum fails whenever none of
   them does *)
Theorem C28_minimum_out_of_reach : forall E P c i s st pats lo hi d off st1,
  c_debug c = 0 -> pi_stop i = false -> pi_iter i = Some (lo, hi) -> hi - lo < lo ->
  rounds E P c i s (List.length (st_heap st)) pats (hi - lo) [] (rs (c_off c)) (program_start P pats i s st) d off st1 ->
  Runs E P (MProgram pats i) c s st (Err FFail) st1.
Proof. exact short_loop. Qed.
Print Assumptions C28_minimum_out_of_reach.

(* both for a literal: with enough copies of it, the loop fails *)
Theorem C28_too_many_copies : forall E P c i s st v name custom lo hi k,
  c_debug c = 0 -> pi_stop i = false -> pi_iter i = Some (lo, hi) -> v <> [] ->
  literal_run (p_src P) v (c_off c) k -> slen (p_src P) < usize_max ->
  0 < hi - lo -> hi - lo <= N.of_nat k ->
  let pt := List.length (st_heap st) in
  let m := MEquals (FStr v) name custom in
  exists st', (hi - lo < lo -> Runs E P (MProgram [m] i) c s st (Err FFail) st') /\
              (lo <= hi - lo -> Runs E P (MProgram [m] i) c s st (Ok (SToken pt)) st' /\
                                literal_row st' pt name v (rs (c_off c)) (N.to_nat (hi - lo))).
Proof. exact literal_fills. Qed.
Print Assumptions C28_too_many_copies.

Example C28_example :
  (* `{2,3}`: one match is enough for success, two are a failure *)
  (exists st, at_run 9 (LoopR (Included 2) (Excluded 3) [Equals_ "a"]) "aa" = Ret (Err FFail) st)
  /\ (exists st, at_run 9 (LoopR (Included 3) (Excluded 9) [Equals_ "a"]) "ab" = Ret (Ok (SToken 0%nat)) st
        /\ tk_kids (tok st 0%nat) = [1%nat]).
Proof. vm_compute; eauto 20. Qed.

(* ---------------------------------------------------------------- C29 *)

Theorem C29_zero_matches_fail : forall E P c i s st m ms lo hi st1,
  c_debug c = 0 -> pi_stop i = false -> pi_iter i = Some (lo, hi) -> lo < hi ->
  Runs E P m (pattern_ctx c (pi_name i) (List.length (st_heap st)) (rs (c_off c))) s
       (program_start P (m :: ms) i s st) (Err FFail) st1 ->
  Runs E P (MProgram (m :: ms) i) c s st (Err FFail) st1.
Proof. exact first_fails. Qed.
Print Assumptions C29_zero_matches_fail.

Example C29_example :
  exists st, at_run 3 (Loop_ [Equals_ "a"]) "b" = Ret (Err FFail) st.
Proof. vm_compute; eauto. Qed.

(* ---------------------------------------------------------------- C30 *)

(* as long as there are fewer steps than iterations, the loop is not done *)
Theorem C30_spins : forall E P c i s st pats lo hi,
  pi_stop i = false -> pi_iter i = Some (lo, hi) -> rs (c_off c) <= usize_max ->
  (forall m, In m pats ->
     Runs E P m (pattern_ctx c (pi_name i) (List.length (st_heap st)) (rs (c_off c))) s
          (program_start P pats i s st) (Ok (SSkip 0)) (program_start P pats i s st)) ->
  forall n, N.of_nat n <= hi - lo -> lo < hi -> exec n E P (MProgram pats i) c s st = OOF.
Proof. exact spins_any. Qed.
Print Assumptions C30_spins.

(* it fails in the end *)
Theorem C30_ends : forall E P c i s st pats lo hi,
  c_debug c = 0 -> pi_stop i = false -> pi_iter i = Some (lo, hi) -> rs (c_off c) <= usize_max ->
  (forall m, In m pats ->
     Runs E P m (pattern_ctx c (pi_name i) (List.length (st_heap st)) (rs (c_off c))) s
          (program_start P pats i s st) (Ok (SSkip 0)) (program_start P pats i s st)) ->
  lo < hi -> Runs E P (MProgram pats i) c s st (Err FFail) (program_start P pats i s st).
Proof. exact spin_ends. Qed.
Print Assumptions C30_ends.

Example C30_example :
  at_run 50 (Loop_ [MOptional (Equals_ "a")]) "b" = OOF
  /\ exists st, at_run 50 (LoopR (Included 0) (Excluded 40) [MOptional (Equals_ "a")]) "b" = Ret (Err FFail) st.
Proof. vm_compute; eauto. Qed.

(* ---------------------------------------------------------------- C31 *)

Theorem C31_longest_run : forall E P c i s st v name custom lo hi k,
  c_debug c = 0 -> pi_stop i = false -> pi_iter i = Some (lo, hi) -> v <> [] ->
  literal_run (p_src P) v (c_off c) k -> slen (p_src P) < usize_max ->
  N.of_nat k < hi - lo ->
  let pt := List.length (st_heap st) in
  let m := MEquals (FStr v) name custom in
  exists st', (k = 0%nat -> Runs E P (MProgram [m] i) c s st (Err FFail) st') /\
              ((0 < k)%nat -> Runs E P (MProgram [m] i) c s st (Ok (SToken pt)) st' /\
                              literal_row st' pt name v (rs (c_off c)) k).
Proof. exact literal_stops. Qed.
Print Assumptions C31_longest_run.

Example C31_example :
  exists st, at_run 9 (Loop_ [Equals_ "ab"]) "abababa" = Ret (Ok (SToken 0%nat)) st
     /\ tk_cr (tok st 0%nat) = mkR 0 6 /\ tk_kids (tok st 0%nat) = [1%nat; 2%nat; 3%nat]
     /\ map (fun k => tk_mr (tok st k)) [1%nat; 2%nat; 3%nat] = [mkR 0 2; mkR 2 4; mkR 4 6].
Proof. vm_compute; eauto 20. Qed.

(* ---------------------------------------------------------------- C32 *)

(* after [n] rounds a pattern breaks; [d2] is everything collected, the
   payload last *)
Theorem C32_break_own : forall E P c i s st pats lo hi,
  c_debug c = 0 -> pi_stop i = false -> pi_iter i = Some (lo, hi) ->
  let pt := List.length (st_heap st) in
  forall n d off st1,
  rounds E P c i s pt pats n [] (rs (c_off c)) (program_start P pats i s st) d off st1 -> n < hi - lo ->
  forall nm p d1 d2 o1 o2 st2 st3,
  takes_payload E P pt (rs (c_off c)) d1 o1 st2 p d2 o2 st3 ->
  forall r st', nm = [] \/ nm = pi_name i ->
  pass E P c (pi_name i) s pt pats d off st1 (Signal (SBreak nm p) d1 o1 st2) ->
  closes P pt d2 st3 r st' -> Runs E P (MProgram pats i) c s st r st'.
Proof. exact break_own. Qed.
Print Assumptions C32_break_own.

Theorem C32_break_other : forall E P c i s st pats lo hi,
  c_debug c = 0 -> pi_stop i = false -> pi_iter i = Some (lo, hi) ->
  let pt := List.length (st_heap st) in
  forall n d off st1,
  rounds E P c i s pt pats n [] (rs (c_off c)) (program_start P pats i s st) d off st1 -> n < hi - lo ->
  forall nm p d1 d2 o1 o2 st2 st3,
  takes_payload E P pt (rs (c_off c)) d1 o1 st2 p d2 o2 st3 ->
  forall x st', nm <> [] -> nm <> pi_name i ->
  pass E P c (pi_name i) s pt pats d off st1 (Signal (SBreak nm p) d1 o1 st2) ->
  closes P pt d2 st3 (Ok x) st' -> Runs E P (MProgram pats i) c s st (Ok (SBreak nm x)) st'.
Proof. exact break_other. Qed.
Print Assumptions C32_break_other.

Theorem C32_break_empty : forall E P c i s st pats lo hi,
  c_debug c = 0 -> pi_stop i = false -> pi_iter i = Some (lo, hi) ->
  let pt := List.length (st_heap st) in
  forall n d off st1,
  rounds E P c i s pt pats n [] (rs (c_off c)) (program_start P pats i s st) d off st1 -> n < hi - lo ->
  forall nm p d1 d2 o1 o2 st2 st3,
  takes_payload E P pt (rs (c_off c)) d1 o1 st2 p d2 o2 st3 ->
  forall e st', nm <> [] -> nm <> pi_name i ->
  pass E P c (pi_name i) s pt pats d off st1 (Signal (SBreak nm p) d1 o1 st2) ->
  closes P pt d2 st3 (Err e) st' -> Runs E P (MProgram pats i) c s st (Err e) st'.
Proof. exact break_other_empty. Qed.
Print Assumptions C32_break_empty.

(* a program that is not a loop always passes the break on *)
Theorem C32_break_program : forall E P c i s st pats nm p d1 o1 st2 d2 o2 st3 x st',
  c_debug c = 0 -> pi_stop i = false -> pi_iter i = None ->
  let pt := List.length (st_heap st) in
  pass E P c (pi_name i) s pt pats [] (rs (c_off c)) (program_start P pats i s st) (Signal (SBreak nm p) d1 o1 st2) ->
  takes_payload E P pt (rs (c_off c)) d1 o1 st2 p d2 o2 st3 ->
  closes P pt d2 st3 x st' ->
  Runs E P (MProgram pats i) c s st (match x with Ok y => Ok (SBreak nm y) | Err e => Err e end) st'.
Proof. exact program_break. Qed.
Print Assumptions C32_break_program.

Example C32_example :
  (exists st, at_run 9 (Loop_ [Equals_ "a"; Program_ [Equals_ "b"; MOptional (MBreak "")]; Equals_ "c"]) "abc"
     = Ret (Ok (SToken 0%nat)) st /\ tk_kids (tok st 0%nat) = [1%nat; 2%nat] /\ tk_kids (tok st 2%nat) = [3%nat])
  /\ (exists st, at_run 9 (Loop_ [Equals_ "a"; Equals_ "b"; MBreak "outer"]) "ab"
     = Ret (Ok (SBreak "outer" (SToken 0%nat))) st /\ tk_kids (tok st 0%nat) = [1%nat; 2%nat])
  /\ (exists st, at_run 9 (Loop_ [MOptional (Equals_ "x"); MBreak ""]) "ab" = Ret (Err FFail) st).
Proof. vm_compute; eauto 20. Qed.

(* ---------------------------------------------------------------- C33 *)

Theorem C33_continue_other_loop : forall E P c i s st pats lo hi,
  c_debug c = 0 -> pi_stop i = false -> pi_iter i = Some (lo, hi) ->
  let pt := List.length (st_heap st) in
  forall n d off st1,
  rounds E P c i s pt pats n [] (rs (c_off c)) (program_start P pats i s st) d off st1 -> n < hi - lo ->
  forall nm p d1 d2 o1 o2 st2 st3,
  takes_payload E P pt (rs (c_off c)) d1 o1 st2 p d2 o2 st3 ->
  forall r st', nm <> [] -> nm <> pi_name i ->
  pass E P c (pi_name i) s pt pats d off st1 (Signal (SContinue nm p) d1 o1 st2) ->
  closes P pt d2 st3 r st' -> Runs E P (MProgram pats i) c s st r st'.
Proof. exact continue_other. Qed.
Print Assumptions C33_continue_other_loop.

Theorem C33_continue_program : forall E P c i s st pats nm p d1 o1 st2 d2 o2 st3 r st',
  c_debug c = 0 -> pi_stop i = false -> pi_iter i = None ->
  let pt := List.length (st_heap st) in
  pass E P c (pi_name i) s pt pats [] (rs (c_off c)) (program_start P pats i s st) (Signal (SContinue nm p) d1 o1 st2) ->
  takes_payload E P pt (rs (c_off c)) d1 o1 st2 p d2 o2 st3 ->
  closes P pt d2 st3 r st' ->
  Runs E P (MProgram pats i) c s st r st'.
Proof. exact program_continue. Qed.
Print Assumptions C33_continue_program.

(* [closes] never returns a signal *)
Theorem C33_no_signal : forall P pt d st r st',
  closes P pt d st r st' -> r = Ok (SToken pt) \/ r = Err FFail.
Proof. exact closes_token. Qed.
Print Assumptions C33_no_signal.

Theorem C33_continue_switch : forall E P c i s st m ms nm p st1,
  c_debug c = 0 -> pi_stop i = true -> pi_iter i = None -> rs (c_off c) <= usize_max ->
  Runs E P m (pattern_ctx c (pi_name i) (List.length (st_heap st)) (rs (c_off c))) s
       (program_start P (m :: ms) i s st) (Ok (SContinue nm p)) st1 ->
  Runs E P (MProgram (m :: ms) i) c s st (Ok (SBreak nm p)) st1.
Proof. exact switch_continue. Qed.
Print Assumptions C33_continue_switch.

(* no built-in matcher makes a continue, so these examples use a user matcher *)
Definition c33_env : env :=
  mkEnv true (fun _ a _ _ st => Ret (Ok (SToken a)) st) (fun _ e _ _ st => Ret (Err e) st)
        (fun _ e _ st => Ret (Err e) st) (fun _ _ _ st => Ret (Ok (SContinue "out" SNone)) st)
        (fun _ => false) (fun _ => false) (fun _ => false) (fun _ => None).
Example C33_example :
  let u := MUser 0 "u" false true in
  let run fuel m := exec fuel c33_env (at_src "aa") m (at_ctx 0 2) 0%nat at_state in
  (exists st, run 9%nat (Program_ [Equals_ "a"; u]) = Ret (Ok (SToken 0%nat)) st)
  /\ (exists st, run 9%nat (LoopN "in" [Equals_ "a"; u]) = Ret (Ok (SToken 0%nat)) st)
  /\ (exists st, run 9%nat (Switch_ [u]) = Ret (Ok (SBreak "out" SNone)) st)
  /\ (exists st, run 9%nat (LoopN "out" [Equals_ "a"; u; Equals_ "x"]) = Ret (Ok (SToken 0%nat)) st
        /\ tk_kids (tok st 0%nat) = [1%nat; 2%nat]).
Proof. vm_compute; eauto 20. Qed.
