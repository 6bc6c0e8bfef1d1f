(* Properties of debug output. *)
From Verif Require Import Macros Spec SpecMore Samples DebugProofs PropsInvariants.
Open Scope string_scope.
Open Scope list_scope.
Open Scope N_scope.

(* ---------- C38: debug output does not change parsing of ASCII sources ---------- *)

(* With an ASCII source, a grammar of the kind whose contexts stay in range
   (C45) does with Debug matchers and any debug level exactly what it does
   without: it finishes with the same result and tokens, panics alike or runs
   forever alike. *)
Theorem C38_ascii_same : forall E P m c c' s st, debug_blind E -> tame E ->
  fitting (p_src P) (fun _ => True) (fun _ => True) sane_find E -> slen (p_src P) < isize_bound ->
  ascii_only (p_src P) -> debug_placed m -> scopes_debug_placed st ->
  bounded (fun _ => True) sane_find m -> scopes_bounded (fun _ => True) sane_find st ->
  rs (c_off c) <= re (c_off c) <= slen (p_src P) -> silent c c' ->
  forall o, Does E P m c s st o -> Does E P (plain m) c' s (plain_state st) (plain_outcome o).
Proof. exact ascii_debug. Qed.
Print Assumptions C38_ascii_same.

(* and nothing else *)
Theorem C38_ascii_nothing_else : forall E P m c c' s st, debug_blind E -> tame E ->
  fitting (p_src P) (fun _ => True) (fun _ => True) sane_find E -> slen (p_src P) < isize_bound ->
  ascii_only (p_src P) -> debug_placed m -> scopes_debug_placed st ->
  bounded (fun _ => True) sane_find m -> scopes_bounded (fun _ => True) sane_find st ->
  rs (c_off c) <= re (c_off c) <= slen (p_src P) -> silent c c' ->
  forall o', Does E P (plain m) c' s (plain_state st) o' ->
  exists o, Does E P m c s st o /\ o' = plain_outcome o.
Proof. exact ascii_plain. Qed.
Print Assumptions C38_ascii_nothing_else.

(* With any source, any grammar and any context, debug output can only add a
   panic: that of cutting a character apart or leaving the source, or that of an
   overflow. *)
Theorem C38_only_panics : forall E P m c c' s st o,
  debug_blind E -> debug_placed m -> scopes_debug_placed st -> silent c c' -> Does E P m c s st o ->
  (exists p, o = Panicked p /\ (p = PSlice \/ p = POverflow)) \/
  Does E P (plain m) c' s (plain_state st) (plain_outcome o).
Proof. exact debug_loose. Qed.
Print Assumptions C38_only_panics.

Theorem C38_only_panics_back : forall E P m c c' s st r st',
  debug_blind E -> debug_placed m -> scopes_debug_placed st -> silent c c' ->
  Runs E P (plain m) c' s (plain_state st) r st' ->
  (exists p, Panics E P m c s st p /\ (p = PSlice \/ p = POverflow)) \/
  (exists st1, Runs E P m c s st r st1 /\ st' = plain_state st1).
Proof. exact debug_loose_back. Qed.
Print Assumptions C38_only_panics_back.

(* the text that is shown: at most [k] bytes of the window *)
Theorem C38_shown : forall E P c k v, rs (c_off c) + k <= usize_max -> rs (c_off c) <= re (c_off c) ->
  debug_range E P c k = Val v <->
  exists e, (e = rs (c_off c) + k /\ e <= re (c_off c) \/ e = re (c_off c) /\ e < rs (c_off c) + k) /\
    Spec.window (p_src P) (rs (c_off c)) e v /\ sliceable (p_src P) (mkR (rs (c_off c)) e).
Proof. exact shown_text. Qed.
Print Assumptions C38_shown.

Example C38_shown_example :
  debug_range at_env (at_src "abcdefghijkl") (at_ctx 1 4) 10 = Val (lit "bcd") /\
  debug_range at_env (at_src "abcdefghijkl") (at_ctx 1 12) 10 = Val (lit "bcdefghijk").
Proof. now vm_compute. Qed.

(* the sources and grammars of the examples *)
Definition C38_debug (m : matcher) : matcher := MDebug (Some m) 1.
Definition C38_sample : matcher :=
  C38_debug (Program_ [MStore (SPMatcher (C38_debug (Equals_ "a"))) "v" true;
                       MRegister [MProgram [C38_debug (C38_debug (Equals_ "b"))] (mkPI "r" None false true)];
                       C38_debug (MRef (FStr "r") "Ref" false);
                       MDebug None 0]).

(* With a multi-byte source a success can become a panic: the ten bytes that
   are shown end inside of a character. *)
Theorem C38_multibyte_refuted : exists P m c c' r st',
  debug_placed m /\ silent c c' /\ rs (c_off c) <= re (c_off c) <= slen (p_src P) /\
  Runs at_env P (plain m) c' 0%nat (plain_state at_state) r st' /\
  Panics at_env P m c 0%nat at_state PSlice.
Proof.
  exists (at_src "123456789ä"), (C38_debug (Equals_ "1")), (at_ctx 0 11), (at_ctx 0 11).
  eexists. eexists. split.
  { apply (placed_by 4). reflexivity. }
  split; [now repeat split|]. split; [vm_compute; split; discriminate|].
  split; [exists 1%nat; vm_compute; reflexivity|]. exists 2%nat. vm_compute. reflexivity.
Qed.
Print Assumptions C38_multibyte_refuted.

(* and even with an ASCII source when the context leaves the source *)
Theorem C38_outside_refuted : exists P m c c' r st',
  ascii_only (p_src P) /\ debug_placed m /\ silent c c' /\ rs (c_off c) <= re (c_off c) <= slen (p_src P) /\
  Runs at_env P (plain m) c' 0%nat (plain_state at_state) r st' /\
  Panics at_env P m c 0%nat at_state PSlice.
Proof.
  exists (at_src "ab"), (MPin (Some (C38_debug (MBreak "x"))) (FStr "9") "Pin" false), (at_ctx 0 2), (at_ctx 0 2).
  eexists. eexists. split; [now intros x [<-|[<-|[]]]|]. split; [apply (placed_by 4); reflexivity|].
  split; [now repeat split|]. split; [vm_compute; split; discriminate|].
  split; [exists 2%nat; vm_compute; reflexivity|]. exists 3%nat. vm_compute. reflexivity.
Qed.
Print Assumptions C38_outside_refuted.

(* A Debug around a matcher that does not consume does change the outcome: the
   cursor follows the Pin. *)
Theorem C38_not_consuming_refuted : exists P m c r st' r1 st1,
  Runs at_env P (plain m) c 0%nat (plain_state at_state) r st' /\
  Runs at_env P m c 0%nat at_state r1 st1 /\ r <> r1.
Proof.
  exists (at_src "ab"), (Program_ [C38_debug (MPin (Some (Equals_ "b")) (FStr "1") "Pin" false); Equals_ "a"]), (at_ctx 0 2).
  eexists. eexists. eexists. eexists.
  split; [exists 4%nat; vm_compute; reflexivity|]. split; [exists 4%nat; vm_compute; reflexivity|]. discriminate.
Qed.
Print Assumptions C38_not_consuming_refuted.

Example C38_example :
  debug_placed C38_sample /\ bounded (fun _ => True) sane_find C38_sample /\ debug_blind at_env /\
  plain C38_sample <> C38_sample /\ ascii_only (lit "ab") /\
  exists r st', exec 9 at_env (at_src "ab") C38_sample (with_debug (at_ctx 0 2) 3) 0%nat at_state = Ret r st' /\
    r = Ok (SToken 0%nat) /\ plain_state st' <> st' /\
    exec 5 at_env (at_src "ab") (plain C38_sample) (at_ctx 0 2) 0%nat (plain_state at_state) = Ret r (plain_state st').
Proof.
  split; [|split; [|split; [apply handing_blind|split; [discriminate|split]]]].
  - apply (placed_by 9). reflexivity.
  - repeat first [apply bd_debug|apply bd_program|apply bd_store|apply bd_register|apply bd_ref|apply bd_debug_none
                 |apply bd_equals; exact Logic.I|progress intros ? Hx; cbn [In] in Hx; repeat destruct Hx as [<-|Hx]; try contradiction; try discriminate
                 ].
  - now intros x [<-|[<-|[]]].
  - eexists. eexists. split; [vm_compute; reflexivity|]. split; [reflexivity|].
    split; [vm_compute; discriminate|]. vm_compute. reflexivity.
Qed.
