(* C77: no text can be read in two ways that mean different things.  [writes],
   [meaning], [fault_of], [script_text], [all_stated], [script_wrong],
   [last_definition] (SpecSyntax.v). *)
From Verif Require Import UniqueProofs TextProofs PropsPrograms PropsTokenize Samples SampleScripts.
From Verif Require Import SpecScript SpecSyntax.
Open Scope string_scope.
Open Scope list_scope.
Open Scope N_scope.

(* ---------------------------------------------------------------- C77 *)

(* Two patterns at the start of the same text are equally long, have the same
   fault or none, and mean the same. *)
Theorem C77_pattern : forall E p q t u r r', tame E -> tidy E -> ascii_only (t ++ r) -> slen (t ++ r) < isize_bound ->
  writes E p t -> writes E q u -> t ++ r = u ++ r' ->
  (forall x w, r = x :: w -> ~ In x (lit "*+{")) -> (forall x w, r' = x :: w -> ~ In x (lit "*+{")) ->
  t = u /\ fault_of p = fault_of q /\ (fault_of p = None -> meaning p = meaning q).
Proof. exact pattern_unique. Qed.
Print Assumptions C77_pattern.

(* Two readings of a script without imports *)
Theorem C77_alone : forall E src d1 d2, tame E -> tidy E -> ascii_only src -> slen src < isize_bound ->
  script_text E d1 src -> script_text E d2 src ->
  (forall names path, ~ In (Import names path) (s_statements d1)) -> script_fault d1 = None ->
  (forall names path, ~ In (Import names path) (s_statements d2)) /\ script_fault d2 = None /\
  (forall name, s_name name d1 = s_name name d2) /\ map meaning (s_patterns d1) = map meaning (s_patterns d2) /\
  forall x, last_definition x (s_statements d1) = last_definition x (s_statements d2).
Proof. exact alone_unique. Qed.
Print Assumptions C77_alone.

(* Two readings of any script: with every file system and every compiler of
   files that comes to an end, what one does the other does, and if something
   is wrong with one so it is with the other. *)
Theorem C77_script : forall E P F compile name from_file, tame E -> tidy E ->
  ascii_only (p_src P) -> slen (p_src P) < isize_bound -> (forall file s, compile file s <> OOF) ->
  forall d1 d2 st root st1, script_text E d1 (p_src P) -> script_text E d2 (p_src P) ->
  Tokenizes E P (script_ctx P name st) (Script_ E) (script_start E P name st) (TOk root) st1 ->
  (forall s', all_stated F compile (next_sid st1) from_file (s_statements d1) (sc_new st1) s' -> faultless (s_patterns d1) ->
     all_stated F compile (next_sid st1) from_file (s_statements d2) (sc_new st1) s' /\ faultless (s_patterns d2) /\
     s_name name d1 = s_name name d2 /\ map meaning (s_patterns d1) = map meaning (s_patterns d2)) /\
  (forall b, script_wrong F compile (next_sid st1) from_file d1 (sc_new st1) b ->
     exists b', script_wrong F compile (next_sid st1) from_file d2 (sc_new st1) b').
Proof. exact script_unique. Qed.
Print Assumptions C77_script.

(* [tame at_env] and [tidy at_env] are C19_example_tame and C36_example_tidy;
   the text is that of C60_example_text *)
Example C77_example : forall d, script_text at_env d demo_text ->
  map meaning (s_patterns d) =
    [MProgram [MRef (FStr "Any") "Ref" false] (mkPI "Loop" (Some (2, 4)) false false); MDiscard (MNot (Equals_ "it's"))] /\
  s_name "T" d = "List" /\ last_definition "Digit" (s_statements d) = Some (EqualsN "Digit" "7").
Proof.
  intros d H.
  destruct (C77_alone at_env demo_text demo_script d C19_example_tame C36_example_tidy ltac:(apply ascii_text; vm_compute; reflexivity)
              ltac:(reflexivity) demo_written H ltac:(intros ns path; cbn; intuition discriminate) ltac:(reflexivity)) as (_ & _ & H1 & H2 & H3).
  rewrite <- H1, <- H2, <- H3. repeat split.
Qed.
