(* C74: the methods of matchers that show, replace, add and rename parts.  C75:
   equal parts make equal matchers.  [replaces], [patched] etc. are in SpecOps.v,
   [parts] is in SpecMore.v. *)
From Verif Require Import OpsProofs CombProofs Samples.
From Verif Require Import SpecMore.
Open Scope string_scope.
Open Scope list_scope.
Open Scope N_scope.

(* ---------------------------------------------------------------- C74 *)

(* The children a matcher shows are the matchers it executes or registers; Refs
   to a matcher show none. *)
Theorem C74_children : forall m l, get_children m = Some l <->
  l = parts m /\ (holds_one m \/ exists ps, (exists i, m = MProgram ps i) \/ m = MRegister ps).
Proof. exact children_iff. Qed.
Print Assumptions C74_children.

Theorem C74_no_children : forall m, get_children m = None ->
  parts m = [] \/ exists x name b, m = MRef (FMatcher x) name b.
Proof. exact no_children. Qed.
Print Assumptions C74_no_children.

(* Setting a child puts it in the place of the old one and changes nothing else. *)
Theorem C74_set_child : forall n x m m', set_child n x m = Val m' <-> replaces n x m m'.
Proof. exact set_child_iff. Qed.
Print Assumptions C74_set_child.

Theorem C74_set_child_keeps : forall n x m, takes_parts m -> (n < List.length (parts m))%nat ->
  exists m', set_child n x m = Val m' /\ parts m' = upd n x (parts m) /\
             m_name m' = m_name m /\ m_custom m' = m_custom m /\ m_consuming m' = m_consuming m.
Proof. exact set_child_works. Qed.
Print Assumptions C74_set_child_keeps.

(* It panics only for indexes behind the last child and for matchers that do not
   support it; among these are Pin, Store and Register, which do show children. *)
Theorem C74_set_child_panics : forall n x m p, set_child n x m = Die p ->
  (takes_parts m /\ (List.length (parts m) <= n)%nat /\
   p = PMessage "Attempt to set child at an index that is out of bounds") \/
  (~ takes_parts m /\
   p = PMessage (lit "Can not call `set_child` on a `" ++ m_name m ++ lit "` matcher: Operation not supported")).
Proof. exact set_child_panics. Qed.
Print Assumptions C74_set_child_panics.

Theorem C74_shown_can_be_set_refuted : exists m l x,
  get_children m = Some l /\ l <> [] /\ exists p, set_child 0 x m = Die p.
Proof. exact shown_not_set. Qed.
Print Assumptions C74_shown_can_be_set_refuted.

(* The last setting wins; setting what is there already changes nothing. *)
Theorem C74_set_child_last : forall n x y m a b,
  set_child n x m = Val a -> set_child n y a = Val b -> set_child n y m = Val b.
Proof. exact set_child_last. Qed.
Print Assumptions C74_set_child_last.

Theorem C74_set_child_same : forall n x m m',
  replaces n x m m' -> nth_error (parts m) n = Some x -> m' = m.
Proof. exact set_child_same. Qed.
Print Assumptions C74_set_child_same.

(* Patterns can be added to programs and registers only, and come last; a program
   can be built by adding its patterns one after the other. *)
Theorem C74_add_pattern : forall x m m', add_pattern x m = Val m' <->
  (exists ps i, m = MProgram ps i /\ m' = MProgram (ps ++ [x]) i) \/
  (exists ms, m = MRegister ms /\ m' = MRegister (ms ++ [x])).
Proof. exact add_pattern_iff. Qed.
Print Assumptions C74_add_pattern.

Theorem C74_add_patterns : forall xs ps i,
  fold_left (fun m x => let? y := m in add_pattern x y) xs (Val (MProgram ps i)) = Val (MProgram (ps ++ xs) i).
Proof. exact add_all_program. Qed.
Print Assumptions C74_add_patterns.

(* A name given to a matcher with a name field is its name, and its own unless it
   is the default one. *)
Theorem C74_set_name : forall n m d, keeps_name m = Some d ->
  m_name (m_set_name n m) = n /\ (m_custom (m_set_name n m) = true <-> d <> Some n) /\
  parts (m_set_name n m) = parts m.
Proof. exact set_name_own. Qed.
Print Assumptions C74_set_name.

(* The others hand the name on to what they hold, or ignore it. *)
Theorem C74_set_name_inside : forall n m x around,
  hands_on m x around -> m_set_name n m = around (m_set_name n x) /\ m = around x.
Proof. exact set_name_hands. Qed.
Print Assumptions C74_set_name_inside.

Theorem C74_set_name_ignored : forall n m, keeps_name m = None -> (forall x r, ~ hands_on m x r) ->
  m_set_name n m = m \/ exists k, m = MFetch k /\ m_set_name n m = MFetch n.
Proof. exact set_name_other. Qed.
Print Assumptions C74_set_name_ignored.

Theorem C74_set_name_last : forall n k m, m_set_name n (m_set_name k m) = m_set_name n m.
Proof. exact set_name_last. Qed.
Print Assumptions C74_set_name_last.

Theorem C74_set_name_consuming : forall n m, m_consuming (m_set_name n m) = m_consuming m.
Proof. exact set_name_consuming. Qed.
Print Assumptions C74_set_name_consuming.

(* A Store can be made for exactly the names without a dot. *)
Theorem C74_new_store : forall name p,
  (In "."%char name -> new_store name p = Die (PMessage "`Store`: Variable names can not contain `.` characters")) /\
  (~ In "."%char name -> new_store name p = Val (MStore p name true)).
Proof. exact new_store_iff. Qed.
Print Assumptions C74_new_store.

Example C74_example :
  get_children (Program_ [Equals_ "a"; MNull]) = Some [Equals_ "a"; MNull] /\
  set_child 1 (Equals_ "b") (Program_ [Equals_ "a"; MNull]) = Val (Program_ [Equals_ "a"; Equals_ "b"]) /\
  set_child 2 (Equals_ "b") (Program_ [Equals_ "a"; MNull]) = Die out_of_bounds /\
  set_child 0 (Equals_ "b") (MDebug None 1) = Val (MDebug (Some (Equals_ "b")) 1) /\
  add_pattern MNull (Program_ [Equals_ "a"]) = Val (Program_ [Equals_ "a"; MNull]) /\
  m_set_name "x" (MOptional (MDiscard (Equals_ "a"))) = MOptional (MDiscard (MEquals (FStr "a") "x" true)) /\
  new_store "v" (SPString "1") = Val (MStore (SPString "1") "v" true) /\
  new_store "a.b" (SPString "1") = Die (PMessage "`Store`: Variable names can not contain `.` characters").
Proof. repeat split. Qed.

(* ---------------------------------------------------------------- C75 *)

(* Matchers that do the same can be put for each other at any depth of a grammar,
   as long as the matchers around them have no names of their own. *)
Theorem C75_equals_for_equals : forall E P a b, patched E P a b -> interchangeable E P a b.
Proof. exact patched_same. Qed.
Print Assumptions C75_equals_for_equals.

Theorem C75_tokenizes : forall E P a b c st r st', patched E P a b ->
  Tokenizes E P c a st r st' <-> Tokenizes E P c b st r st'.
Proof. exact patched_tokenizes. Qed.
Print Assumptions C75_tokenizes.

(* Some matchers that do the same.  Two negations never fail, so a third one
   changes nothing. *)
Theorem C75_optional_optional : forall E P m, interchangeable E P (MOptional (MOptional m)) (MOptional m).
Proof. exact optional_optional. Qed.
Print Assumptions C75_optional_optional.

Theorem C75_not_not : forall E P m, interchangeable E P (MNot (MNot m)) (MOptional (MNot m)).
Proof. exact not_not. Qed.
Print Assumptions C75_not_not.

Theorem C75_not_not_not : forall E P m, interchangeable E P (MNot (MNot (MNot m))) (MNot (MNot m)).
Proof. exact not_not_not. Qed.
Print Assumptions C75_not_not_not.

Theorem C75_proxy_proxy : forall E P m name,
  interchangeable E P (MProxy (MProxy m name false) name false) (MProxy m name false).
Proof. exact proxy_proxy. Qed.
Print Assumptions C75_proxy_proxy.

Theorem C75_scope_scope : forall E P s1 s2 m,
  interchangeable E P (MSetScope (Some s1) (MSetScope (Some s2) m)) (MSetScope (Some s2) m).
Proof. exact scope_scope. Qed.
Print Assumptions C75_scope_scope.

(* With a name around the place of exchange the executions differ: the scope
   afterwards holds another matcher. *)
Theorem C75_named_refuted : exists E P x y m a b,
  interchangeable E P x y /\ replaces 0 x m a /\ replaces 0 y m b /\ ~ interchangeable E P a b.
Proof. exact named_differ. Qed.
Print Assumptions C75_named_refuted.

(* three levels deep in a grammar *)
Example C75_example : forall E P m,
  patched E P (Loop_ [Equals_ "a"; MDiscard (Switch_ [MOptional (MOptional m); MNot (MNot (MNot m))])])
              (Loop_ [Equals_ "a"; MDiscard (Switch_ [MOptional m; MNot (MNot m)])]).
Proof.
  intros E P m.
  apply (pa_part E P 1 (MDiscard (Switch_ [MOptional (MOptional m); MNot (MNot (MNot m))]))
           (MDiscard (Switch_ [MOptional m; MNot (MNot m)])) (Loop_ [Equals_ "a"; MNull])); [reflexivity| | |].
  - apply (rp_program [Equals_ "a"] MNull []).
  - apply (rp_program [Equals_ "a"] MNull []).
  - eapply (pa_part E P 0); [|apply (rp_discard MNull)|apply (rp_discard MNull)|]; [reflexivity|].
    eapply pa_trans with (y := Switch_ [MOptional m; MNot (MNot (MNot m))]).
    + apply (pa_part E P 0 (MOptional (MOptional m)) (MOptional m) (Switch_ [MNull; MNot (MNot (MNot m))])); [reflexivity| | |].
      * apply (rp_program [] MNull [MNot (MNot (MNot m))]).
      * apply (rp_program [] MNull [MNot (MNot (MNot m))]).
      * apply pa_same, optional_optional.
    + apply (pa_part E P 1 (MNot (MNot (MNot m))) (MNot (MNot m)) (Switch_ [MOptional m; MNull])); [reflexivity| | |].
      * apply (rp_program [MOptional m] MNull []).
      * apply (rp_program [MOptional m] MNull []).
      * apply pa_same, not_not_not.
Qed.
