(* Sample sources, contexts and environments for the examples of the property
   files.  Not part of the model. *)
From Verif Require Export Macros ReEngine.
Open Scope string_scope.
Open Scope list_scope.
Open Scope N_scope.

Definition at_src (src : string) : parser := mkParser src "f.txt".
Definition at_ctx (a b : N) : ctx := mkCtx 0 0%nat [] (mkR a b) "x".

(* closures that hand back what they are given; a user matcher that fails *)
Definition at_env : env :=
  mkEnv true (fun _ a _ _ st => Ret (Ok (SToken a)) st) (fun _ e _ _ st => Ret (Err e) st)
        (fun _ e _ st => Ret (Err e) st) (fun _ _ _ st => Ret (Err FFail) st)
        (fun _ => false) (fun _ => false) (fun _ => false) (fun _ => None).

(* one empty scope, no tokens *)
Definition at_state : state := mkSt [] [[[]]].

(* run a matcher on the whole source from the start *)
Definition at_run (fuel : nat) (m : matcher) (src : string) : res mres :=
  exec fuel at_env (at_src src) m (at_ctx 0 (slen src)) 0%nat at_state.
