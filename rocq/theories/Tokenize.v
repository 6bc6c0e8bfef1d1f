(* ParserContext::new, ParserContext::tokenize, registration and TokenVisitor. *)
From Verif Require Export Exec.
Open Scope string_scope.
Open Scope list_scope.
Open Scope N_scope.

(* src/parser.rs:13-18, Parser::new *)
Definition parser_new (src : str) : parser := mkParser src [].
(* src/parser.rs:20-25, Parser::new_with_file_name *)
Definition parser_named (src file : str) : parser := mkParser src file.

(* src/parser_context.rs:29-38, ParserContext::new: a context that covers the
   whole source, with a fresh scope context *)
Definition context_new (P : parser) (name : str) (st : state) : ctx * state :=
  (mkCtx 0 (next_sid st) [] (mkR 0 (slen (p_src P))) name, sc_new st).

(* The same in a store without tokens and scope contexts. *)
Definition empty_state : state := mkSt [] [].
Definition init_state : state := sc_new empty_state.
Definition init_ctx (P : parser) (name : str) : ctx := fst (context_new P name empty_state).

(* src/parser_context.rs:40-49, new_with_offset *)
Definition context_at (off : range) (name : str) (st : state) : ctx * state :=
  (mkCtx 0 (next_sid st) [] off name, sc_new st).

(* src/parser_context.rs:279-284, register_matcher_with_name *)
Definition register_named (st : state) (c : ctx) (name : str) (m : matcher) : state :=
  sc_set st (c_scope c) name (VMatcher m).
(* src/parser_context.rs:286-290, register_matcher *)
Definition register (st : state) (c : ctx) (m : matcher) : state :=
  register_named st c (m_name m) m.
(* src/parser_context.rs:256-266, register_matchers *)
Definition register_all (st : state) (c : ctx) (ms : list matcher) : state :=
  fold_left (fun st m => register st c m) ms st.
(* src/parser_context.rs:292-297, get_registered_matcher *)
Definition get_registered (st : state) (c : ctx) (name : str) : option matcher :=
  match sc_get st (c_scope c) name with Some (VMatcher m) => Some m | _ => None end.

(* src/parser_context.rs:318-339: move the error children of [a] to the end of
   the children of [root] *)
Definition hoist (root a : addr) (st : state) : state :=
  let t := tok st a in
  let bad := filter (fun k => is_error (tok st k)) (tk_kids t) in
  let good := filter (fun k => negb (is_error (tok st k))) (tk_kids t) in
  let st := modify st a (set_kids good) in
  modify st root (fun r => set_kids (tk_kids r ++ bad) r).

(* src/parser_context.rs:299-340, collect_errors for a token other than the
   root.  [fuel] bounds the depth, as for Exec.error_tokens. *)
Fixpoint collect (fuel : nat) (root a : addr) (st : state) : option state :=
  match fuel with
  | O => None
  | S f =>
      match fold_left (fun o k => match o with Some st => collect f root k st | None => None end)
                      (tk_kids (tok st a)) (Some st) with
      | Some st => Some (hoist root a st)
      | None => None
      end
  end.

(* src/parser_context.rs:299-340, collect_errors called with is_root = true *)
Definition collect_errors (root : addr) (st : state) : option state :=
  fold_left (fun o k => match o with
                        | Some st' => collect (S (List.length (st_heap st))) root k st'
                        | None => None
                        end)
            (tk_kids (tok st root)) (Some st).

(* Result<TokenRef, MatcherFailure> *)
Inductive tres := TOk (a : addr) | TErr (f : failure).

(* src/parser_context.rs:355-375: collect the errors of the resulting token *)
Definition finish_token (a : addr) (st : state) : res tres :=
  match collect_errors a st with
  | Some st => Ret (TOk a) st
  | None => OOF
  end.

(* src/parser_context.rs:342-381, tokenize *)
Definition tokenize (fuel : nat) (E : env) (P : parser) (c : ctx) (m : matcher) (st : state)
  : res tres :=
  do r, st <- exec fuel E P m c (c_scope c) st;
  match r with
  | Ok (SToken a) | Ok (SProxy a) => finish_token a st
  | Ok (SBreak _ (SToken a)) | Ok (SContinue _ (SToken a)) => finish_token a st
  | Ok _ => Ret (TErr FFail) st
  | Err e => Ret (TErr e) st
  end.

(* ---------- TokenVisitor (src/token_visitor.rs) ---------- *)

Section Visitor.
  (* [W] is what the hooks (FnMut closures) can change.  The outcome of a
     hook: done, error returned (which stops the visit), panic, or the hook
     is still running. *)
  Variable W : Type.
  Inductive vres :=
  | VOk (w : W)
  | VErr (w : W) (e : parse_error)
  | VPan (p : panic)
  | VFuel.

  (* A hook sees the token (src/token_visitor.rs:6-9).
     SIMPLIFICATION: hooks do not change the tokens.  In the code a hook runs
     while the token and its ancestors are borrowed (src/token_visitor.rs:43,
     59), so changing one of those would panic; a hook that changes a
     descendant is not modelled. *)
  Definition hook := addr -> W -> vres.

  (* src/token_visitor.rs:25-36, find_hook: first hook with that name *)
  Fixpoint find_hook (hooks : list (str * hook)) (name : str) : option hook :=
    match hooks with
    | [] => None
    | (n, h) :: l => if str_eqb n name then Some h else find_hook l name
    end.

  (* src/token_visitor.rs:45-56, 75: the hook that is run on a token, if any *)
  Definition pick_hook (hooks : list (str * hook)) (name : str) : option hook :=
    match find_hook hooks name with
    | Some h => Some h
    | None => find_hook hooks "*"
    end.

  (* src/token_visitor.rs:45-56: run it *)
  Definition run_hook (hooks : list (str * hook)) (name : str) (a : addr) (w : W) : vres :=
    match pick_hook hooks name with Some h => h a w | None => VOk w end.

  (* src/token_visitor.rs:38-72, _visit.  [fuel] bounds the depth. *)
  Fixpoint visit_go (fuel : nat) (st : state) (hooks : list (str * hook)) (a : addr) (w : W)
    : vres :=
    match fuel with
    | O => VFuel
    | S f =>
        fold_left (fun o k => match o with
                              | VOk w => visit_go f st hooks k w
                              | _ => o
                              end)
                  (tk_kids (tok st a))
                  (run_hook hooks (tk_name (tok st a)) a w)
    end.

  (* src/token_visitor.rs:74-77, visit; a depth larger than the number of
     tokens means a cyclic token graph, on which the code never returns *)
  Definition visit (st : state) (hooks : list (str * hook)) (a : addr) (w : W) : vres :=
    visit_go (S (List.length (st_heap st))) st hooks a w.
End Visitor.
Arguments VOk {W} w.
Arguments VErr {W} w e.
Arguments VPan {W} p.
Arguments VFuel {W}.
Arguments find_hook {W} hooks name.
Arguments pick_hook {W} hooks name.
Arguments run_hook {W} hooks name a w.
Arguments visit_go {W} fuel st hooks a w.
Arguments visit {W} st hooks a w.
