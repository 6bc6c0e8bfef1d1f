(* Executable model of Matcher::exec for every matcher of src/matchers. *)
From Verif Require Export Context.
Open Scope string_scope.
Open Scope list_scope.
Open Scope N_scope.

(* use a pure, possibly panicking computation inside a stateful one *)
Notation "'let!' x := m 'in' k" :=
  (match m with Val x => k | Die pp => Pan pp end)
  (at level 200, x pattern, m at level 100, k at level 200).

(* src/matcher.rs:36-42, before_exec (no matcher of the repository overrides it) *)
Definition before_exec (m : matcher) (s : sid) (st : state) : state :=
  if m_custom m then sc_set st s (m_name m) (VMatcher m) else st.

(* ---------- Fetchable (src/matchers/fetch.rs) ---------- *)

(* src/matchers/fetch.rs:6-9, FetchableType *)
Inductive fetched := GStr (s : str) | GMatcher (m : matcher).

(* src/matchers/fetch.rs:23-26, 51-54, 61-64, 71: panic messages *)
Definition bad_ref (name : str) (what : string) : panic :=
  PMessage (lit "Invalid variable reference `" ++ name ++ lit "`: " ++ lit what).

(* src/matchers/fetch.rs:32-55, the sub-names of a token variable *)
Definition fetch_token (t : token) (name sub_name : str) : may str :=
  if str_eqb sub_name "captured_value" then Val (get_value t)
  else if str_eqb sub_name "matched_value" then Val (get_mvalue t)
  else if str_eqb sub_name "start" then Val (dec (rs (tk_mr t)))
  else if str_eqb sub_name "end" then Val (dec (re (tk_mr t)))
  else if str_eqb sub_name "captured_start" then Val (dec (rs (tk_cr t)))
  else if str_eqb sub_name "captured_end" then Val (dec (re (tk_cr t)))
  else if str_eqb sub_name "range" then
    Val (dec (rs (tk_mr t)) ++ lit ".." ++ dec (re (tk_mr t)))
  else if str_eqb sub_name "captured_range" then
    Val (dec (rs (tk_cr t)) ++ lit ".." ++ dec (re (tk_cr t)))
  else Die (bad_ref name "Don't know how to fetch this value on a Token reference").

(* src/matchers/fetch.rs:15-75 (FetchPattern), 77-93 (strings), 95-99 (matchers) *)
Definition fetch_value (st : state) (s : sid) (f : fetchable) : may fetched :=
  match f with
  | FStr v => Val (GStr v)
  | FMatcher m => Val (GMatcher m)
  | FFetch name =>
      let path := split "." name in
      match sc_get st s (hd [] path) with
      | Some (VToken a) =>
          match path with
          | [_; sub_name] => let? v := fetch_token (tok st a) name sub_name in Val (GStr v)
          | _ => Die (bad_ref name "Don't know how to fetch this value on a Token reference")
          end
      | Some (VString v) =>
          match path with
          | _ :: _ :: _ => Die (bad_ref name "Don't know how to fetch this value on a String reference")
          | _ => Val (GStr v)
          end
      | Some (VMatcher m) => Val (GMatcher m)
      | None => Die (bad_ref name "Not found")
      end
  end.

(* ---------- error tokens (src/matchers/error.rs) ---------- *)

(* src/matchers/error.rs:27-45, new_error_token_with_range *)
Definition error_token_at (E : env) (P : parser) (msg : str) (r : range) (st : state) : res mres :=
  let! text := error_string E P msg r in
  let t := enable_flags IS_ERROR (set_attr "__message" text (std_token P "Error" r)) in
  Ret (Ok (SToken (next_addr st))) (alloc st t).

(* src/matchers/error.rs:10-25, new_error_token *)
Definition error_token (E : env) (P : parser) (msg : str) (c : ctx) (st : state) : res mres :=
  error_token_at E P msg (mkR (rs (c_off c)) (rs (c_off c))) st.

(* ---------- Map closures ---------- *)

(* `token.borrow_mut()` followed by a method call, e.g. program.rs:620-625 *)
Definition modify (st : state) (a : addr) (f : token -> token) : state :=
  set_tok st a (f (tok st a)).

(* src/script/v1/parser.rs:183-191: add the attributes the token does not have *)
Definition add_missing_attrs (l : list (str * str)) (t : token) : token :=
  fold_left (fun t kv => match get_attr (fst kv) t with
                         | Some _ => t
                         | None => set_attr (fst kv) (snd kv) t
                         end) l t.

(* adextopa_macros/src/lib.rs:99-105, set_value *)
Definition set_value (v : str) (t : token) : token :=
  mkTok (tk_kind t) (tk_cr t) (tk_mr t) (tk_name t)
        (match v with [] => None | _ => Some v end)
        (tk_cvalue t) (tk_mvalue t) (tk_parent t) (tk_kids t) (tk_attrs t) (tk_flags t).

(* src/script/v1/matchers/pattern_definition.rs:43-53 and adextopa_scope.rs:35-51:
   the (attribute token, name, value) triples of the "Attributes" child;
   children[0] / children[1] panic when missing *)
Fixpoint attr_pairs (st : state) (l : list addr) : may (list (addr * str * str)) :=
  match l with
  | [] => Val []
  | a :: l' =>
      match tk_kids (tok st a) with
      | n :: v :: _ =>
          let? rest := attr_pairs st l' in
          Val ((a, get_value (tok st n), get_value (tok st v)) :: rest)
      | _ => Die PIndex
      end
  end.
(* same lines: find_child("Attributes") *)
Definition attributes_of (st : state) (a : addr) : may (list (addr * str * str)) :=
  match find_child st (tok st a) "Attributes" with
  | Some at_ => attr_pairs st (tk_kids (tok st at_))
  | None => Val []
  end.
(* src/script/v1/matchers/pattern_definition.rs:51, adextopa_scope.rs:49 *)
Definition set_attrs (l : list (addr * str * str)) (t : token) : token :=
  fold_left (fun t p => set_attr (snd (fst p)) (snd p) t) l t.

(* src/script/v1/matchers/regex_matcher.rs:35-49: hull of the "Part" children *)
Definition part_hull (st : state) (l : list addr) : range :=
  fold_left (fun r a =>
    if str_eqb (tk_name (tok st a)) "Part" then
      let m := tk_mr (tok st a) in
      mkR (if (rs r =? usize_max) || (rs m <? rs r) then rs m else rs r)
          (if (re r =? usize_max) || (re r <? re m) then re m else re r)
    else r) l (mkR usize_max usize_max).

(* src/script/v1/matchers/adextopa_scope.rs:45-47: the last attribute called
   "version" *)
Definition version_attr (l : list (addr * str * str)) : option addr :=
  fold_left (fun o p => if str_eqb (snd (fst p)) "version" then Some (fst (fst p)) else o) l None.

(* success closures: src/matchers/fatal_if.rs:6-17, fatal_if_not.rs:6-11,
   assert_if.rs:20-28, assert_if_not.rs:20-25, src/script/v1/parser.rs:182-194,
   394-399, src/script/v1/matchers/pattern_definition.rs:40-56,
   regex_matcher.rs:29-56, adextopa_scope.rs:29-75, pattern_scope.rs:12-23,
   script.rs:16-26 *)
Definition map_ok (E : env) (P : parser) (f : mapfn) (a : addr) (c : ctx) (s : sid) (st : state)
  : res mres :=
  let t := tok st a in
  match f with
  | MapUser k => e_map_ok E k a c s st
  | MapFatalIf msg =>
      let! text := error_string E P msg (tk_mr t) in
      Ret (Err (FError (mkPE text (Some (tk_mr t))))) st
  | MapFatalIfNot _ | MapAssertIfNot _ => Ret (Ok (SSkip 0)) st
  | MapAssertIf msg => error_token_at E P msg (tk_mr t) st
  | MapAttrs l => Ret (Ok (SToken a)) (modify st a (add_missing_attrs l))
  | MapRename n => Ret (Ok (SToken a)) (modify st a (set_tname n))
  | MapPatternDef =>
      let! l := attributes_of st a in
      Ret (Ok (SToken a)) (modify st a (set_attrs l))
  | MapRegex =>
      Ret (Ok (SToken a)) (modify st a (set_value (range_text P (part_hull st (tk_kids t)))))
  | MapAdextopaScope =>
      let! l := attributes_of st a in
      let st := modify st a (set_attrs l) in
      let t := tok st a in
      match get_attr "version" t with
      | None =>
          let r := match find_child st t "EndOfScopeHeader" with
                   | Some p => mkR (rs (tk_mr t)) (re (tk_mr (tok st p)))
                   | None => tk_mr t
                   end in
          error_token_at E P "Adextopa scope must have a 'version' attribute" r st
      | Some v =>
          match parse_usize v with
          | Some _ => Ret (Ok (SToken a)) st
          | None =>
              match version_attr l with
              | Some va =>
                  error_token_at E P "Adextopa 'version' attribute must be a valid integer number"
                                 (tk_mr (tok st va)) st
              | None => Pan PUnwrap
              end
          end
      end
  | MapPatternScope =>
      if re (tk_mr t) <? slen (p_src P) then
        let! rest := src_slice P (re (tk_mr t)) (slen (p_src P)) in
        error_token E P (lit "Syntax error. Expected a pattern defintion, but instead found: " ++ rest) c st
      else Ret (Ok (SToken a)) st
  | MapScript =>
      match find_child st t "AdextopaScope", find_child st t "PatternScope" with
      | None, None => error_token_at E P "Nothing to parse. No scopes found." (tk_mr t) st
      | _, _ => Ret (Ok (SToken a)) st
      end
  end.

(* failure closures: src/matchers/fatal_if.rs:18-28, fatal_if_not.rs:12-30,
   assert_if.rs:29-39, assert_if_not.rs:26-45; the one-closure form of Map! uses
   a failure closure that returns the failure (src/matchers/map.rs:154-156) *)
Definition map_err (E : env) (P : parser) (f : mapfn) (e : failure) (c : ctx) (s : sid) (st : state)
  : res mres :=
  match f, e with
  | MapUser k, _ => e_map_err E k e c s st
  | MapFatalIf _, FFail | MapAssertIf _, FFail => Ret (Ok (SSkip 0)) st
  | MapFatalIfNot msg, FFail =>
      let! text := error_string E P msg (c_off c) in
      Ret (Err (FError (mkPE text (Some (c_off c))))) st
  | MapAssertIfNot msg, FFail => error_token E P msg c st
  | _, _ => Ret (Err e) st
  end.

(* ---------- Discard (src/matchers/discard.rs) ---------- *)

(* src/matchers/discard.rs:99-133, the tokens with IS_ERROR in pre-order.
   [fuel] bounds the depth: a depth larger than the number of tokens means a
   cyclic token graph, on which the Rust recursion never returns. *)
Fixpoint error_tokens (fuel : nat) (st : state) (a : addr) : option (list addr) :=
  match fuel with
  | O => None
  | S f =>
      let t := tok st a in
      fold_left (fun acc k =>
                   match acc, error_tokens f st k with
                   | Some l, Some l' => Some (l ++ l')
                   | _, _ => None
                   end)
                (tk_kids t)
                (Some (if is_error t then [a] else []))
  end.

(* src/matchers/discard.rs:106-123: widen the matched range *)
Definition widen (P : parser) (r : range) (t : token) : token :=
  let o := tk_mr t in
  let n := mkR (if rs r <? rs o then rs r else rs o) (if re o <? re r then re r else re o) in
  if negb (rs n =? rs o) || negb (re n =? re o) then set_mr P n t else t.

(* src/matchers/discard.rs:99-124: what happens to error_token for each error *)
Definition add_errors (P : parser) (st : state) (l : list addr) (t : token) : token :=
  fold_left (fun t e => widen P (tk_mr (tok st e)) (set_kids (tk_kids t ++ [e]) t)) l t.

(* src/matchers/discard.rs:135-153, skip_token *)
Definition skip_token (E : env) (P : parser) (start : N) (a : addr) (st : state) : res success :=
  let stop := re (tk_mr (tok st a)) in
  let et := std_token P "Error" (mkR start stop) in
  match error_tokens (S (List.length (st_heap st))) st a with
  | None => OOF
  | Some l =>
      let st' := alloc st (add_errors P st l et) in
      match l with
      | _ :: _ => Ret (SToken (next_addr st)) st'
      | [] =>
          let! d := or_die POverflow (isize_sub (e_checks E) (as_isize stop) (as_isize start)) in
          Ret (SSkip d) st'
      end
  end.

(* src/matchers/discard.rs:43-65, 67-89: payload of Break / Continue *)
Definition discard_payload (E : env) (P : parser) (start : N) (p : success) (st : state)
  : res success :=
  match p with
  | SToken a | SProxy a => skip_token E P start a st
  | SSkip z => Ret (SSkip z) st
  | SNone => Ret SNone st
  | SStop => Ret SStop st
  | SBreak _ _ | SContinue _ _ => Pan PUnreachable
  end.

(* src/matchers/discard.rs:34-95: result of the inner matcher to own result *)
Definition discard_result (E : env) (P : parser) (start : N) (r : mres) (st : state) : res mres :=
  match r with
  | Ok (SToken a) | Ok (SProxy a) => do x, st <- skip_token E P start a st; Ret (Ok x) st
  | Ok (SBreak n p) => do x, st <- discard_payload E P start p st; Ret (Ok (SBreak n x)) st
  | Ok (SContinue n p) => do x, st <- discard_payload E P start p st; Ret (Ok (SContinue n x)) st
  | _ => Ret r st
  end.

(* ---------- Pin (src/matchers/pin.rs) ---------- *)

(* src/matchers/pin.rs:14-27, EMPTY_OFFSET and is_empty_offset.  `$` without
   the multi-line flag only matches at the very end. *)
Definition is_empty_offset (s : str) : bool :=
  str_eqb s "" || str_eqb s "+" || str_eqb s "-" || str_eqb s "+0" || str_eqb s "-0".

(* src/matchers/pin.rs:29-64, parse_offset *)
Definition parse_offset (E : env) (start stop : N) (s : str) : may N :=
  if is_empty_offset s then Val stop
  else
    let? prefix := or_die PSlice (slice s 0 1) in
    let minus := str_eqb prefix "-" in
    let has_prefix := str_eqb prefix "+" || minus in
    match parse_usize (if has_prefix then tl s else s) with
    | Some off =>
        if has_prefix then
          or_die POverflow (if minus then usize_sub (e_checks E) start off
                            else usize_add (e_checks E) start off)
        else Val off
    | None => Die (PMessage (lit "Error while attempting to parse `Pin` start offset [" ++ s ++ lit "]"))
    end.

(* src/matchers/pin.rs:333-348: the context after applying the offset *)
Definition pin_context (E : env) (c : ctx) (v : str) : may ctx :=
  let parts := split ".." v in
  let? s := parse_offset E (rs (c_off c)) (rs (c_off c)) (hd [] parts) in
  let c := with_start c s in
  match parts with
  | _ :: p1 :: _ =>
      let? e := parse_offset E (rs (c_off c)) (re (c_off c)) p1 in
      Val (with_end c e)
  | _ => Val c
  end.

(* ---------- Sequence (src/matchers/sequence.rs) ---------- *)

(* Outcome of the scan loop: the end pattern was found at offset [i] and the
   joined parts are [v]; the end of the range was reached; out of fuel. *)
Inductive scan := Found (i : N) (v : str) | NotFound | ScanFuel.

(* src/matchers/sequence.rs:143-227, the scan loop.  [index] grows in every
   step, so [fuel] > number of bytes is enough. *)
Fixpoint seq_scan (fuel : nat) (P : parser) (c : ctx) (ep esc : str) (index prev : N) (parts : str)
  : may scan :=
  match fuel with
  | O => Val ScanFuel
  | S f =>
      if re (c_off c) <=? index then Val NotFound
      else
        let? r := matches_str_at P c ep index in
        match r with
        | Some _ =>
            let? part := (if prev <? index then src_slice P prev index else Val []) in
            Val (Found index (parts ++ part))
        | None =>
            let? r := matches_str_at P c esc index in
            match r with
            | Some er =>
                let? part := (if prev <? index then src_slice P prev index else Val []) in
                seq_scan f P c ep esc (re er + 1) (re er) (parts ++ part)
            | None => seq_scan f P c ep esc (index + 1) prev parts
            end
        end
  end.

(* src/matchers/equals.rs:116-120, sequence.rs:87-89, 99-101, 110-112 *)
Definition not_a_string (what arg : string) (n : str) : mres :=
  Err (FError (mkPE (lit "`" ++ lit what ++ lit "` (" ++ n ++ lit ") matcher received another matcher as a "
                     ++ lit arg ++ lit "... this makes no sense... aborting...") None)).

(* src/matchers/sequence.rs:68-228 *)
Definition exec_sequence (E : env) (P : parser) (fs fe fx : fetchable) (name : str)
  (c0 : ctx) (s : sid) (st : state) : res mres :=
  let c := clone_with_name c0 name in
  let start := rs (c_off c) in
  let! g := fetch_value st s fs in
  match g with
  | GMatcher _ => Ret (not_a_string "Sequence" "`start_pattern`" name) st
  | GStr sp =>
  if slen sp =? 0 then Pan (PMessage "Sequence `start` pattern of """" makes no sense") else
  let! g := fetch_value st s fe in
  match g with
  | GMatcher _ => Ret (not_a_string "Sequence" "`end_pattern`" name) st
  | GStr ep =>
  if slen ep =? 0 then Pan (PMessage "Sequence `end` pattern of """" makes no sense") else
  let! g := fetch_value st s fx in
  match g with
  | GMatcher _ => Ret (not_a_string "Sequence" "`end_pattern`" name) st
  | GStr esc =>
  let! m := matches_str P c sp in
  match m with
  | None => let! _ := dbg E P c 10 in Ret (Err FFail) st
  | Some r =>
      let! o := seq_scan (S (List.length (p_src P))) P c ep esc (re r) (re r) [] in
      match o with
      | ScanFuel => OOF
      | NotFound => let! _ := dbg E P c 10 in Ret (Err FFail) st
      | Found i v =>
          let t := std_token2 P name (mkR (start + slen sp) i) (mkR start (i + slen ep)) in
          let! _ := dbg E P c (i + slen ep - start) in
          Ret (Ok (SToken (next_addr st))) (alloc st (set_attr "__value" v t))
      end
  end end end end.

(* ---------- Program / Switch / Loop (src/matchers/program.rs) ---------- *)

(* src/matchers/program.rs:166-168 and sub_context.offset.start: the mutable
   local state of an execution *)
Record pst := mkPst { ps_off : N; ps_kids : list addr; ps_cr : range; ps_mr : range }.

(* src/matchers/program.rs:574-582 *)
Definition contain (t s : range) : range :=
  mkR (if rs s <? rs t then rs s else rs t) (if re t <? re s then re s else re t).

(* src/matchers/program.rs:630-700, add_token_to_children *)
Definition add_token (P : parser) (pt : addr) (a : addr) (assert_fwd upd_off : bool)
  (ps : pst) (st : state) : res pst :=
  let t := tok st a in
  if negb (is_error t) && assert_fwd && upd_off && (re (tk_mr t) =? ps_off ps) then Pan PNotForward
  else
    let t1 := if is_error t && (rs (tk_mr t) =? re (tk_mr t))
              then let n := mkR (rs (ps_mr ps)) (re (tk_mr t)) in set_mr P n (set_cr P n t)
              else t in
    Ret (mkPst (if upd_off then re (tk_mr t1) else ps_off ps)
               (ps_kids ps ++ [a])
               (if upd_off then contain (ps_cr ps) (tk_cr t1) else ps_cr ps)
               (if upd_off then contain (ps_mr ps) (tk_mr t1) else ps_mr ps))
        (set_tok st a (set_parent (Some pt) t1)).

(* src/matchers/program.rs:702-754, handle_token *)
Definition handle_token (P : parser) (pt a : addr) (assert_fwd upd_off : bool) (ps : pst) (st : state)
  : res pst :=
  add_token P pt a assert_fwd (upd_off && negb (should_discard (tok st a))) ps st.

(* src/matchers/program.rs:806-837: the loop over the extracted children.
   Adding a token that is its own child would borrow it mutably while it is
   borrowed at 766. *)
Fixpoint extract_children (P : parser) (pt self : addr) (upd_off : bool) (l : list addr)
  (ps : pst) (st : state) : res pst :=
  match l with
  | [] => Ret ps st
  | k :: l' =>
      if should_discard (tok st k) then extract_children P pt self upd_off l' ps st
      else if Nat.eqb k self then Pan PBorrow
      else do ps, st <- add_token P pt k false upd_off ps st;
           extract_children P pt self upd_off l' ps st
  end.

(* src/matchers/program.rs:756-838, handle_extract_token *)
Definition handle_extract (P : parser) (pt a : addr) (upd_off : bool) (ps : pst) (st : state) : res pst :=
  let t := tok st a in
  let u := upd_off && negb (should_discard t) in
  let ps := if u then mkPst (re (tk_mr t)) (ps_kids ps) (contain (ps_cr ps) (tk_cr t))
                            (contain (ps_mr ps) (tk_mr t))
            else ps in
  extract_children P pt a u (tk_kids t) ps st.

(* src/matchers/program.rs:840-869, handle_skip *)
Definition handle_skip (E : env) (start : N) (z : Z) (ps : pst) (st : state) : res pst :=
  let! n := or_die POverflow (usize_add (e_checks E) (ps_off ps) (as_usize z)) in
  Ret (mkPst n (ps_kids ps) (ps_cr ps) (contain (ps_mr ps) (mkR start n))) st.

(* src/matchers/program.rs:584-628, finalize_program_token *)
Definition finalize (P : parser) (i : pinfo) (pt : addr) (ps : pst) (count : N) (strict : bool)
  (st : state) : res mres :=
  let fail := Ret (Err FFail) st in
  let collected :=
    if (rs (ps_cr ps) =? usize_max) || (rs (ps_mr ps) =? usize_max) then fail
    else match ps_kids ps with
         | [] => fail
         | _ => Ret (Ok (SToken pt))
                    (modify st pt (fun t => set_mr P (ps_mr ps) (set_cr P (ps_cr ps)
                                              (set_kids (ps_kids ps) t))))
         end in
  match strict, pi_iter i with
  | true, Some (lo, _) =>
      if (lo =? 0) && (count =? 0) && (match ps_kids ps with [] => true | _ => false end)
      then Ret (Ok (SSkip 0)) st
      else if count <? lo then fail else collected
  | _, _ => collected
  end.

(* How the loop over the patterns ended: all patterns done, `break` with an
   iteration_result (298), or `return`. *)
Inductive ctl := CDone | CAct (s : success) | CRet (r : mres).

(* the type of Matcher::exec (src/matcher.rs:46-51) *)
Definition recT := matcher -> ctx -> sid -> state -> res mres.

(* src/matchers/program.rs:187-352, the loop over the patterns *)
Fixpoint run_patterns (E : env) (P : parser) (rec : recT) (i : pinfo) (c : ctx) (s : sid) (pt : addr)
  (start : N) (count : N) (pats : list matcher) (ps : pst) (st : state) : res (ctl * pst) :=
  match pats with
  | [] => Ret (CDone, ps) st
  | m :: pats' =>
      let next := run_patterns E P rec i c s pt start count pats' in
      let cc := with_start c (ps_off ps) in
      do r, st <- rec m (push_tok cc pt) s st;
      match r with
      | Ok (SToken a) =>
          if should_discard (tok st a) then next ps st
          else if pi_stop i then Ret (CRet (Ok (SToken a)), ps) st
          else do ps, st <- handle_token P pt a (m_consuming m) (m_consuming m) ps st;
               next ps st
      | Ok (SProxy a) =>
          if should_discard (tok st a) then next ps st
          else if pi_stop i then Ret (CRet (Ok (SProxy a)), ps) st
          else do ps, st <- handle_extract P pt a (m_consuming m) ps st;
               next ps st
      | Ok (SSkip z) =>
          if (0 <? z)%Z && pi_stop i then Ret (CRet (Ok (SSkip z)), ps) st
          else if m_consuming m
               then do ps, st <- handle_skip E start z ps st; next ps st
               else next ps st
      | Ok x => Ret (CAct x, ps) st
      | Err e =>
          let! _ := dbg E P cc 10 in
          match e with
          | FFail =>
              if pi_stop i then next ps st
              else match pi_iter i with
                   | Some _ => do x, st <- finalize P i pt ps count false st; Ret (CRet x, ps) st
                   | None => Ret (CRet (Err FFail), ps) st
                   end
          | FError _ => Ret (CRet (Err e), ps) st
          end
      end
  end.

(* src/matchers/program.rs:371-414 and 477-520: payload of Break / Continue *)
Definition handle_payload (E : env) (P : parser) (pt : addr) (start : N) (p : success)
  (ps : pst) (st : state) : res pst :=
  match p with
  | SToken a => handle_token P pt a false true ps st
  | SProxy a => handle_extract P pt a true ps st
  | SSkip z => handle_skip E start z ps st
  | _ => Ret ps st
  end.

(* src/matchers/program.rs:416, 523: is this the loop that is addressed? *)
Definition is_target (i : pinfo) (name : str) : bool :=
  match pi_iter i with
  | Some _ => str_eqb name (pi_name i) || str_eqb name ""
  | None => false
  end.

(* src/matchers/program.rs:180-570, `for _ in iterate_range`; [left] is the
   number of iterations left *)
Fixpoint iterate (fuel : nat) (E : env) (P : parser) (rec : recT) (pats : list matcher) (i : pinfo)
  (c : ctx) (s : sid) (pt : addr) (start : N) (left count : N) (ps : pst) (st : state) : res mres :=
  if left =? 0 then finalize P i pt ps count true st
  else
  match fuel with
  | O => OOF
  | S f =>
      let again := iterate f E P rec pats i c s pt start (left - 1) (count + 1) in
      do x, st <- run_patterns E P rec i c s pt start count pats ps st;
      let (k, ps) := x in
      match k with
      | CRet r => Ret r st
      | CDone => again ps st
      | CAct (SBreak n p) =>
          if pi_stop i then Ret (Ok (SBreak n p)) st
          else
            do ps, st <- handle_payload E P pt start p ps st;
            do r, st <- finalize P i pt ps count false st;
            if is_target i n then Ret r st
            else match r with
                 | Ok x => Ret (Ok (SBreak n x)) st
                 | Err e => Ret (Err e) st
                 end
      | CAct (SContinue n p) =>
          if pi_stop i then Ret (Ok (SBreak n p)) st
          else
            do ps, st <- handle_payload E P pt start p ps st;
            if is_target i n then again ps st
            else finalize P i pt ps count false st
      | CAct SStop => finalize P i pt ps count true st
      | CAct _ => Pan PUnreachable
      end
  end.

(* src/matchers/program.rs:173-176: number of iterations of the range *)
Definition iterations (i : pinfo) : N :=
  match pi_iter i with Some (lo, hi) => hi - lo | None => 1 end.

(* src/matchers/program.rs:167-168: ranges before anything was collected *)
Definition init_pst (off : N) : pst := mkPst off [] (mkR usize_max 0) (mkR usize_max 0).

(* src/matchers/program.rs:153-571 *)
Definition exec_program (fuel : nat) (E : env) (P : parser) (rec : recT) (pats : list matcher) (i : pinfo)
  (c0 : ctx) (s : sid) (st : state) : res mres :=
  let c := clone_with_name c0 (pi_name i) in
  let start := rs (c_off c) in
  let pt := next_addr st in
  let st := alloc st (std_token P (pi_name i) blank_range) in
  iterate fuel E P rec pats i c s pt start (iterations i) 0 (init_pst start) st.

(* ---------- all matchers ---------- *)

(* One level of Matcher::exec; [rec] executes inner matchers. *)
Definition step (fuel : nat) (E : env) (P : parser) (rec : recT) (m : matcher) (c : ctx) (s : sid)
  (st0 : state) : res mres :=
  let st := before_exec m s st0 in
  let sub_c := clone_with_name c (m_name m) in
  match m with
  (* src/matchers/program.rs:871-883 *)
  | MProgram pats i => exec_program fuel E P rec pats i c s st
  (* src/matchers/equals.rs:59-122 *)
  | MEquals p name _ =>
      let! g := fetch_value st s p in
      match g with
      | GStr v =>
          let! r := matches_str P sub_c v in
          let! _ := dbg E P sub_c 10 in
          match r with
          | Some r => Ret (Ok (SToken (next_addr st))) (alloc st (std_token P name r))
          | None => Ret (Err FFail) st
          end
      | GMatcher _ => Ret (not_a_string "Equals" "pattern" name) st
      end
  (* src/matchers/matches.rs:35-104 *)
  | MMatches f name _ =>
      let! r := matches_regexp P sub_c f in
      match r with
      | Some r =>
          if rs r =? re r then let! _ := dbg E P sub_c 10 in Ret (Ok (SSkip 0)) st
          else Ret (Ok (SToken (next_addr st))) (alloc st (std_token P name r))
      | None => let! _ := dbg E P sub_c 10 in Ret (Err FFail) st
      end
  (* src/matchers/sequence.rs:68-228 *)
  | MSequence fs fe fx name _ => exec_sequence E P fs fe fx name c s st
  (* src/matchers/not.rs:18-49 *)
  | MNot m1 =>
      do r, st <- rec m1 sub_c s st;
      match r with
      | Ok (SToken _) | Ok (SProxy _) => Ret (Err FFail) st
      | Ok (SSkip z) => if (z =? 0)%Z then Ret r st else Ret (Err FFail) st
      | Ok _ => Ret r st
      | Err FFail => Ret (Ok (SSkip 0)) st
      | Err (FError _) => Ret r st
      end
  (* src/matchers/optional.rs:17-33 *)
  | MOptional m1 =>
      do r, st <- rec m1 sub_c s st;
      match r with
      | Err FFail => Ret (Ok (SSkip 0)) st
      | _ => Ret r st
      end
  (* src/matchers/discard.rs:20-96 *)
  | MDiscard m1 =>
      do r, st <- rec m1 sub_c s st;
      discard_result E P (rs (c_off c)) r st
  (* src/matchers/null.rs:16-22 *)
  | MNull => Ret (Ok (SSkip 0)) st
  (* src/matchers/panic.rs:22-42 *)
  | MPanic msg =>
      let r := match top_token c with
               | Some a => mkR (rs (tk_mr (tok st a))) (rs (c_off c))
               | None => mkR (rs (c_off c)) (rs (c_off c))
               end in
      let! text := error_string E P msg r in
      Ret (Err (FError (mkPE text (Some r)))) st
  (* src/matchers/error.rs:59-66 *)
  | MErrorP msg => error_token E P msg c st
  (* src/matchers/break.rs:20-29 *)
  | MBreak n => Ret (Ok (SBreak n SNone)) st
  (* src/matchers/catch.rs:38-54 *)
  | MCatch m1 k =>
      do r, st <- rec m1 sub_c s st;
      match r with
      | Ok _ => Ret r st
      | Err e => e_catch E k e sub_c st
      end
  (* src/matchers/map.rs:70-94 *)
  | MMap m1 f =>
      do r, st <- rec m1 sub_c s st;
      match r with
      | Ok (SToken a) | Ok (SProxy a) => map_ok E P f a sub_c s st
      | Ok _ => Ret r st
      | Err e => map_err E P f e sub_c s st
      end
  (* src/matchers/pin.rs:319-364 *)
  | MPin om off name _ =>
      let! g := fetch_value st s off in
      match g with
      | GMatcher _ =>
          Ret (Err (FError (mkPE "`Pin` matcher received another matcher as an offset... this makes no sense... aborting..." None))) st
      | GStr v =>
          let! c1 := pin_context E sub_c v in
          match om with
          | Some m1 => rec m1 c1 s st
          | None => Ret (Ok (SToken (next_addr st))) (alloc st (pin_token P name (c_off c1)))
          end
      end
  (* src/matchers/store.rs:47-78 *)
  | MStore (SPMatcher m1) name _ =>
      do r, st <- rec m1 sub_c s st;
      match r with
      | Ok (SToken a) => Ret r (sc_set st s name (VToken a))
      | _ => Ret r st
      end
  | MStore (SPString v) name _ => Ret (Ok (SSkip 0)) (sc_set st s name (VString v))
  (* src/matchers/fetch.rs:113-119 *)
  | MFetch _ => Ret (Ok (SSkip 0)) st
  (* src/matchers/register.rs:21-36 *)
  | MRegister ms =>
      Ret (Ok (SSkip 0)) (fold_left (fun st m => sc_set st s (m_name m) (VMatcher m)) ms st)
  (* src/matchers/ref.rs:58-87 *)
  | MRef t _ _ =>
      let! g := fetch_value st s t in
      match g with
      | GMatcher m1 => rec m1 sub_c s st
      | GStr n =>
          match sc_get st s n with
          | Some (VMatcher m1) => rec m1 sub_c s st
          | _ => Ret (Err (FError (mkPE (lit "`Ref` matcher unable to locate target reference `" ++ n ++ lit "`") None))) st
          end
      end
  (* src/matchers/set_scope.rs:29-57 *)
  | MSetScope (Some s1) m1 => rec m1 sub_c s1 st
  | MSetScope None m1 =>
      let st := sc_push st (c_scope c) in
      do r, st <- rec m1 sub_c (c_scope c) st;
      Ret r (sc_pop st (c_scope c))
  (* src/matchers/proxy_children.rs:31-60 *)
  | MProxy m1 _ _ =>
      do r, st <- rec m1 sub_c s st;
      match r with
      | Ok (SToken a) => Ret (Ok (SProxy a)) st
      | Ok (SBreak n (SToken a)) => Ret (Ok (SBreak n (SProxy a))) st
      | Ok (SContinue n (SToken a)) => Ret (Ok (SContinue n (SProxy a))) st
      | _ => Ret r st
      end
  (* src/matchers/expand_range.rs:25-63 *)
  | MExpand m1 =>
      do r, st <- rec m1 sub_c s st;
      match r with
      | Ok (SToken a) =>
          let mr := tk_mr (tok st a) in
          Ret (Ok (SProxy (next_addr st)))
              (alloc st (set_kids [a] (std_token2 P "ExpandRange" mr mr)))
      | Ok (SProxy a) => Ret (Ok (SProxy a)) (modify st a (set_cr P (tk_mr (tok st a))))
      | _ => Ret r st
      end
  (* src/matchers/debug.rs:31-87; the Debug text of the result (TokenOps.v) is not kept *)
  | MDebug (Some m1) d =>
      let c1 := with_debug sub_c d in
      let! _ := debug_range E P c1 10 in
      rec m1 c1 s st
  | MDebug None d =>
      let! _ := debug_range E P c 10 in
      Ret (Ok (SSkip 0)) st
  (* a user implementation of the Matcher trait (src/matcher.rs:46-51) *)
  | MUser k _ _ _ => e_user E k c s st
  end.

(* Matcher::exec (src/matcher.rs:46-51); [fuel] bounds the nesting depth of
   executions and the number of iterations of every single loop. *)
Fixpoint exec (fuel : nat) (E : env) (P : parser) (m : matcher) (c : ctx) (s : sid) (st : state)
  : res mres :=
  match fuel with
  | O => OOF
  | S f => step f E P (exec f E P) m c s st
  end.
