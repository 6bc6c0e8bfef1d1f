(* The pure methods of ParserContext (src/parser_context.rs). *)
From Verif Require Export Types.
Open Scope string_scope.
Open Scope list_scope.
Open Scope N_scope.

(* Result of Rust code that may panic but does not touch the store. *)
Inductive may (A : Type) :=
| Val (a : A)
| Die (p : panic).
Arguments Val {A} a.
Arguments Die {A} p.

Notation "'let?' x := m 'in' k" :=
  (match m with Val x => k | Die pp => Die pp end)
  (at level 200, x pattern, m at level 100, k at level 200).

(* option to may: a checked operation that panics with [p] *)
Definition or_die {A} (p : panic) (o : option A) : may A :=
  match o with Some a => Val a | None => Die p end.

(* `&source[a..b]` *)
Definition src_slice (P : parser) (a b : N) : may str := or_die PSlice (slice (p_src P) a b).

(* src/parser_context.rs:97-109, matches_str *)
Definition matches_str (P : parser) (c : ctx) (pat : str) : may (option range) :=
  if slen pat =? 0 then Val None
  else let? chunk := src_slice P (rs (c_off c)) (re (c_off c)) in
       if starts_with pat chunk
       then Val (Some (clone_with_len (c_off c) (slen pat)))
       else Val None.

(* src/parser_context.rs:111-123, matches_str_at_offset *)
Definition matches_str_at (P : parser) (c : ctx) (pat : str) (off : N) : may (option range) :=
  if (re (c_off c) <=? off) || (slen pat =? 0) then Val None
  else let? chunk := src_slice P off (re (c_off c)) in
       if starts_with pat chunk
       then Val (Some (mkR off (off + slen pat)))
       else Val None.

(* src/parser_context.rs:125-141, matches_regexp *)
Definition matches_regexp (P : parser) (c : ctx) (r : finder) : may (option range) :=
  let? chunk := src_slice P (rs (c_off c)) (re (c_off c)) in
  match r chunk with
  | Some (ms, me) =>
      let start := ms + rs (c_off c) in
      let stop := me + rs (c_off c) in
      if negb (start =? rs (c_off c)) then Val None else Val (Some (mkR start stop))
  | None => Val None
  end.

(* src/parser_context.rs:143-152, debug_range *)
Definition debug_range (E : env) (P : parser) (c : ctx) (max_len : N) : may str :=
  let? e := or_die POverflow (usize_add (e_checks E) (rs (c_off c)) max_len) in
  let e := if re (c_off c) <? e then re (c_off c) else e in
  src_slice P (rs (c_off c)) e.

(* The effect on control flow of `if debug_mode > 0 { println!(.. debug_range(n) ..) }`
   (e.g. src/matchers/equals.rs:76-89); the printed text itself is not modelled. *)
Definition dbg (E : env) (P : parser) (c : ctx) (n : N) : may unit :=
  if 0 <? c_debug c then let? _ := debug_range E P c n in Val tt else Val tt.

(* number of line terminators in source[0..k] *)
Definition count_newlines (s : str) : N := N.of_nat (List.length (newline_ends 0 s)).

(* src/parser_context.rs:170-178, get_lines *)
Definition get_lines (P : parser) (r : range) : may (N * N) :=
  let? a := src_slice P 0 (rs r) in
  let? b := src_slice P 0 (re r) in
  Val (count_newlines a + 1, count_newlines b + 1).

(* src/parser_context.rs:187-200, the loop of get_columns over the newline end
   offsets; state (last_newline, first_column, last_column).  The overflow
   check of `(x - last_newline) + 1` is only relevant for the values computed
   after the loop, see get_columns. *)
Fixpoint columns_loop (r : range) (l : list N) (ln fc lc : N) : N * N * N :=
  match l with
  | [] => (ln, fc, lc)
  | e :: l' =>
      let fc := if (fc =? 0) && (rs r <? e) then (rs r - ln) + 1 else fc in
      if re r <? e then (ln, fc, (re r - ln) + 1)
      else columns_loop r l' e fc lc
  end.

(* src/parser_context.rs:180-223, get_columns *)
Definition get_columns (E : env) (P : parser) (r : range) : may (N * N) :=
  let? s := src_slice P 0 (re r) in
  match columns_loop r (newline_ends 0 s) 0 0 0 with
  | (ln, fc, lc) =>
      let? fc := (if fc =? 0
                  then or_die POverflow (usize_add (e_checks E) (if ln =? 0 then rs r else rs r - ln) 1)
                  else Val fc) in
      let? lc := (if lc =? 0
                  then or_die POverflow (usize_add (e_checks E) (if ln =? 0 then re r else re r - ln) 1)
                  else Val lc) in
      Val (fc, if lc <? fc then fc else lc)
  end.

(* src/parser_context.rs:234-244: "a" or "a-b" *)
Definition span_str (p : N * N) : str :=
  if fst p =? snd p then dec (fst p) else dec (fst p) ++ lit "-" ++ dec (snd p).

(* src/parser_context.rs:229-250, get_error_as_string
   (get_lines_and_columns, 225-227, is inlined) *)
Definition error_string (E : env) (P : parser) (msg : str) (r : range) : may str :=
  let? ls := get_lines P r in
  let? cs := get_columns E P r in
  Val (lit "Error: " ++ p_file P ++ lit "@[" ++ span_str ls ++ lit ":" ++ span_str cs
       ++ lit "]: " ++ msg).

(* src/parser_context.rs:162-168, get_top_token_from_stack *)
Definition top_token (c : ctx) : option addr := hd_error (c_stack c).
