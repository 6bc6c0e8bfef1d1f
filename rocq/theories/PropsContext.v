(* C01-C06, C20: literal and regex lookup, lines, columns, error texts, token
   texts, uniqueness of outcomes. *)
From Verif Require Import Basics.
Open Scope string_scope.
Open Scope list_scope.
Open Scope N_scope.

(* a source with LF, CR LF and CR, used by the examples *)
Definition ex_src : str := lit "ab" ++ [LF] ++ lit "cd" ++ [CR; LF] ++ lit "ef" ++ [CR] ++ lit "gh".
Definition ex_parser : parser := mkParser ex_src "f.txt".
Definition ex_ctx (a b : N) : ctx := mkCtx 0 0%nat [] (mkR a b) "x".

(* ---------------------------------------------------------------- C01 *)

(* A literal is found exactly when it is not empty and the window starts with
   it; the range returned is that of the literal. *)
Theorem C01_literal_found : forall P c pat r,
  matches_str P c pat = Val (Some r) <->
  sliceable (p_src P) (c_off c) /\ pat <> [] /\
  (exists rest, window (p_src P) (rs (c_off c)) (re (c_off c)) (pat ++ rest)) /\
  rs r = rs (c_off c) /\ re r = rs (c_off c) + slen pat.
Proof. exact matches_str_some. Qed.
Print Assumptions C01_literal_found.

Theorem C01_literal_not_found : forall P c pat,
  matches_str P c pat = Val None <->
  pat = [] \/
  (sliceable (p_src P) (c_off c) /\
   ~ exists rest, window (p_src P) (rs (c_off c)) (re (c_off c)) (pat ++ rest)).
Proof. exact matches_str_none. Qed.
Print Assumptions C01_literal_not_found.

Theorem C01_literal_panics : forall P c pat p,
  matches_str P c pat = Die p <->
  p = PSlice /\ pat <> [] /\ ~ sliceable (p_src P) (c_off c).
Proof. exact matches_str_die. Qed.
Print Assumptions C01_literal_panics.

(* it never looks past the end of the window *)
Theorem C01_literal_inside : forall P c pat r,
  matches_str P c pat = Val (Some r) ->
  rs r = rs (c_off c) /\ rs r < re r /\ re r <= re (c_off c).
Proof. exact matches_str_inside. Qed.
Print Assumptions C01_literal_inside.

Example C01_example :
  matches_str ex_parser (ex_ctx 3 6) "cd" = Val (Some (mkR 3 5))
  /\ matches_str ex_parser (ex_ctx 3 4) "cd" = Val None
  /\ matches_str (mkParser [ascii_of_N 195; ascii_of_N 164] []) (ex_ctx 1 2) "x" = Die PSlice.
Proof. vm_compute; auto. Qed.

(* ---------------------------------------------------------------- C02 *)

Theorem C02_regex_found : forall P c f r,
  matches_regexp P c f = Val (Some r) <->
  sliceable (p_src P) (c_off c) /\
  exists w n, window (p_src P) (rs (c_off c)) (re (c_off c)) w /\ f w = Some (0, n) /\
              rs r = rs (c_off c) /\ re r = rs (c_off c) + n.
Proof. exact matches_regexp_some. Qed.
Print Assumptions C02_regex_found.

Theorem C02_regex_not_found : forall P c f,
  matches_regexp P c f = Val None <->
  sliceable (p_src P) (c_off c) /\
  forall w, window (p_src P) (rs (c_off c)) (re (c_off c)) w -> forall n, f w <> Some (0, n).
Proof. exact matches_regexp_none. Qed.
Print Assumptions C02_regex_not_found.

Theorem C02_regex_panics : forall P c f p,
  matches_regexp P c f = Die p <-> p = PSlice /\ ~ sliceable (p_src P) (c_off c).
Proof. exact matches_regexp_die. Qed.
Print Assumptions C02_regex_panics.

Theorem C02_regex_inside : forall P c f r,
  finder_ok f -> matches_regexp P c f = Val (Some r) ->
  rs r = rs (c_off c) /\ rs r <= re r /\ re r <= re (c_off c).
Proof. exact matches_regexp_inside. Qed.
Print Assumptions C02_regex_inside.

Example C02_example :
  let f := re_find [plus (rng "c" "f")] in
  matches_regexp ex_parser (ex_ctx 3 11) f = Val (Some (mkR 3 5))
  /\ matches_regexp ex_parser (ex_ctx 2 11) f = Val None.
Proof. vm_compute; auto. Qed.

(* ---------------------------------------------------------------- C03 *)

Theorem C03_line_numbers : forall P r,
  sliceable (p_src P) (mkR 0 (rs r)) -> sliceable (p_src P) (mkR 0 (re r)) ->
  exists a b la lb,
    window (p_src P) 0 (rs r) a /\ window (p_src P) 0 (re r) b /\
    line_no a la /\ line_no b lb /\ get_lines P r = Val (la, lb).
Proof. exact get_lines_spec. Qed.
Print Assumptions C03_line_numbers.

Theorem C03_lines_ordered : forall P r x y,
  rs r <= re r -> get_lines P r = Val (x, y) -> x <= y.
Proof. exact get_lines_ordered. Qed.
Print Assumptions C03_lines_ordered.

Example C03_example :
  get_lines ex_parser (mkR 1 9) = Val (1, 3) /\ get_lines ex_parser (mkR 7 12) = Val (3, 4).
Proof. vm_compute; auto. Qed.

(* ---------------------------------------------------------------- C04 *)

Theorem C04_columns : forall E P r,
  rs r <= re r -> sliceable (p_src P) (mkR 0 (re r)) -> re r < usize_max ->
  exists b ls le,
    window (p_src P) 0 (re r) b /\ line_start b (rs r) ls /\ line_start b (re r) le /\
    get_columns E P r = Val (rs r - ls + 1, N.max (rs r - ls + 1) (re r - le + 1)).
Proof. exact get_columns_spec. Qed.
Print Assumptions C04_columns.

Definition ex_env : env :=
  mkEnv true (fun _ a _ _ st => Ret (Ok (SToken a)) st) (fun _ e _ _ st => Ret (Err e) st)
        (fun _ e _ st => Ret (Err e) st) (fun _ _ _ st => Ret (Err FFail) st)
        (fun _ => false) (fun _ => false) (fun _ => false) (fun _ => None).

Example C04_example :
  get_columns ex_env ex_parser (mkR 4 9) = Val (2, 3)
  /\ get_columns ex_env ex_parser (mkR 8 11) = Val (2, 2).
Proof. vm_compute; auto. Qed.

(* ---------------------------------------------------------------- C05 *)

Theorem C05_error_text : forall E P msg r,
  sliceable (p_src P) r -> re r < usize_max ->
  exists a b la lb ls le lines cols,
    window (p_src P) 0 (rs r) a /\ window (p_src P) 0 (re r) b /\
    line_no a la /\ line_no b lb /\
    line_start b (rs r) ls /\ line_start b (re r) le /\
    span_text la lb lines /\
    span_text (rs r - ls + 1) (N.max (rs r - ls + 1) (re r - le + 1)) cols /\
    error_string E P msg r =
      Val (lit "Error: " ++ p_file P ++ lit "@[" ++ lines ++ lit ":" ++ cols ++ lit "]: " ++ msg).
Proof. exact error_string_spec. Qed.
Print Assumptions C05_error_text.

(* the numerals are determined by the numbers *)
Theorem C05_decimal_unique : forall n s t, decimal n s -> decimal n t -> s = t.
Proof. exact decimal_unique. Qed.
Print Assumptions C05_decimal_unique.

Theorem C05_error_text_panics : forall E P msg r,
  ~ sliceable (p_src P) (mkR 0 (rs r)) \/ ~ sliceable (p_src P) (mkR 0 (re r)) ->
  error_string E P msg r = Die PSlice.
Proof. exact error_string_die. Qed.
Print Assumptions C05_error_text_panics.

Example C05_example :
  error_string ex_env ex_parser "oops" (mkR 4 9) = Val (lit "Error: f.txt@[2-3:2-3]: oops")
  /\ error_string ex_env ex_parser "oops" (mkR 4 4) = Val (lit "Error: f.txt@[2:2]: oops").
Proof. vm_compute; auto. Qed.

(* ---------------------------------------------------------------- C06 *)

Theorem C06_text_exact_on_ascii : forall P r w,
  ascii_only (p_src P) -> window (p_src P) (rs r) (re r) w -> range_text P r = w.
Proof. exact range_text_ascii. Qed.
Print Assumptions C06_text_exact_on_ascii.

(* "äb" and the literal "b": the token covers bytes 2..3, which is "b", but
   its text is the character with index 2, i.e. none *)
Theorem C06_text_wrong_beyond_ascii_refuted :
  exists src c st a st',
    Runs ex_env (mkParser src []) (Equals_ "b") c 0%nat st (Ok (SToken a)) st' /\
    window src (rs (tk_cr (tok st' a))) (re (tk_cr (tok st' a))) "b" /\
    tk_cvalue (tok st' a) <> lit "b".
Proof.
  exists [ascii_of_N 195; ascii_of_N 164; "b"%char], (ex_ctx 2 3), (mkSt [] [[]]), 0%nat.
  eexists. split; [exists 1%nat; vm_compute; reflexivity|].
  split; [|vm_compute; discriminate].
  exists [ascii_of_N 195; ascii_of_N 164], []. repeat split; vm_compute; reflexivity.
Qed.
Print Assumptions C06_text_wrong_beyond_ascii_refuted.

Example C06_example : range_text ex_parser (mkR 3 5) = lit "cd".
Proof. reflexivity. Qed.

(* ---------------------------------------------------------------- C20 *)

(* Whenever two executions of the same matcher in the same situation finish,
   their outcomes (result, panic, state) are the same. *)
Theorem C20_outcome_unique : forall E P n n' m c s st,
  exec n E P m c s st <> OOF -> exec n' E P m c s st <> OOF ->
  exec n E P m c s st = exec n' E P m c s st.
Proof. exact exec_unique. Qed.
Print Assumptions C20_outcome_unique.

(* more fuel never changes a finished outcome *)
Theorem C20_fuel_monotone : forall E P n n' m c s st,
  (n <= n')%nat -> exec n E P m c s st <> OOF -> exec n' E P m c s st = exec n E P m c s st.
Proof. exact exec_mono. Qed.
Print Assumptions C20_fuel_monotone.

Example C20_example :
  exec 2 ex_env ex_parser (MNot (Equals_ "x")) (ex_ctx 0 11) 0%nat init_state
  = Ret (Ok (SSkip 0)) init_state.
Proof. reflexivity. Qed.
