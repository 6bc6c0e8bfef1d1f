(* Specification vocabulary, written independently of the functions of the
   model: it only uses the data types (strings, ranges, tokens, ...) and the
   top-level entry points whose behaviour the properties describe. *)
From Coq Require Export Sorted Permutation.
From Verif Require Export ScriptBuild.
Open Scope string_scope.
Open Scope list_scope.
Open Scope N_scope.

(* ---------- outcomes of executions, without reference to fuel ---------- *)

Definition Runs E P m c s st r st' : Prop := exists n, exec n E P m c s st = Ret r st'.
Definition Panics E P m c s st p : Prop := exists n, exec n E P m c s st = Pan p.
Definition Diverges E P m c s st : Prop := forall n, exec n E P m c s st = OOF.

(* ---------- positions and windows of a source ---------- *)

(* [w] is the text of [src] between the byte offsets [a] and [b] *)
Definition window (src : str) (a b : N) (w : str) : Prop :=
  exists pre post, src = pre ++ w ++ post /\ slen pre = a /\ slen (pre ++ w) = b.

(* a continuation byte of UTF-8, i.e. 0x80 .. 0xBF *)
Definition continuation (x : ascii) : Prop := 128 <= N_of_ascii x <= 191.

(* [a] is an offset at which a slice of [src] may start or end *)
Definition char_boundary (src : str) (a : N) : Prop :=
  a = 0 \/
  exists pre post, src = pre ++ post /\ slen pre = a
                   /\ match post with [] => True | x :: _ => ~ continuation x end.

(* the range is one on which `&src[a..b]` does not panic *)
Definition sliceable (src : str) (r : range) : Prop :=
  rs r <= re r /\ re r <= slen src /\ char_boundary src (rs r) /\ char_boundary src (re r).

Definition ascii_only (s : str) : Prop := forall x, In x s -> N_of_ascii x < 128.

(* ---------- lines and columns ---------- *)

(* the byte with index [i] ends a line of [s]: it is a LF, or a CR that is not
   followed by a LF *)
Definition ends_line (s : str) (i : nat) : Prop :=
  nth_error s i = Some LF \/ (nth_error s i = Some CR /\ nth_error s (S i) <> Some LF).

(* [l] lists exactly the indices that end a line, in increasing order *)
Definition line_ends (s : str) (l : list nat) : Prop :=
  (forall i, In i l <-> ends_line s i) /\ StronglySorted lt l.

(* [n] is the number of the line that follows the text [s] *)
Definition line_no (s : str) (n : N) : Prop :=
  exists l, line_ends s l /\ n = N.of_nat (List.length l) + 1.

(* [e] is where the line containing offset [p] of [s] starts *)
Definition line_start (s : str) (p e : N) : Prop :=
  e <= p /\
  (e = 0 \/ exists i, ends_line s i /\ e = N.of_nat i + 1) /\
  (forall i, ends_line s i -> N.of_nat i + 1 <= p -> N.of_nat i + 1 <= e).

(* ---------- decimal numerals ---------- *)

Definition is_digit (x : ascii) : Prop := 48 <= N_of_ascii x <= 57.
Fixpoint digits_value (acc : N) (s : str) : N :=
  match s with [] => acc | x :: s' => digits_value (acc * 10 + (N_of_ascii x - 48)) s' end.
(* [s] is the decimal representation of [n] without leading zeros *)
Definition decimal (n : N) (s : str) : Prop :=
  s <> [] /\ (forall x, In x s -> is_digit x) /\ digits_value 0 s = n
  /\ (hd_error s = Some "0"%char -> s = ["0"%char]).
(* "a" when both numbers agree, "a-b" otherwise *)
Definition span_text (a b : N) (s : str) : Prop :=
  if a =? b then decimal a s
  else exists x y, decimal a x /\ decimal b y /\ s = x ++ ["-"%char] ++ y.

(* ---------- regular expressions ---------- *)

(* what is assumed of Regex::find: a match lies inside the haystack *)
Definition finder_ok (f : finder) : Prop :=
  forall w a b, f w = Some (a, b) -> a <= b /\ b <= slen w.

(* ---------- delimited sequences ---------- *)

(* [text] starts with [p] *)
Definition has_prefix (p text : str) : Prop := exists t, text = p ++ t.

(* [scans ep esc text raw value]: reading [text] from the left, the first end
   delimiter [ep] that is not protected comes after the bytes [raw]; [value] is
   [raw] without its escape strings.  An escape string protects one byte. *)
Inductive scans (ep esc : str) : str -> str -> str -> Prop :=
| scan_end t : scans ep esc (ep ++ t) [] []
| scan_escape x t raw value :
    ~ has_prefix ep (esc ++ x :: t) -> esc <> [] ->
    scans ep esc t raw value ->
    scans ep esc (esc ++ x :: t) (esc ++ x :: raw) (x :: value)
| scan_byte x t raw value :
    ~ has_prefix ep (x :: t) -> (esc <> [] -> ~ has_prefix esc (x :: t)) ->
    scans ep esc t raw value ->
    scans ep esc (x :: t) (x :: raw) (x :: value).

(* [passes ep esc text rest]: the same scan, started on [text], gets to [rest] *)
Inductive passes (ep esc : str) : str -> str -> Prop :=
| pass_here t : passes ep esc t t
| pass_escape x t u :
    ~ has_prefix ep (esc ++ x :: t) -> esc <> [] -> passes ep esc t u ->
    passes ep esc (esc ++ x :: t) u
| pass_byte x t u :
    ~ has_prefix ep (x :: t) -> (esc <> [] -> ~ has_prefix esc (x :: t)) -> passes ep esc t u ->
    passes ep esc (x :: t) u.

(* [s] between quotes [q], with [q] and [e] in [s] preceded by [e] *)
Definition quoted (q e : ascii) (s : str) : str :=
  q :: flat_map (fun x => if Ascii.eqb x q || Ascii.eqb x e then [e; x] else [x]) s ++ [q].

(* ---------- tokens ---------- *)

(* a token without children, parent, attributes, own value and flags *)
Definition plain_token (t : token) (name : str) (r : range) : Prop :=
  tk_kind t = KStandard /\ tk_name t = name /\ tk_cr t = r /\ tk_mr t = r /\
  tk_kids t = [] /\ tk_parent t = None /\ tk_attrs t = [] /\ tk_value t = None /\ tk_flags t = 0.

(* scopes after the execution of a matcher that makes itself known under its
   name when that name was chosen by the user *)
Definition scopes_after (st : state) (s : sid) (custom : bool) (name : str) (m : matcher)
  : list (list scope) :=
  if custom then st_scopes (sc_set st s name (VMatcher m)) else st_scopes st.

(* the same context under another name *)
Definition renamed (c : ctx) (name : str) : ctx :=
  mkCtx (c_debug c) (c_scope c) (c_stack c) (c_off c) name.

(* [text] is the message [msg] located at [r] of the source: file, lines and
   columns (see C05) *)
Definition error_text (P : parser) (msg : str) (r : range) (text : str) : Prop :=
  exists a b la lb ls le lines cols,
    window (p_src P) 0 (rs r) a /\ window (p_src P) 0 (re r) b /\
    line_no a la /\ line_no b lb /\
    line_start b (rs r) ls /\ line_start b (re r) le /\
    span_text la lb lines /\
    span_text (rs r - ls + 1) (N.max (rs r - ls + 1) (re r - le + 1)) cols /\
    text = lit "Error: " ++ p_file P ++ lit "@[" ++ lines ++ lit ":" ++ cols ++ lit "]: " ++ msg.

(* an error token at [r] that carries this message *)
Definition message_token (t : token) (r : range) (text : str) : Prop :=
  tk_kind t = KStandard /\ tk_name t = lit "Error" /\ tk_cr t = r /\ tk_mr t = r /\
  tk_kids t = [] /\ tk_parent t = None /\ tk_attrs t = [(lit "__message", text)] /\
  tk_value t = None /\ is_error t = true.

(* ---------- one of the three possible outcomes ---------- *)

Inductive outcome := Done (r : mres) (st : state) | Panicked (p : panic) | Never.

Definition Does E P m c s st (o : outcome) : Prop :=
  match o with
  | Done r st' => Runs E P m c s st r st'
  | Panicked p => Panics E P m c s st p
  | Never => Diverges E P m c s st
  end.

(* two executions that have the same outcomes *)
Definition same_outcomes E P m c s st m' c' s' st' : Prop :=
  forall o, Does E P m c s st o <-> Does E P m' c' s' st' o.

(* ---------- token trees ---------- *)

(* [preorder st roots l]: [l] lists the tokens of the trees under [roots],
   parents before children, children in order.  Exists only for finite trees. *)
Inductive preorder (st : state) : list addr -> list addr -> Prop :=
| pre_nil : preorder st [] []
| pre_cons a roots l1 l2 :
    preorder st (tk_kids (tok st a)) l1 -> preorder st roots l2 ->
    preorder st (a :: roots) (a :: l1 ++ l2).

(* the error tokens of the tree under [a], in document order *)
Definition errors_below (st : state) (a : addr) (l : list addr) : Prop :=
  exists all, preorder st [a] all /\ l = filter (fun x => is_error (tok st x)) all.

(* ---------- ordered choice ---------- *)

(* results of an alternative that make a switch try the next one *)
Definition passed_over (st : state) (r : mres) : Prop :=
  r = Err FFail \/ r = Ok (SSkip 0) \/
  exists a, tk_kind (tok st a) = KPin /\ (r = Ok (SToken a) \/ r = Ok (SProxy a)).

(* results that end it, and what the switch returns *)
Inductive decides (st : state) : mres -> mres -> Prop :=
| dec_token a : tk_kind (tok st a) = KStandard -> decides st (Ok (SToken a)) (Ok (SToken a))
| dec_proxy a : tk_kind (tok st a) = KStandard -> decides st (Ok (SProxy a)) (Ok (SProxy a))
| dec_skip z : (0 < z)%Z -> decides st (Ok (SSkip z)) (Ok (SSkip z))
| dec_break n p : decides st (Ok (SBreak n p)) (Ok (SBreak n p))
| dec_continue n p : decides st (Ok (SContinue n p)) (Ok (SBreak n p))
| dec_stop : decides st (Ok SStop) (Err FFail)
| dec_error e : decides st (Err (FError e)) (Err (FError e)).

(* [chooses E P c s alts st o]: trying [alts] in order, all of them in context
   [c], has the outcome [o] *)
Inductive chooses E P (c : ctx) (s : sid) : list matcher -> state -> outcome -> Prop :=
| ch_none st : chooses E P c s [] st (Done (Err FFail) st)
| ch_pass m ms st r st1 o :
    Runs E P m c s st r st1 -> passed_over st1 r -> chooses E P c s ms st1 o ->
    chooses E P c s (m :: ms) st o
| ch_decide m ms st r st1 r' :
    Runs E P m c s st r st1 -> decides st1 r r' -> chooses E P c s (m :: ms) st (Done r' st1)
| ch_none_signal m ms st st1 :
    Runs E P m c s st (Ok SNone) st1 -> chooses E P c s (m :: ms) st (Panicked PUnreachable)
| ch_panic m ms st p :
    Panics E P m c s st p -> chooses E P c s (m :: ms) st (Panicked p)
| ch_never m ms st :
    Diverges E P m c s st -> chooses E P c s (m :: ms) st Never.

(* ---------- Discard ---------- *)

(* the token that Discard makes while looking for errors *)
Definition discard_token (st : state) (start stop : N) (errs : list addr) (t : token) : Prop :=
  tk_kind t = KStandard /\ tk_name t = lit "Error" /\ tk_kids t = errs /\ tk_cr t = mkR start stop
  /\ tk_flags t = 0 /\ tk_parent t = None /\ tk_attrs t = [] /\ tk_value t = None
  /\ rs (tk_mr t) <= start /\ stop <= re (tk_mr t)
  /\ (forall e, In e errs -> rs (tk_mr t) <= rs (tk_mr (tok st e)) /\ re (tk_mr (tok st e)) <= re (tk_mr t))
  /\ (rs (tk_mr t) = start \/ exists e, In e errs /\ rs (tk_mr t) = rs (tk_mr (tok st e)))
  /\ (re (tk_mr t) = stop \/ exists e, In e errs /\ re (tk_mr t) = re (tk_mr (tok st e))).

(* 2^63: differences of offsets below it fit in an isize *)
Definition isize_bound : N := 9223372036854775808.

(* the three shapes in which a token is returned *)
Definition wrapped (x : success) (a : addr) (wrap : success -> success) : Prop :=
  ((x = SToken a \/ x = SProxy a) /\ wrap = (fun y => y)) \/
  (exists n, (x = SBreak n (SToken a) \/ x = SBreak n (SProxy a)) /\ wrap = SBreak n) \/
  (exists n, (x = SContinue n (SToken a) \/ x = SContinue n (SProxy a)) /\ wrap = SContinue n).

(* results without a token are returned as they are *)
Definition no_token (r : mres) : Prop :=
  match r with
  | Err _ | Ok (SSkip _) | Ok SNone | Ok SStop => True
  | Ok (SBreak _ p) | Ok (SContinue _ p) =>
      match p with SSkip _ | SNone | SStop => True | _ => False end
  | _ => False
  end.

(* ---------- scopes and references ---------- *)

(* [s] is a scope context of the state *)
Definition valid_scope (st : state) (s : sid) : Prop := (s < List.length (st_scopes st))%nat.

(* executing this matcher first of all executes a reference to [x];
   on the way the name [x] is not given to anything but [M] *)
Inductive enters (x : str) (M : matcher) : matcher -> Prop :=
| en_ref name : name <> x -> forall custom, enters x M (MRef (FStr x) name custom)
| en_ref_plain name : enters x M (MRef (FStr x) name false)
| en_not m : enters x M m -> enters x M (MNot m)
| en_optional m : enters x M m -> enters x M (MOptional m)
| en_discard m : enters x M m -> enters x M (MDiscard m)
| en_map m f : enters x M m -> enters x M (MMap m f)
| en_catch m k : enters x M m -> enters x M (MCatch m k)
| en_expand m : enters x M m -> enters x M (MExpand m)
| en_proxy m name custom :
    enters x M m -> (custom = true -> name <> x) -> enters x M (MProxy m name custom)
| en_store m name custom :
    enters x M m -> (custom = true -> name <> x) -> enters x M (MStore (SPMatcher m) name custom)
| en_program m ms i :
    enters x M m -> (match pi_iter i with Some (lo, hi) => lo < hi | None => True end) ->
    (pi_custom i = true -> pi_name i <> x \/ M = MProgram (m :: ms) i) ->
    enters x M (MProgram (m :: ms) i).

(* ---------- programs ---------- *)

(* smallest start, largest end, and the smallest range around some ranges; of
   no ranges: 2^64-1 and 0 *)
Definition lowest (l : list range) : N := fold_right (fun r n => N.min (rs r) n) usize_max l.
Definition highest (l : list range) : N := fold_right (fun r n => N.max (re r) n) 0 l.
Definition hull (l : list range) : range := mkR (lowest l) (highest l).

(* what one pattern of a program adds to it: children, and ranges that widen
   the captured and the matched range of the program *)
Record piece := mkPiece { pc_kids : list addr; pc_cr : list range; pc_mr : list range }.
Definition no_piece : piece := mkPiece [] [] [].
Definition all_kids (l : list piece) : list addr := flat_map pc_kids l.
Definition all_cr (l : list piece) : list range := flat_map pc_cr l.
Definition all_mr (l : list piece) : list range := flat_map pc_mr l.

(* the token after it was made a child of [pt]: an empty error token is
   stretched back to [lo] *)
Definition adopted (P : parser) (pt : addr) (lo : N) (t : token) : token :=
  set_parent (Some pt)
    (if is_error t && (rs (tk_mr t) =? re (tk_mr t))
     then let r := mkR lo (re (tk_mr t)) in set_mr P r (set_cr P r t)
     else t).

(* the piece for a token that was adopted as [t] *)
Definition token_piece (a : addr) (consuming : bool) (t : token) : piece :=
  if consuming then mkPiece [a] [tk_cr t] [tk_mr t] else mkPiece [a] [] [].

(* the tokens [l], taken over from the token [self] *)
Inductive adopts (P : parser) (pt self : addr) (consuming : bool)
  : list addr -> list piece -> N -> state -> list piece -> N -> state -> Prop :=
| ad_nil done off st : adopts P pt self consuming [] done off st done off st
| ad_lookahead k l done off st done' off' st' :
    tk_kind (tok st k) = KPin ->
    adopts P pt self consuming l done off st done' off' st' ->
    adopts P pt self consuming (k :: l) done off st done' off' st'
| ad_token k l done off st t done' off' st' :
    tk_kind (tok st k) = KStandard -> k <> self ->
    t = adopted P pt (lowest (all_mr done)) (tok st k) ->
    adopts P pt self consuming l (done ++ [token_piece k consuming t])
           (if consuming then re (tk_mr t) else off) (set_tok st k t) done' off' st' ->
    adopts P pt self consuming (k :: l) done off st done' off' st'.

(* a skip by [z] from [off] gets to [n]: arithmetic modulo 2^64, in which the
   build with overflow checks does not accept a carry *)
Definition skips_to (E : env) (off : N) (z : Z) (n : N) : Prop :=
  Z.of_N n = ((Z.of_N off + z) mod 18446744073709551616)%Z /\
  (e_checks E = true -> (Z.of_N off + z mod 18446744073709551616 < 18446744073709551616)%Z).

(* [contributes .. consuming forward done off st x done' off' st']: a pattern
   that was started at [off], after the pieces [done] were collected, and
   returned [x], lets the program go on; now the pieces are [done'] and the next
   pattern starts at [off'].  [forward]: a token has to end elsewhere than [off]. *)
Inductive contributes (E : env) (P : parser) (pt : addr) (start : N) (consuming forward : bool)
  (done : list piece) (off : N) (st : state) : success -> list piece -> N -> state -> Prop :=
| ct_token a t :
    tk_kind (tok st a) = KStandard ->
    (consuming = true -> forward = true -> is_error (tok st a) = true \/ re (tk_mr (tok st a)) <> off) ->
    t = adopted P pt (lowest (all_mr done)) (tok st a) ->
    contributes E P pt start consuming forward done off st (SToken a)
      (done ++ [token_piece a consuming t]) (if consuming then re (tk_mr t) else off) (set_tok st a t)
| ct_proxy a done' off' st' :
    tk_kind (tok st a) = KStandard ->
    adopts P pt a consuming (tk_kids (tok st a))
      (if consuming then done ++ [mkPiece [] [tk_cr (tok st a)] [tk_mr (tok st a)]] else done)
      (if consuming then re (tk_mr (tok st a)) else off) st done' off' st' ->
    contributes E P pt start consuming forward done off st (SProxy a) done' off' st'
| ct_skip z n :
    consuming = true -> skips_to E off z n ->
    contributes E P pt start consuming forward done off st (SSkip z)
      (done ++ [mkPiece [] [] [mkR start n]]) n st
| ct_no_skip z :
    consuming = false ->
    contributes E P pt start consuming forward done off st (SSkip z) done off st.

(* the same, when it panics *)
Inductive breaks_down (E : env) (P : parser) (pt : addr) (consuming forward : bool)
  (done : list piece) (off : N) (st : state) : success -> panic -> Prop :=
| bd_stuck a :
    tk_kind (tok st a) = KStandard -> consuming = true -> forward = true ->
    is_error (tok st a) = false -> re (tk_mr (tok st a)) = off ->
    breaks_down E P pt consuming forward done off st (SToken a) PNotForward
| bd_own_child a l1 l2 done' off' st' :
    tk_kind (tok st a) = KStandard -> tk_kids (tok st a) = l1 ++ a :: l2 ->
    adopts P pt a consuming l1
      (if consuming then done ++ [mkPiece [] [tk_cr (tok st a)] [tk_mr (tok st a)]] else done)
      (if consuming then re (tk_mr (tok st a)) else off) st done' off' st' ->
    breaks_down E P pt consuming forward done off st (SProxy a) PBorrow
| bd_overflow z :
    consuming = true -> e_checks E = true ->
    (18446744073709551616 <= Z.of_N off + z mod 18446744073709551616)%Z ->
    breaks_down E P pt consuming forward done off st (SSkip z) POverflow.

(* how a pass over the patterns of a program ends *)
Inductive pass_end :=
| AllDone (done : list piece) (off : N) (st : state)
| Signal (x : success) (done : list piece) (off : N) (st : state)
| NoMatch (done : list piece) (st : state)
| Fatal (e : parse_error) (st : state)
| PassPanics (p : panic)
| PassNever.

(* the context in which the patterns of a program [pt] are executed *)
Definition pattern_ctx (c : ctx) (name : str) (pt : addr) (off : N) : ctx :=
  mkCtx (c_debug c) (c_scope c) (pt :: c_stack c) (mkR off (re (c_off c))) name.

Inductive pass E P (c : ctx) (name : str) (s : sid) (pt : addr)
  : list matcher -> list piece -> N -> state -> pass_end -> Prop :=
| ps_done done off st : pass E P c name s pt [] done off st (AllDone done off st)
| ps_next m ms done off st x st1 done' off' st' w :
    Runs E P m (pattern_ctx c name pt off) s st (Ok x) st1 ->
    contributes E P pt (rs (c_off c)) (m_consuming m) true done off st1 x done' off' st' ->
    pass E P c name s pt ms done' off' st' w ->
    pass E P c name s pt (m :: ms) done off st w
| ps_lookahead m ms done off st a st1 w :
    Runs E P m (pattern_ctx c name pt off) s st (Ok (SToken a)) st1 \/
    Runs E P m (pattern_ctx c name pt off) s st (Ok (SProxy a)) st1 ->
    tk_kind (tok st1 a) = KPin ->
    pass E P c name s pt ms done off st1 w ->
    pass E P c name s pt (m :: ms) done off st w
| ps_signal m ms done off st x st1 :
    Runs E P m (pattern_ctx c name pt off) s st (Ok x) st1 ->
    (match x with SBreak _ _ | SContinue _ _ | SNone | SStop => True | _ => False end) ->
    pass E P c name s pt (m :: ms) done off st (Signal x done off st1)
| ps_fail m ms done off st st1 :
    Runs E P m (pattern_ctx c name pt off) s st (Err FFail) st1 ->
    pass E P c name s pt (m :: ms) done off st (NoMatch done st1)
| ps_error m ms done off st e st1 :
    Runs E P m (pattern_ctx c name pt off) s st (Err (FError e)) st1 ->
    pass E P c name s pt (m :: ms) done off st (Fatal e st1)
| ps_breaks_down m ms done off st x st1 p :
    Runs E P m (pattern_ctx c name pt off) s st (Ok x) st1 ->
    breaks_down E P pt (m_consuming m) true done off st1 x p ->
    pass E P c name s pt (m :: ms) done off st (PassPanics p)
| ps_panic m ms done off st p :
    Panics E P m (pattern_ctx c name pt off) s st p ->
    pass E P c name s pt (m :: ms) done off st (PassPanics p)
| ps_never m ms done off st :
    Diverges E P m (pattern_ctx c name pt off) s st ->
    pass E P c name s pt (m :: ms) done off st PassNever.

(* the program token after it was filled *)
Definition filled (P : parser) (done : list piece) (t : token) : token :=
  set_mr P (hull (all_mr done)) (set_cr P (hull (all_cr done)) (set_kids (all_kids done) t)).

(* [closes .. done st r st']: a program that stops with these pieces returns [r] *)
Definition collected_something (done : list piece) : Prop :=
  all_kids done <> [] /\ lowest (all_cr done) <> usize_max /\ lowest (all_mr done) <> usize_max.

Inductive closes (P : parser) (pt : addr) (done : list piece) (st : state) : mres -> state -> Prop :=
| cl_token : collected_something done ->
    closes P pt done st (Ok (SToken pt)) (set_tok st pt (filled P done (tok st pt)))
| cl_fail : ~ collected_something done -> closes P pt done st (Err FFail) st.

(* the payload of a break or continue is collected like a result *)
Inductive takes_payload (E : env) (P : parser) (pt : addr) (start : N) (done : list piece) (off : N) (st : state)
  : success -> list piece -> N -> state -> Prop :=
| tp_token a t :
    t = adopted P pt (lowest (all_mr done)) (tok st a) -> tk_kind (tok st a) = KStandard ->
    takes_payload E P pt start done off st (SToken a) (done ++ [token_piece a true t]) (re (tk_mr t)) (set_tok st a t)
| tp_lookahead a t :
    t = adopted P pt (lowest (all_mr done)) (tok st a) -> tk_kind (tok st a) = KPin ->
    takes_payload E P pt start done off st (SToken a) (done ++ [mkPiece [a] [] []]) off (set_tok st a t)
| tp_proxy a done' off' st' :
    contributes E P pt start true false done off st (SProxy a) done' off' st' ->
    takes_payload E P pt start done off st (SProxy a) done' off' st'
| tp_proxy_lookahead a done' off' st' :
    tk_kind (tok st a) = KPin ->
    adopts P pt a false (tk_kids (tok st a)) done off st done' off' st' ->
    takes_payload E P pt start done off st (SProxy a) done' off' st'
| tp_skip z done' off' st' :
    contributes E P pt start true false done off st (SSkip z) done' off' st' ->
    takes_payload E P pt start done off st (SSkip z) done' off' st'
| tp_other x :
    (match x with SToken _ | SProxy _ | SSkip _ => False | _ => True end) ->
    takes_payload E P pt start done off st x done off st.

(* the same, when it panics *)
Inductive payload_panics (E : env) (P : parser) (pt : addr) (done : list piece) (off : N) (st : state)
  : success -> panic -> Prop :=
| pp_breaks_down x p :
    breaks_down E P pt true false done off st x p -> payload_panics E P pt done off st x p.

(* [leads_to .. w o]: a program that is not a loop, whose pass ended with [w],
   has the outcome [o] *)
Inductive leads_to (E : env) (P : parser) (pt : addr) (start : N) : pass_end -> outcome -> Prop :=
| lt_all done off st r st' :
    closes P pt done st r st' -> leads_to E P pt start (AllDone done off st) (Done r st')
| lt_stop done off st r st' :
    closes P pt done st r st' -> leads_to E P pt start (Signal SStop done off st) (Done r st')
| lt_none done off st : leads_to E P pt start (Signal SNone done off st) (Panicked PUnreachable)
| lt_break n p done off st done' off' st1 x st' :
    takes_payload E P pt start done off st p done' off' st1 -> closes P pt done' st1 (Ok x) st' ->
    leads_to E P pt start (Signal (SBreak n p) done off st) (Done (Ok (SBreak n x)) st')
| lt_break_fail n p done off st done' off' st1 e st' :
    takes_payload E P pt start done off st p done' off' st1 -> closes P pt done' st1 (Err e) st' ->
    leads_to E P pt start (Signal (SBreak n p) done off st) (Done (Err e) st')
| lt_continue n p done off st done' off' st1 r st' :
    takes_payload E P pt start done off st p done' off' st1 -> closes P pt done' st1 r st' ->
    leads_to E P pt start (Signal (SContinue n p) done off st) (Done r st')
| lt_payload n p done off st q :
    payload_panics E P pt done off st p q ->
    leads_to E P pt start (Signal (SBreak n p) done off st) (Panicked q)
| lt_payload_continue n p done off st q :
    payload_panics E P pt done off st p q ->
    leads_to E P pt start (Signal (SContinue n p) done off st) (Panicked q)
| lt_fail done st : leads_to E P pt start (NoMatch done st) (Done (Err FFail) st)
| lt_error e st : leads_to E P pt start (Fatal e st) (Done (Err (FError e)) st)
| lt_panic p : leads_to E P pt start (PassPanics p) (Panicked p)
| lt_never : leads_to E P pt start PassNever Never.

(* the state in which a program starts: its name is known, its token exists *)
Definition program_start (P : parser) (pats : list matcher) (i : pinfo) (s : sid) (st : state) : state :=
  mkSt (st_heap st ++ [std_token P (pi_name i) (mkR 0 0)])
       (scopes_after st s (pi_custom i) (pi_name i) (MProgram pats i)).

(* ---------- loops ---------- *)

(* [loops .. left count done off st o]: [left] iterations may follow, [count]
   are done *)
Inductive loops E P (c : ctx) (i : pinfo) (lo : N) (s : sid) (pt : addr) (pats : list matcher)
  : N -> N -> list piece -> N -> state -> outcome -> Prop :=
(* the range is used up, or Stop: now the minimum counts *)
| lp_empty count done off st :
    lo = 0 -> count = 0 -> all_kids done = [] ->
    loops E P c i lo s pt pats 0 count done off st (Done (Ok (SSkip 0)) st)
| lp_short count done off st :
    count < lo -> loops E P c i lo s pt pats 0 count done off st (Done (Err FFail) st)
| lp_end count done off st r st' :
    lo <= count -> ~ (lo = 0 /\ count = 0 /\ all_kids done = []) -> closes P pt done st r st' ->
    loops E P c i lo s pt pats 0 count done off st (Done r st')
| lp_next left count done off st done' off' st' o :
    0 < left -> pass E P c (pi_name i) s pt pats done off st (AllDone done' off' st') ->
    loops E P c i lo s pt pats (left - 1) (count + 1) done' off' st' o ->
    loops E P c i lo s pt pats left count done off st o
(* a pattern does not match: what was collected so far is the result *)
| lp_fail left count done off st done' st1 r st' :
    0 < left -> pass E P c (pi_name i) s pt pats done off st (NoMatch done' st1) ->
    closes P pt done' st1 r st' ->
    loops E P c i lo s pt pats left count done off st (Done r st')
| lp_error left count done off st e st1 :
    0 < left -> pass E P c (pi_name i) s pt pats done off st (Fatal e st1) ->
    loops E P c i lo s pt pats left count done off st (Done (Err (FError e)) st1)
| lp_panic left count done off st p :
    0 < left -> pass E P c (pi_name i) s pt pats done off st (PassPanics p) ->
    loops E P c i lo s pt pats left count done off st (Panicked p)
| lp_never left count done off st :
    0 < left -> pass E P c (pi_name i) s pt pats done off st PassNever ->
    loops E P c i lo s pt pats left count done off st Never
| lp_none left count done off st done' off' st1 :
    0 < left -> pass E P c (pi_name i) s pt pats done off st (Signal SNone done' off' st1) ->
    loops E P c i lo s pt pats left count done off st (Panicked PUnreachable)
| lp_stop left count done off st done' off' st1 o :
    0 < left -> pass E P c (pi_name i) s pt pats done off st (Signal SStop done' off' st1) ->
    loops E P c i lo s pt pats 0 count done' off' st1 o ->
    loops E P c i lo s pt pats left count done off st o
| lp_payload left count done off st n p done' off' st1 q :
    0 < left ->
    pass E P c (pi_name i) s pt pats done off st (Signal (SBreak n p) done' off' st1) \/
    pass E P c (pi_name i) s pt pats done off st (Signal (SContinue n p) done' off' st1) ->
    payload_panics E P pt done' off' st1 p q ->
    loops E P c i lo s pt pats left count done off st (Panicked q)
| lp_break left count done off st n p done' off' st1 done2 off2 st2 r st' :
    0 < left -> pass E P c (pi_name i) s pt pats done off st (Signal (SBreak n p) done' off' st1) ->
    n = [] \/ n = pi_name i ->
    takes_payload E P pt (rs (c_off c)) done' off' st1 p done2 off2 st2 -> closes P pt done2 st2 r st' ->
    loops E P c i lo s pt pats left count done off st (Done r st')
| lp_break_outer left count done off st n p done' off' st1 done2 off2 st2 x st' :
    0 < left -> pass E P c (pi_name i) s pt pats done off st (Signal (SBreak n p) done' off' st1) ->
    n <> [] -> n <> pi_name i ->
    takes_payload E P pt (rs (c_off c)) done' off' st1 p done2 off2 st2 -> closes P pt done2 st2 (Ok x) st' ->
    loops E P c i lo s pt pats left count done off st (Done (Ok (SBreak n x)) st')
| lp_break_outer_fail left count done off st n p done' off' st1 done2 off2 st2 e st' :
    0 < left -> pass E P c (pi_name i) s pt pats done off st (Signal (SBreak n p) done' off' st1) ->
    n <> [] -> n <> pi_name i ->
    takes_payload E P pt (rs (c_off c)) done' off' st1 p done2 off2 st2 -> closes P pt done2 st2 (Err e) st' ->
    loops E P c i lo s pt pats left count done off st (Done (Err e) st')
| lp_continue left count done off st n p done' off' st1 done2 off2 st2 o :
    0 < left -> pass E P c (pi_name i) s pt pats done off st (Signal (SContinue n p) done' off' st1) ->
    n = [] \/ n = pi_name i ->
    takes_payload E P pt (rs (c_off c)) done' off' st1 p done2 off2 st2 ->
    loops E P c i lo s pt pats (left - 1) (count + 1) done2 off2 st2 o ->
    loops E P c i lo s pt pats left count done off st o
| lp_continue_outer left count done off st n p done' off' st1 done2 off2 st2 r st' :
    0 < left -> pass E P c (pi_name i) s pt pats done off st (Signal (SContinue n p) done' off' st1) ->
    n <> [] -> n <> pi_name i ->
    takes_payload E P pt (rs (c_off c)) done' off' st1 p done2 off2 st2 -> closes P pt done2 st2 r st' ->
    loops E P c i lo s pt pats left count done off st (Done r st').

(* ---------- what an execution may change ---------- *)

Definition heap_size (st : state) : nat := List.length (st_heap st).

(* the tokens with addresses below [h] are what they were *)
Definition preserved (h : nat) (st st' : state) : Prop :=
  (heap_size st <= heap_size st')%nat /\ forall a, (a < h)%nat -> tok st' a = tok st a.

(* the tokens from [h] on form finite trees among themselves, in which
   look-ahead tokens are leaves *)
Definition forest (h : nat) (st : state) : Prop :=
  forall a, (h <= a < heap_size st)%nat ->
    (forall k, In k (tk_kids (tok st a)) ->
       (h <= k < heap_size st)%nat /\ tk_kind (tok st a) = KStandard) /\
    exists l, preorder st [a] l.

(* the tokens in a result *)
Fixpoint success_tokens (x : success) : list addr :=
  match x with
  | SToken a | SProxy a => [a]
  | SBreak _ p | SContinue _ p => success_tokens p
  | _ => []
  end.
Definition result_tokens (r : mres) : list addr :=
  match r with Ok x => success_tokens x | Err _ => [] end.

(* no token below [h] is changed or returned, and the others stay in order *)
Definition stays_above (h : nat) (st : state) (r : mres) (st' : state) : Prop :=
  preserved h st st' /\ forest h st' /\
  forall a, In a (result_tokens r) -> (h <= a < heap_size st')%nat.

(* user code that only touches the tokens it is given and new ones *)
Definition tame (E : env) : Prop :=
  forall h st, (h <= heap_size st)%nat -> forest h st ->
  (forall k a c s r st', (h <= a < heap_size st)%nat ->
     e_map_ok E k a c s st = Ret r st' -> stays_above h st r st') /\
  (forall k e c s r st', e_map_err E k e c s st = Ret r st' -> stays_above h st r st') /\
  (forall k e c r st', e_catch E k e c st = Ret r st' -> stays_above h st r st') /\
  (forall k c s r st', e_user E k c s st = Ret r st' -> stays_above h st r st').

(* one range lies within another *)
Definition covers (big r : range) : Prop := rs big <= rs r /\ re r <= re big.

(* [a] is a token whose children know it and, as far as they are ordinary
   tokens, lie within it *)
Definition family (inside : Prop) (st : state) (a : addr) : Prop :=
  forall k, In k (tk_kids (tok st a)) ->
    tk_parent (tok st k) = Some a /\
    (inside -> tk_kind (tok st k) = KStandard ->
     covers (tk_cr (tok st a)) (tk_cr (tok st k)) /\ covers (tk_mr (tok st a)) (tk_mr (tok st k))).

(* ---------- simple programs and loops ---------- *)

(* every pattern returns an ordinary token that ends elsewhere than it started;
   [l] are the tokens, made children of [pt] *)
Inductive chain E P (c : ctx) (name : str) (s : sid) (pt : addr)
  : list matcher -> N -> state -> list addr -> N -> state -> Prop :=
| chain_nil off st : chain E P c name s pt [] off st [] off st
| chain_cons m ms off st a st1 l off' st' :
    m_consuming m = true ->
    Runs E P m (pattern_ctx c name pt off) s st (Ok (SToken a)) st1 ->
    tk_kind (tok st1 a) = KStandard -> is_error (tok st1 a) = false -> re (tk_mr (tok st1 a)) <> off ->
    chain E P c name s pt ms (re (tk_mr (tok st1 a)))
          (set_tok st1 a (set_parent (Some pt) (tok st1 a))) l off' st' ->
    chain E P c name s pt (m :: ms) off st (a :: l) off' st'.

(* [n] rounds of a loop: passes over all patterns, or continued ones *)
Inductive rounds E P (c : ctx) (i : pinfo) (s : sid) (pt : addr) (pats : list matcher)
  : N -> list piece -> N -> state -> list piece -> N -> state -> Prop :=
| rd_none done off st : rounds E P c i s pt pats 0 done off st done off st
| rd_pass n done off st d1 o1 st1 d2 o2 st2 :
    pass E P c (pi_name i) s pt pats done off st (AllDone d1 o1 st1) ->
    rounds E P c i s pt pats n d1 o1 st1 d2 o2 st2 ->
    rounds E P c i s pt pats (n + 1) done off st d2 o2 st2
| rd_continue n done off st nm p d0 o0 st0 d1 o1 st1 d2 o2 st2 :
    pass E P c (pi_name i) s pt pats done off st (Signal (SContinue nm p) d0 o0 st0) ->
    nm = [] \/ nm = pi_name i ->
    takes_payload E P pt (rs (c_off c)) d0 o0 st0 p d1 o1 st1 ->
    rounds E P c i s pt pats n d1 o1 st1 d2 o2 st2 ->
    rounds E P c i s pt pats (n + 1) done off st d2 o2 st2.

(* [k] copies of a text *)
Definition copies (v : str) (k : nat) : str := List.concat (repeat v k).

(* from the cursor on there are exactly [k] copies of [v]; slices at their
   borders are allowed (always so for texts in UTF-8) *)
Definition literal_run (src v : str) (r : range) (k : nat) : Prop :=
  (exists rest, window src (rs r) (re r) (copies v k ++ rest) /\ ~ has_prefix v rest) /\
  (forall j, (j <= k)%nat -> char_boundary src (rs r + N.of_nat j * slen v)) /\
  char_boundary src (re r).

(* the token of one copy *)
Definition literal_child (t : token) (name : str) (r : range) (pt : addr) : Prop :=
  tk_kind t = KStandard /\ tk_name t = name /\ tk_cr t = r /\ tk_mr t = r /\
  tk_kids t = [] /\ tk_parent t = Some pt /\ tk_attrs t = [] /\ tk_value t = None /\ tk_flags t = 0.

(* [pt] is a token with [k] children, one for each copy of [v] from [off] on *)
Definition literal_row (st : state) (pt : addr) (name : str) (v : str) (off : N) (k : nat) : Prop :=
  tk_kids (tok st pt) = seq (S pt) k /\
  tk_cr (tok st pt) = mkR off (off + N.of_nat k * slen v) /\
  tk_mr (tok st pt) = mkR off (off + N.of_nat k * slen v) /\
  forall j, (j < k)%nat ->
    literal_child (tok st (S pt + j)%nat) name
      (mkR (off + N.of_nat j * slen v) (off + N.of_nat (S j) * slen v)) pt.

(* ---------- scope stacks ---------- *)

(* the scopes below the innermost one are what they were; an empty stack may
   have received its first scope *)
Definition outer_scopes_kept (st st' : state) : Prop :=
  List.length (st_scopes st') = List.length (st_scopes st) /\
  forall s, tl (stack_of st' s) = tl (stack_of st s) /\ (stack_of st s <> [] -> stack_of st' s <> []).

(* user code that respects this *)
Definition scope_tame (E : env) : Prop :=
  (forall k a c s st r st', e_map_ok E k a c s st = Ret r st' -> outer_scopes_kept st st') /\
  (forall k e c s st r st', e_map_err E k e c s st = Ret r st' -> outer_scopes_kept st st') /\
  (forall k e c st r st', e_catch E k e c st = Ret r st' -> outer_scopes_kept st st') /\
  (forall k c s st r st', e_user E k c s st = Ret r st' -> outer_scopes_kept st st').

(* ---------- fetching and pinning ---------- *)

Definition no_dot (s : str) : Prop := ~ In "."%char s.

(* what a stored token is asked for, and the answer *)
Inductive fetches (t : token) : str -> str -> Prop :=
| fe_value : fetches t "captured_value" (get_value t)
| fe_matched : fetches t "matched_value" (get_mvalue t)
| fe_start v : decimal (rs (tk_mr t)) v -> fetches t "start" v
| fe_end v : decimal (re (tk_mr t)) v -> fetches t "end" v
| fe_cstart v : decimal (rs (tk_cr t)) v -> fetches t "captured_start" v
| fe_cend v : decimal (re (tk_cr t)) v -> fetches t "captured_end" v
| fe_range v w : decimal (rs (tk_mr t)) v -> decimal (re (tk_mr t)) w ->
    fetches t "range" (v ++ lit ".." ++ w)
| fe_crange v w : decimal (rs (tk_cr t)) v -> decimal (re (tk_cr t)) w ->
    fetches t "captured_range" (v ++ lit ".." ++ w).

(* a number in decimal, leading zeros allowed, that fits a usize *)
Definition numeral (n : N) (s : str) : Prop :=
  s <> [] /\ (forall x, In x s -> is_digit x) /\ digits_value 0 s = n /\ n <= usize_max.

(* [offset_to base dflt txt n]: the offset text [txt] means [n] *)
Inductive offset_to (base dflt : N) : str -> N -> Prop :=
| of_same txt : In txt [[]; lit "+"; lit "-"; lit "+0"; lit "-0"] -> offset_to base dflt txt dflt
| of_absolute txt n : numeral n txt -> offset_to base dflt txt n
| of_forward txt n : numeral n txt -> txt <> lit "0" -> base + n <= usize_max ->
    offset_to base dflt ("+"%char :: txt) (base + n)
| of_forward_plus txt n : numeral n txt -> base + n <= usize_max ->
    offset_to base dflt ("+"%char :: "+"%char :: txt) (base + n)
| of_back txt n : numeral n txt -> txt <> lit "0" -> n <= base ->
    offset_to base dflt ("-"%char :: txt) (base - n)
| of_back_plus txt n : numeral n txt -> n <= base ->
    offset_to base dflt ("-"%char :: "+"%char :: txt) (base - n).

(* the range that a pin with the text [txt] sets up inside the range [r]; an
   offset for the end is relative to the new start *)
Inductive pins (r : range) : str -> range -> Prop :=
| pin_start txt n : offset_to (rs r) (rs r) txt n -> pins r txt (mkR n (re r))
| pin_both a b n m : offset_to (rs r) (rs r) a n -> offset_to n (re r) b m ->
    pins r (a ++ lit ".." ++ b) (mkR n m).

(* [says st s f txt]: the argument [f] of a matcher stands for the text [txt] *)
Inductive says (st : state) (s : sid) : fetchable -> str -> Prop :=
| says_text txt : says st s (FStr txt) txt
| says_string n txt : no_dot n -> sc_get st s n = Some (VString txt) -> says st s (FFetch n) txt
| says_token n a sub txt : no_dot n -> sc_get st s n = Some (VToken a) -> fetches (tok st a) sub txt ->
    says st s (FFetch (n ++ lit "." ++ sub)) txt.

(* a bare pin token *)
Definition pin_token_is (t : token) (name : str) (r : range) : Prop :=
  tk_kind t = KPin /\ tk_name t = name /\ tk_cr t = r /\ tk_mr t = r /\
  tk_kids t = [] /\ tk_parent t = None /\ tk_attrs t = [] /\ tk_value t = None /\ tk_flags t = 0.

(* ---------- tokenizing ---------- *)

Definition Tokenizes E P c m st (r : tres) (st' : state) : Prop :=
  exists n, tokenize n E P c m st = Ret r st'.

(* no token occurs twice in the tree under [a] *)
Definition is_tree (st : state) (a : addr) : Prop :=
  exists l, preorder st [a] l /\ NoDup l.

(* the tokens from [h] on are proper trees in which errors are leaves *)
Definition orderly (h : nat) (st : state) : Prop :=
  forall a, (h <= a < heap_size st)%nat ->
    is_tree st a /\ (is_error (tok st a) = true -> tk_kids (tok st a) = []).
(* user code that makes nothing but such trees, given such trees *)
Definition tidy (E : env) : Prop :=
  forall h st, (h <= heap_size st)%nat -> forest h st -> orderly h st ->
  (forall k a c s r st', (h <= a < heap_size st)%nat ->
     e_map_ok E k a c s st = Ret r st' -> orderly h st') /\
  (forall k e c s r st', e_map_err E k e c s st = Ret r st' -> orderly h st') /\
  (forall k e c r st', e_catch E k e c st = Ret r st' -> orderly h st') /\
  (forall k c s r st', e_user E k c s st = Ret r st' -> orderly h st').

Definition error_kids (st : state) (a : addr) : list addr :=
  filter (fun k => is_error (tok st k)) (tk_kids (tok st a)).
Definition other_kids (st : state) (a : addr) : list addr :=
  filter (fun k => negb (is_error (tok st k))) (tk_kids (tok st a)).

(* the errors that are children of tokens in the trees under [roots]: those
   from the subtrees of a token come before its own *)
Inductive nested_errors (st : state) : list addr -> list addr -> Prop :=
| ne_nil : nested_errors st [] []
| ne_cons a roots l1 l2 :
    nested_errors st (tk_kids (tok st a)) l1 -> nested_errors st roots l2 ->
    nested_errors st (a :: roots) (l1 ++ error_kids st a ++ l2).

(* [st'] is [st] with the nested errors of the tree under [root] moved to the
   end of its children *)
Definition hoisted (st : state) (root : addr) (st' : state) : Prop :=
  st_scopes st' = st_scopes st /\ heap_size st' = heap_size st /\
  exists l errs,
    preorder st (tk_kids (tok st root)) l /\
    nested_errors st (tk_kids (tok st root)) errs /\
    tok st' root = set_kids (tk_kids (tok st root) ++ errs) (tok st root) /\
    (forall a, In a l -> tok st' a = set_kids (other_kids st a) (tok st a)) /\
    (forall a, a <> root -> ~ In a l -> tok st' a = tok st a).

(* the token that tokenizing takes from the result of the grammar *)
Inductive root_of : success -> addr -> Prop :=
| ro_token a : root_of (SToken a) a
| ro_proxy a : root_of (SProxy a) a
| ro_break n a : root_of (SBreak n (SToken a)) a
| ro_continue n a : root_of (SContinue n (SToken a)) a.

(* ---------- visiting ---------- *)

Definition first_hook {W} (hooks : list (str * hook W)) (name : str) (h : hook W) : Prop :=
  exists before after, hooks = before ++ (name, h) :: after /\ forall h', ~ In (name, h') before.
Definition no_hook {W} (hooks : list (str * hook W)) (name : str) : Prop :=
  forall h, ~ In (name, h) hooks.

(* what happens at a token called [name] *)
Inductive hooked {W} (hooks : list (str * hook W)) (name : str) (a : addr) (w : W) : vres W -> Prop :=
| hk_named h : first_hook hooks name h -> hooked hooks name a w (h a w)
| hk_default h : no_hook hooks name -> first_hook hooks "*" h -> hooked hooks name a w (h a w)
| hk_none : no_hook hooks name -> no_hook hooks "*" -> hooked hooks name a w (VOk w).

(* going through a list of tokens until something goes wrong *)
Inductive walks {W} (hooks : list (str * hook W)) (st : state) : list addr -> W -> vres W -> Prop :=
| wk_end w : walks hooks st [] w (VOk w)
| wk_next a l w w1 r :
    hooked hooks (tk_name (tok st a)) a w (VOk w1) -> walks hooks st l w1 r ->
    walks hooks st (a :: l) w r
| wk_stop a l w r :
    hooked hooks (tk_name (tok st a)) a w r -> (forall w1, r <> VOk w1) ->
    walks hooks st (a :: l) w r.

(* ---------- staying within the source ---------- *)

(* [pos] are the positions that count as proper, [okstr] the strings and
   [okfind] the regular expressions a grammar may look for *)
Section Bounds.
  Variables (src : str) (pos : N -> Prop) (okstr : str -> Prop) (okfind : finder -> Prop).

  Definition literal_ok (f : fetchable) : Prop :=
    match f with
    | FStr v => okstr v
    | FFetch _ => forall v, okstr v
    | FMatcher _ => True
    end.

  (* the closures of Map that make no error tokens *)
  Definition quiet_map (f : mapfn) : Prop :=
    match f with
    | MapAssertIf _ | MapAssertIfNot _ | MapAdextopaScope | MapPatternScope | MapScript => False
    | _ => True
    end.

  (* grammars without pins, without error tokens and without user matchers that
     are not consuming *)
  Inductive bounded : matcher -> Prop :=
  | bd_program ps i : (forall m, In m ps -> bounded m) -> bounded (MProgram ps i)
  | bd_equals f n b : literal_ok f -> bounded (MEquals f n b)
  | bd_matches f n b : okfind f -> bounded (MMatches f n b)
  | bd_sequence f1 f2 f3 n b : literal_ok f1 -> literal_ok f2 -> bounded (MSequence f1 f2 f3 n b)
  | bd_not m : bounded m -> bounded (MNot m)
  | bd_optional m : bounded m -> bounded (MOptional m)
  | bd_discard m : bounded m -> bounded (MDiscard m)
  | bd_null : bounded MNull
  | bd_panic s : bounded (MPanic s)
  | bd_break s : bounded (MBreak s)
  | bd_catch m k : bounded m -> bounded (MCatch m k)
  | bd_map m f : bounded m -> quiet_map f -> bounded (MMap m f)
  | bd_store_string v n b : bounded (MStore (SPString v) n b)
  | bd_store m n b : bounded m -> bounded (MStore (SPMatcher m) n b)
  | bd_fetch n : bounded (MFetch n)
  | bd_register ms : (forall m, In m ms -> bounded m) -> bounded (MRegister ms)
  | bd_ref f n b : (forall m, f = FMatcher m -> bounded m) -> bounded (MRef f n b)
  | bd_set_scope s m : bounded m -> bounded (MSetScope s m)
  | bd_proxy m n b : bounded m -> bounded (MProxy m n b)
  | bd_expand m : bounded m -> bounded (MExpand m)
  | bd_debug m d : bounded m -> bounded (MDebug (Some m) d)
  | bd_debug_none d : bounded (MDebug None d)
  | bd_user k n b : bounded (MUser k n b true).

  (* all matchers that can be referred to are of this kind *)
  Definition scopes_bounded (st : state) : Prop :=
    forall stack sc n m, In stack (st_scopes st) -> In sc stack -> In (n, VMatcher m) sc -> bounded m.

  (* an ordered captured range inside an ordered matched range inside [lo .. hi] *)
  Definition token_fits (lo hi : N) (t : token) : Prop :=
    lo <= rs (tk_mr t) <= rs (tk_cr t) /\ rs (tk_cr t) <= re (tk_cr t) /\
    re (tk_cr t) <= re (tk_mr t) <= hi /\
    pos (rs (tk_mr t)) /\ pos (rs (tk_cr t)) /\ pos (re (tk_cr t)) /\ pos (re (tk_mr t)) /\
    is_error t = false /\ tk_kind t = KStandard.
  (* children follow each other and lie inside the ranges of their parent *)
  Definition kids_fit (st : state) (a : addr) : Prop :=
    StronglySorted (fun x y => re (tk_mr (tok st x)) <= rs (tk_mr (tok st y))) (tk_kids (tok st a)) /\
    forall k, In k (tk_kids (tok st a)) ->
      rs (tk_mr (tok st a)) <= rs (tk_mr (tok st k)) /\ re (tk_mr (tok st k)) <= re (tk_mr (tok st a)) /\
      rs (tk_cr (tok st a)) <= rs (tk_cr (tok st k)) /\ re (tk_cr (tok st k)) <= re (tk_cr (tok st a)).
  Definition tree_fits (lo hi : N) (st : state) (a : addr) : Prop :=
    exists l, preorder st [a] l /\ forall x, In x l -> token_fits lo hi (tok st x) /\ kids_fit st x.

  Fixpoint success_fits (lo hi : N) (st : state) (x : success) : Prop :=
    match x with
    | SToken a | SProxy a => tree_fits lo hi st a
    | SSkip z => (0 <= z)%Z /\ lo + Z.to_N z <= hi /\ pos (lo + Z.to_N z)
    | SBreak _ p | SContinue _ p =>
        match p with SBreak _ _ | SContinue _ _ => False | _ => success_fits lo hi st p end
    | SNone | SStop => True
    end.
  Definition result_fits (lo hi : N) (st : state) (r : mres) : Prop :=
    match r with Ok x => success_fits lo hi st x | Err _ => True end.

  Definition window_ok (c : ctx) : Prop :=
    rs (c_off c) <= re (c_off c) <= slen src /\ pos (rs (c_off c)) /\ pos (re (c_off c)).

  (* user code whose results fit the window it is given *)
  Definition fitting (E : env) : Prop :=
    forall c st, window_ok c -> scopes_bounded st ->
    let fits r st' := result_fits (rs (c_off c)) (re (c_off c)) st' r /\ scopes_bounded st' in
    (forall k a s r st', tree_fits (rs (c_off c)) (re (c_off c)) st a ->
       e_map_ok E k a c s st = Ret r st' -> fits r st') /\
    (forall k e s r st', e_map_err E k e c s st = Ret r st' -> fits r st') /\
    (forall k e r st', e_catch E k e c st = Ret r st' -> fits r st') /\
    (forall k s r st', e_user E k c s st = Ret r st' -> fits r st').
End Bounds.

(* ---------- UTF-8 ---------- *)

(* the number of bytes that follow the first byte of a character *)
Definition utf8_lead (x : ascii) (k : nat) : Prop :=
  (N_of_ascii x < 128 /\ k = 0%nat) \/ (192 <= N_of_ascii x < 224 /\ k = 1%nat) \/
  (224 <= N_of_ascii x < 240 /\ k = 2%nat) \/ (240 <= N_of_ascii x < 248 /\ k = 3%nat).
(* sequences of characters; this includes all of UTF-8 *)
Inductive utf8 : str -> Prop :=
| utf8_nil : utf8 []
| utf8_char x l r : utf8_lead x (List.length l) -> (forall y, In y l -> continuation y) -> utf8 r ->
    utf8 (x :: l ++ r).

(* regular expressions that answer with a range of the text they are given,
   and ones that in addition stop between two characters *)
Definition sane_find (f : finder) : Prop :=
  forall w a b, f w = Some (a, b) -> a <= b <= slen w.
Definition utf8_find (f : finder) : Prop :=
  forall w a b, utf8 w -> f w = Some (a, b) -> a <= b <= slen w /\ char_boundary w b.
