(* Strings, slices and machine integers used by the model.
   Rust [String]/[&str] are sequences of UTF-8 bytes; here they are lists of
   [ascii] (a byte).  Nothing in this file models code of /repo directly: it
   models the pieces of the Rust standard library (and of the `substring`
   crate) that /repo/src calls, as cited at each definition. *)
From Coq Require Export List Arith NArith ZArith Bool Ascii String Lia.
From Coq Require Import Decimal DecimalNat.
Export ListNotations.
Open Scope N_scope.

(* Rust [String] / [&str]; used in every file of /repo/src. *)
Definition str := list ascii.

(* String literals: `"abc"` in Coq source is turned into its bytes. *)
Definition lit (s : string) : str := list_ascii_of_string s.
Coercion lit : string >-> str.

(* [str::len], in bytes; e.g. src/parser_context.rs:33, 98. *)
Definition slen (s : str) : N := N.of_nat (List.length s).

(* `==` on strings; e.g. src/matchers/program.rs:416. *)
Fixpoint str_eqb (a b : str) : bool :=
  match a, b with
  | [], [] => true
  | x :: a', y :: b' => Ascii.eqb x y && str_eqb a' b'
  | _, _ => false
  end.

(* [str::starts_with]; src/parser_context.rs:104, 118. *)
Fixpoint starts_with (p s : str) : bool :=
  match p, s with
  | [], _ => true
  | x :: p', y :: s' => Ascii.eqb x y && starts_with p' s'
  | _ :: _, [] => false
  end.

(* UTF-8 continuation byte 10xxxxxx (a byte that is not a char boundary). *)
Definition is_cont (c : ascii) : bool :=
  let n := N_of_ascii c in (128 <=? n) && (n <? 192).

(* [str::is_char_boundary]. *)
Definition is_boundary (s : str) (i : N) : bool :=
  if i =? 0 then true
  else match N.compare i (slen s) with
       | Eq => true
       | Gt => false
       | Lt => match nth_error s (N.to_nat i) with
               | Some c => negb (is_cont c)
               | None => false
               end
       end.

(* bytes [a, b) of s, without any check *)
Definition sub (s : str) (a b : N) : str :=
  firstn (N.to_nat (b - a)) (skipn (N.to_nat a) s).

(* `&s[a..b]`: [None] is the panic of an invalid slice;
   src/parser_context.rs:102, 116, 126, 151, 174, 175, 187,
   src/matchers/sequence.rs:173, 215. *)
Definition slice (s : str) (a b : N) : option str :=
  if (a <=? b) && (b <=? slen s) && is_boundary s a && is_boundary s b
  then Some (sub s a b) else None.

(* Skip [n] characters (a character starts at every non-continuation byte);
   used to model `substring` of the substring crate, which indexes with
   [char_indices]. *)
Fixpoint drop_chars (n : N) (s : str) : str :=
  match s with
  | [] => []
  | c :: s' => if is_cont c then drop_chars n s'
               else if n =? 0 then s else drop_chars (n - 1) s'
  end.

(* Keep the first [n] characters (all their bytes). *)
Fixpoint take_chars (n : N) (s : str) : str :=
  match s with
  | [] => []
  | c :: s' => if is_cont c then c :: take_chars n s'
               else if n =? 0 then [] else c :: take_chars (n - 1) s'
  end.

(* substring::Substring::substring(start, end): empty when end <= start,
   otherwise the characters with index in [start, end), clamped;
   called at src/source_range.rs:20-26. *)
Definition char_substring (s : str) (a b : N) : str :=
  if b <=? a then [] else take_chars (b - a) (drop_chars a s).

(* usize::MAX on a 64-bit target; src/matchers/program.rs:16, 167, 168, 612. *)
Definition usize_max : N := 18446744073709551615.
Definition usize_mod : N := 18446744073709551616.

(* `a + b` on usize: with overflow checks (debug build) an overflow panics
   ([None]); without (release build) it wraps. *)
Definition usize_add (chk : bool) (a b : N) : option N :=
  if a + b <=? usize_max then Some (a + b)
  else if chk then None else Some ((a + b) mod usize_mod).

(* `a - b` on usize. *)
Definition usize_sub (chk : bool) (a b : N) : option N :=
  if b <=? a then Some (a - b)
  else if chk then None else Some ((a + usize_mod - b) mod usize_mod).

(* `x as isize` for a usize. *)
Definition as_isize (x : N) : Z :=
  if x <? 9223372036854775808 then Z.of_N x else (Z.of_N x - Z.of_N usize_mod)%Z.

(* `z as usize` for an isize. *)
Definition as_usize (z : Z) : N := Z.to_N (z mod Z.of_N usize_mod)%Z.

(* `a - b` on isize. *)
Definition isize_sub (chk : bool) (a b : Z) : option Z :=
  let r := (a - b)%Z in
  if ((-9223372036854775808 <=? r) && (r <=? 9223372036854775807))%Z then Some r
  else if chk then None
  else Some (((r + 9223372036854775808) mod Z.of_N usize_mod) - 9223372036854775808)%Z.

(* Decimal formatting `{}` of a usize; src/parser_context.rs:235-243,
   src/matchers/fetch.rs:37-49. *)
Fixpoint uint_str (u : Decimal.uint) : str :=
  match u with
  | Nil => []
  | D0 u => "0"%char :: uint_str u
  | D1 u => "1"%char :: uint_str u
  | D2 u => "2"%char :: uint_str u
  | D3 u => "3"%char :: uint_str u
  | D4 u => "4"%char :: uint_str u
  | D5 u => "5"%char :: uint_str u
  | D6 u => "6"%char :: uint_str u
  | D7 u => "7"%char :: uint_str u
  | D8 u => "8"%char :: uint_str u
  | D9 u => "9"%char :: uint_str u
  end.
Definition dec (n : N) : str := uint_str (N.to_uint n).

Definition digit (c : ascii) : option N :=
  let n := N_of_ascii c in
  if (48 <=? n) && (n <=? 57) then Some (n - 48) else None.

Fixpoint parse_digits (acc : N) (s : str) : option N :=
  match s with
  | [] => Some acc
  | c :: s' => match digit c with
               | Some d => let acc' := acc * 10 + d in
                           if acc' <=? usize_max then parse_digits acc' s' else None
               | None => None
               end
  end.

(* [str::parse::<usize>]: optional '+', at least one digit, no overflow;
   src/matchers/pin.rs:42, src/script/v1/matchers/repeat_specifier.rs. *)
Definition parse_usize (s : str) : option N :=
  match s with
  | [] => None
  | c :: s' =>
      if Ascii.eqb c "+"
      then match s' with [] => None | _ => parse_digits 0 s' end
      else parse_digits 0 s
  end.

(* [str::split(sep)] for a non-empty separator; src/matchers/fetch.rs:18,
   src/matchers/pin.rs:333.  [skip] counts the separator bytes still to drop. *)
Fixpoint split_go (sep : str) (skip : nat) (cur : str) (s : str) : list str :=
  match s with
  | [] => [cur]
  | c :: s' =>
      match skip with
      | S k => split_go sep k cur s'
      | O => if starts_with sep s
             then cur :: split_go sep (Nat.pred (List.length sep)) [] s'
             else split_go sep O (cur ++ [c]) s'
      end
  end.
Definition split (sep s : str) : list str := split_go sep O [] s.

(* Line terminators `\r\n|\n|\r`, leftmost-first and non-overlapping: the end
   offsets of all matches of NEWLINES.find_iter;
   src/parser_context.rs:14-16, 174, 175, 187. *)
Definition LF : ascii := ascii_of_N 10.
Definition CR : ascii := ascii_of_N 13.
Fixpoint newline_ends (pos : N) (s : str) : list N :=
  match s with
  | [] => []
  | c :: s' =>
      if Ascii.eqb c LF then (pos + 1) :: newline_ends (pos + 1) s'
      else if Ascii.eqb c CR then
             match s' with
             | d :: s'' => if Ascii.eqb d LF
                           then (pos + 2) :: newline_ends (pos + 2) s''
                           else (pos + 1) :: newline_ends (pos + 1) s'
             | [] => [pos + 1]
             end
           else newline_ends (pos + 1) s'
  end.

(* HashMap<String, _>: association list with unique keys, newest first.
   src/scope.rs:16, src/token.rs:211. *)
Fixpoint assoc_get {A} (k : str) (l : list (str * A)) : option A :=
  match l with
  | [] => None
  | (k', v) :: l' => if str_eqb k k' then Some v else assoc_get k l'
  end.
Definition assoc_set {A} (k : str) (v : A) (l : list (str * A)) : list (str * A) :=
  (k, v) :: filter (fun p => negb (str_eqb k (fst p))) l.

(* `v[n] = x` on a Vec; out-of-range writes do not occur. *)
Fixpoint upd {A} (n : nat) (x : A) (l : list A) : list A :=
  match l, n with
  | [], _ => []
  | _ :: l', O => x :: l'
  | y :: l', S n' => y :: upd n' x l'
  end.
