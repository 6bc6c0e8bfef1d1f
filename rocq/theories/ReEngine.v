(* A small regular-expression matcher, covering the expressions that occur as
   literals in /repo/src (the script grammar and the unit tests).  It replaces
   regex::Regex::find (an external crate) for those expressions: leftmost match,
   greedy quantifiers, backtracking, on UTF-8 characters.  Perl classes follow
   Unicode in the crate; their non-ASCII part comes from the environment
   (e_word, e_space, e_digit). *)
From Verif Require Export Macros.
Open Scope string_scope.
Open Scope list_scope.
Open Scope N_scope.

(* The characters of a UTF-8 string with their lengths in bytes; what
   regex::Regex::find iterates over (src/parser_context.rs:128). *)
Fixpoint decode (s : str) : list (N * N) :=
  match s with
  | [] => []
  | a :: s1 =>
      let x := N_of_ascii a in
      if x <? 192 then (x, 1) :: decode s1
      else match s1 with
           | [] => [(x, 1)]
           | b :: s2 =>
               let y := N_of_ascii b mod 64 in
               if x <? 224 then ((x mod 32) * 64 + y, 2) :: decode s2
               else match s2 with
                    | [] => [(x, 1); (y, 1)]
                    | c :: s3 =>
                        let z := N_of_ascii c mod 64 in
                        if x <? 240 then (((x mod 16) * 64 + y) * 64 + z, 3) :: decode s3
                        else match s3 with
                             | [] => [(x, 1); (y, 1); (z, 1)]
                             | d :: s4 =>
                                 ((((x mod 8) * 64 + y) * 64 + z) * 64 + N_of_ascii d mod 64, 4)
                                 :: decode s4
                             end
                    end
           end
  end.

(* regex crate (called at src/parser_context.rs:128).  One item: a character class that must match once or any number of times. *)
Inductive item := One (c : N -> bool) | Star (c : N -> bool).
(* regex crate: a compiled expression, an alternation of concatenations of items. *)
Definition regex := list (list item).

(* regex crate, greedy star: zero or more characters of [c], as many as possible, then [k] *)
Fixpoint star (c : N -> bool) (k : list (N * N) -> option N) (s : list (N * N)) : option N :=
  match s with
  | (x, l) :: s' =>
      if c x then match star c k s' with Some n => Some (l + n) | None => k s end
      else k s
  | [] => k s
  end.

(* regex crate, concatenation: length in bytes of the match of the items at the start of [s] *)
Fixpoint match_items (r : list item) (s : list (N * N)) : option N :=
  match r with
  | [] => Some 0
  | One c :: r' =>
      match s with
      | (x, l) :: s' => if c x then match match_items r' s' with
                                    | Some n => Some (l + n)
                                    | None => None
                                    end
                        else None
      | [] => None
      end
  | Star c :: r' => star c (match_items r') s
  end.

(* regex crate, alternation: first alternative that matches *)
Fixpoint match_alts (r : regex) (s : list (N * N)) : option N :=
  match r with
  | [] => None
  | a :: r' => match match_items a s with Some n => Some n | None => match_alts r' s end
  end.

(* regex crate, unanchored search: leftmost match, scanning from [pos] *)
Fixpoint find_from (r : regex) (pos : N) (s : list (N * N)) : option (N * N) :=
  match match_alts r s with
  | Some n => Some (pos, pos + n)
  | None => match s with
            | [] => None
            | (_, l) :: s' => find_from r (pos + l) s'
            end
  end.

(* regex::Regex::find (called at src/parser_context.rs:128) *)
Definition re_find (r : regex) : finder := fun s => find_from r 0 (decode s).

(* ---- classes (syntax of the regex crate) ---- *)

(* a literal character *)
Definition ch (a : ascii) : N -> bool := fun x => x =? N_of_ascii a.
(* [a-b] *)
Definition rng (a b : ascii) : N -> bool := fun x => (N_of_ascii a <=? x) && (x <=? N_of_ascii b).
(* union of two classes *)
Definition orb_ (c d : N -> bool) : N -> bool := fun x => c x || d x.
(* [^..] *)
Definition not_ (c : N -> bool) : N -> bool := fun x => negb (c x).
(* \d *)
Definition cdigit (E : env) : N -> bool :=
  fun x => if x <? 128 then rng "0" "9" x else e_digit E x.
(* \w *)
Definition cword (E : env) : N -> bool :=
  fun x => if x <? 128 then rng "0" "9" x || rng "a" "z" x || rng "A" "Z" x || ch "_" x
           else e_word E x.
(* \s *)
Definition cspace (E : env) : N -> bool :=
  fun x => if x <? 128 then (x =? 32) || ((9 <=? x) && (x <=? 13)) else e_space E x.
(* c+ *)
Definition plus (c : N -> bool) : list item := [One c; Star c].
(* a literal string *)
Definition lit_re (s : str) : list item := map (fun a => One (ch a)) s.
