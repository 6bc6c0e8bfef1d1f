(* The script language as a reader of its grammar would describe it: what a
   pattern is, how it is written down, and which matcher it stands for.  The
   grammar of src/script/v1/matchers and the construction of matchers of
   src/script/v1/parser.rs are not used here. *)
From Verif Require Import ScriptBuild Spec SpecScript.
Open Scope string_scope.
Open Scope list_scope.
Open Scope N_scope.

(* ---------- patterns ---------- *)

Inductive sign := Unsigned | Question | Bang.
Inductive repetition :=
| Once
| ZeroOrMore
| OneOrMore
| UpTo (n : N)
| AtLeast (n : N)
| Between (n m : N).
(* what is between "<" and ">": a text, a reference, a delimited sequence, a
   regular expression (with the compiled one, if it compiles), alternatives, a sequence *)
Inductive core (A : Type) :=
| KText (v : str)
| KName (id : str)
| KSequence (a b x : str)
| KRegex (body flags : str) (f : option finder)
| KSwitch (ps : list A)
| KProgram (ps : list A).
Arguments KText {A} v.
Arguments KName {A} id.
Arguments KSequence {A} a b x.
Arguments KRegex {A} body flags f.
Arguments KSwitch {A} ps.
Arguments KProgram {A} ps.
Inductive capture := Plain | Captured | CapturedAs (n : str).
Inductive pat := Pat (c : capture) (outer inner : sign) (k : core pat) (attrs : list (str * str)) (r : repetition).

(* ---------- how they are written ---------- *)

Definition code (x : ascii) : N := N_of_ascii x.
Definition blank_char (x : ascii) : Prop := code x = 32 \/ 9 <= code x <= 13.
Definition blank (t : str) : Prop := Forall blank_char t.
(* blanks without line ends *)
Definition blank_line (t : str) : Prop := Forall (fun x => blank_char x /\ code x <> 10 /\ code x <> 13) t.

Definition digit_char (x : ascii) : Prop := code "0" <= code x <= code "9".
Definition letter (x : ascii) : Prop := code "a" <= code x <= code "z" \/ code "A" <= code x <= code "Z".
Definition id_first (x : ascii) : Prop := letter x \/ x = "$"%char \/ x = "_"%char.
Definition identifier (id : str) : Prop :=
  exists x t, id = x :: t /\ id_first x /\ Forall (fun y => id_first y \/ digit_char y) t.

(* [literal_text v raw]: [raw] stands for [v] between single quotes *)
Inductive literal_text (close : ascii) : str -> str -> Prop :=
| lt_nil : literal_text close [] []
| lt_char x v t : x <> close -> x <> "\"%char -> literal_text close v t -> literal_text close (x :: v) (x :: t)
| lt_escape x v t : literal_text close v t -> literal_text close (x :: v) ("\"%char :: x :: t).
Definition string_text (v t : str) : Prop := exists raw, literal_text "'" v raw /\ t = lit "'" ++ raw ++ lit "'".

Definition sign_text (o : sign) : str := match o with Unsigned => [] | Question => "?" | Bang => "!" end.

(* attributes: their names and values, and their names and uninterpreted
   values *)
Definition attr_name (n : str) : Prop :=
  exists x t, n = x :: t /\ x <> "_"%char /\
    Forall (fun y => letter y \/ digit_char y \/ y = "+"%char \/ y = "_"%char) n.
Inductive attrs_text : list (str * str) -> list (str * str) -> str -> Prop :=
| at_nil : attrs_text [] [] []
| at_cons n v raw b1 b2 b3 l l' t : attr_name n -> blank_line b1 -> blank_line b2 -> blank b3 ->
    literal_text "'" v raw -> attrs_text l l' t ->
    attrs_text ((n, v) :: l) ((n, raw) :: l') (n ++ b1 ++ lit "=" ++ b2 ++ lit "'" ++ raw ++ lit "'" ++ b3 ++ t).

Inductive repeat_text : repetition -> str -> Prop :=
| rt_once : repeat_text Once []
| rt_star : repeat_text ZeroOrMore "*"
| rt_plus : repeat_text OneOrMore "+"
| rt_up_to n d b1 b2 : number n d -> blank_line b1 -> blank_line b2 ->
    repeat_text (UpTo n) (lit "{" ++ b1 ++ d ++ b2 ++ lit "}")
| rt_at_least n d b1 b2 b3 : number n d -> blank_line b1 -> blank_line b2 -> blank_line b3 ->
    repeat_text (AtLeast n) (lit "{" ++ b1 ++ d ++ b2 ++ lit "," ++ b3 ++ lit "}")
| rt_between n d m d' b1 b2 b3 b4 : number n d -> number m d' ->
    blank_line b1 -> blank_line b2 -> blank_line b3 -> blank_line b4 ->
    repeat_text (Between n m) (lit "{" ++ b1 ++ d ++ b2 ++ lit "," ++ b3 ++ d' ++ b4 ++ lit "}").

(* the body of a regular expression: a "/" must be escaped or inside of
   brackets *)
Inductive regex_body : str -> Prop :=
| rb_nil : regex_body []
| rb_char x t : x <> "/"%char -> x <> "\"%char -> x <> "["%char -> regex_body t -> regex_body (x :: t)
| rb_escape x t : code x <> 10 -> regex_body t -> regex_body ("\"%char :: x :: t)
| rb_class v raw t : literal_text "]" v raw -> regex_body t -> regex_body (lit "[" ++ raw ++ lit "]" ++ t).
Definition regex_flags (t : str) : Prop := Forall (fun x => In x (lit "imsU")) t.

(* what is compiled: without a body the whole text is taken for it, with flags
   they are put before it *)
Definition regex_source (body flags : str) : str :=
  let body := match body with [] => lit "//" ++ flags | _ => body end in
  match flags with [] => body | _ => lit "(?" ++ flags ++ lit ")" ++ body end.

(* something must separate a name from an attribute *)
Definition separated {A} (k : core A) (l : list (str * str)) (b : str) : Prop :=
  match k, l with
  | KName _, _ :: _ | KRegex _ _ _, _ :: _ => b <> []
  | _, _ => True
  end.

Section Writing.
  Variable E : env.

  Inductive writes : pat -> str -> Prop :=
  | w_plain o i k l r t : writes_bare o i k l r t -> writes (Pat Plain o i k l r) t
  | w_captured o i k l r t b1 b2 : writes_bare o i k l r t -> blank b1 -> blank b2 ->
      writes (Pat Captured o i k l r) (lit "(" ++ b1 ++ t ++ b2 ++ lit ")")
  | w_named n tn o i k l r t b1 b2 b3 : writes_bare o i k l r t -> string_text n tn ->
      blank b1 -> blank b2 -> blank b3 ->
      writes (Pat (CapturedAs n) o i k l r) (lit "(" ++ b1 ++ lit "?" ++ tn ++ b2 ++ t ++ b3 ++ lit ")")
  with writes_bare : sign -> sign -> core pat -> list (str * str) -> repetition -> str -> Prop :=
  | w_bare o i k l l' r b1 tk b2 tl tr : blank b1 -> writes_core k tk -> blank b2 -> attrs_text l' l tl ->
      separated k l b2 -> repeat_text r tr ->
      writes_bare o i k l r
        (sign_text o ++ lit "<" ++ sign_text i ++ b1 ++ tk ++ b2 ++ tl ++ lit ">" ++ tr)
  with writes_core : core pat -> str -> Prop :=
  | w_text v t : string_text v t -> writes_core (KText v) (lit "=" ++ t)
  | w_name id : identifier id -> writes_core (KName id) id
  | w_sequence a b x ta tb tx b1 b2 b3 b4 b5 :
      string_text a ta -> string_text b tb -> string_text x tx ->
      blank b1 -> blank b2 -> blank b3 -> blank b4 -> blank b5 ->
      writes_core (KSequence a b x)
        (lit "%" ++ b1 ++ ta ++ b2 ++ lit "," ++ b3 ++ tb ++ b4 ++ lit "," ++ b5 ++ tx)
  | w_regex body flags : regex_body body -> regex_flags flags ->
      writes_core (KRegex body flags (e_regex E (regex_source body flags))) (lit "/" ++ body ++ lit "/" ++ flags)
  | w_switch ps t : writes_alternatives ps t -> writes_core (KSwitch ps) (lit "[" ++ t ++ lit "]")
  | w_program ps t : writes_sequence ps t -> writes_core (KProgram ps) (lit "{" ++ t ++ lit "}")
  with writes_alternatives : list pat -> str -> Prop :=
  | wa_last p t b1 b2 : writes p t -> blank b1 -> blank b2 -> writes_alternatives [p] (b1 ++ t ++ b2)
  | wa_bar p t b1 b2 b3 : writes p t -> blank b1 -> blank b2 -> blank b3 ->
      writes_alternatives [p] (b1 ++ t ++ b2 ++ lit "|" ++ b3)
  | wa_more p t ps u b1 b2 : writes p t -> blank b1 -> blank b2 -> writes_alternatives ps u ->
      writes_alternatives (p :: ps) (b1 ++ t ++ b2 ++ lit "|" ++ u)
  with writes_sequence : list pat -> str -> Prop :=
  | wq_last p t b1 b2 : writes p t -> blank b1 -> blank b2 -> writes_sequence [p] (b1 ++ t ++ b2)
  | wq_more p t ps u b1 : writes p t -> blank b1 -> writes_sequence ps u ->
      writes_sequence (p :: ps) (b1 ++ t ++ u).
End Writing.
Scheme writes_ind2 := Minimality for writes Sort Prop
  with writes_bare_ind2 := Minimality for writes_bare Sort Prop
  with writes_core_ind2 := Minimality for writes_core Sort Prop
  with writes_alternatives_ind2 := Minimality for writes_alternatives Sort Prop
  with writes_sequence_ind2 := Minimality for writes_sequence Sort Prop.
Combined Scheme writes_mutind from writes_ind2, writes_bare_ind2, writes_core_ind2, writes_alternatives_ind2, writes_sequence_ind2.

(* ---------- what they stand for ---------- *)

Definition signed (o : sign) (m : matcher) : matcher :=
  match o with Unsigned => m | Question => MOptional m | Bang => MNot m end.

(* the end of a range is exclusive; `{n}` is `0..n` *)
Definition bounds (r : repetition) : option (N * N) :=
  match r with
  | Once => None
  | ZeroOrMore => Some (0, usize_max)
  | OneOrMore => Some (1, usize_max)
  | UpTo n => Some (0, n)
  | AtLeast n => Some (n, usize_max)
  | Between n m => Some (n, m)
  end.
Definition repeated (r : repetition) (m : matcher) : matcher :=
  match bounds r with Some b => MProgram [m] (mkPI "Loop" (Some b) false false) | None => m end.

(* of two attributes with one name the later counts *)
Definition latest (l : list (str * str)) : list (str * str) :=
  fold_left (fun acc p => p :: filter (fun q => negb (str_eqb (fst p) (fst q))) acc) l [].
Definition attributed (l : list (str * str)) (m : matcher) : matcher :=
  match l with [] => m | _ => MMap m (MapAttrs (latest l)) end.

(* [name] is the name given to the pattern, or empty *)
Definition given (name : str) (dflt : String.string) : str := match name with [] => dflt | _ => name end.
Definition is_given (name : str) : bool := match name with [] => false | _ => true end.
Definition core_matcher (sub : pat -> matcher) (name : str) (k : core pat) : matcher :=
  match k with
  | KText v => let n := given name "Equals" in MEquals (FStr v) n (negb (str_eqb n "Equals"))
  | KName id => MRef (FStr id) (given name "Ref") (is_given name)
  | KSequence a b x =>
      let n := given name "Sequence" in MSequence (FStr a) (FStr b) (FStr x) n (negb (str_eqb n "Sequence"))
  | KRegex _ _ (Some f) => let n := given name "Matches" in MMatches f n (negb (str_eqb n "Matches"))
  | KRegex _ _ None => MNull
  | KSwitch ps => MProgram (map sub ps) (mkPI (given name "Switch") None true (is_given name))
  | KProgram ps => MProgram (map sub ps) (mkPI (given name "Program") None false (is_given name))
  end.

(* the matcher of a pattern; what is captured under whatever name is called
   "Name" (C42), what is not captured is discarded *)
Fixpoint meaning (p : pat) : matcher :=
  match p with
  | Pat c o i k l r =>
      let layers name := signed o (repeated r (signed i (attributed l (core_matcher meaning name k)))) in
      match c with
      | Plain => MDiscard (layers [])
      | Captured => layers []
      | CapturedAs _ => layers (lit "Name")
      end
  end.
(* the matcher of a definition `name = <..>` *)
Definition defined (name : str) (o i : sign) (k : core pat) (l : list (str * str)) (r : repetition) : matcher :=
  signed o (repeated r (signed i (attributed l (core_matcher meaning name k)))).

(* ---------- what is wrong with them ---------- *)

Fixpoint first_fault (l : list (option fault)) : option fault :=
  match l with
  | [] => None
  | Some f :: _ => Some f
  | None :: l => first_fault l
  end.
Definition size_fault (n : N) : option fault := if usize_max <? n then Some TooLarge else None.
Definition repetition_fault (r : repetition) : option fault :=
  match r with
  | Once | ZeroOrMore | OneOrMore => None
  | UpTo n | AtLeast n => size_fault n
  | Between n m => first_fault [size_fault n; size_fault m; if m <? n then Some (Reversed n m) else None]
  end.
Definition core_fault (sub : pat -> option fault) (k : core pat) : option fault :=
  match k with
  | KText [] => Some EmptyText
  | KSequence [] _ _ => Some EmptyStart
  | KSequence _ [] _ => Some EmptyEnd
  | KRegex _ _ None => Some BadRegex
  | KSwitch ps | KProgram ps => first_fault (map sub ps)
  | _ => None
  end.
(* the first thing that is wrong with a pattern; None: it stands for a matcher *)
Fixpoint fault_of (p : pat) : option fault :=
  match p with Pat _ _ _ k _ r => first_fault [core_fault fault_of k; repetition_fault r] end.
Definition definition_fault (k : core pat) (r : repetition) : option fault :=
  first_fault [core_fault fault_of k; repetition_fault r].
Definition faultless (ps : list pat) : Prop := Forall (fun p => fault_of p = None) ps.

(* ---------- scripts ---------- *)

(* What the head of a script can say: another name for a matcher, a definition,
   an import with the names asked for and given.  The other name refers to the
   whole text of its statement (C43), so that is what is kept of it. *)
Inductive statement :=
| Alias (x whole : str)
| Define (x : str) (o i : sign) (k : core pat) (l : list (str * str)) (r : repetition)
| Import (names : list (str * str)) (path : str).
Record script := mkScript {
  s_head : option (list (str * str) * list statement); (* attributes and statements *)
  s_patterns : list pat
}.

Definition line_end (x : ascii) : Prop := code x = 10 \/ code x = 13.
Definition starts_line (u : str) : Prop := match u with x :: _ => line_end x | [] => False end.
Definition comment_text (t : str) : Prop := exists c, t = lit "#" ++ c /\ Forall (fun x => ~ line_end x) c.

(* blanks and comments *)
Inductive lead_text : str -> Prop :=
| ld_blank b : blank b -> lead_text b
| ld_comment b c u : blank b -> comment_text c -> starts_line u -> lead_text u -> lead_text (b ++ c ++ u).

(* `name` or `name as other`, and several of them up to the closing brace; a
   comma follows its name directly *)
Inductive name_text : str * str -> str -> Prop :=
| nt_same x : identifier x -> name_text (x, x) x
| nt_as x y b1 b2 : identifier x -> identifier y -> blank b1 -> blank b2 -> b1 <> [] -> b2 <> [] ->
    name_text (x, y) (x ++ b1 ++ lit "as" ++ b2 ++ y).
Inductive names_text : list (str * str) -> str -> Prop :=
| nt_last n t b1 b2 : name_text n t -> blank b1 -> blank b2 -> names_text [n] (b1 ++ t ++ b2 ++ lit "}")
| nt_comma n t b1 b2 : name_text n t -> blank b1 -> blank b2 -> names_text [n] (b1 ++ t ++ lit "," ++ b2 ++ lit "}")
| nt_more n t b1 ns u : name_text n t -> blank b1 -> names_text ns u -> names_text (n :: ns) (b1 ++ t ++ lit "," ++ u).

(* of two attributes with one name the later counts *)
Fixpoint last_of {A} (n : str) (l : list (str * A)) : option A :=
  match l with
  | [] => None
  | (m, v) :: l => match last_of n l with Some v' => Some v' | None => if str_eqb m n then Some v else None end
  end.

Section ScriptWriting.
  Variable E : env.

  Inductive statement_text : statement -> str -> Prop :=
  | st_alias x y b1 b2 t : identifier x -> identifier y -> blank b1 -> blank b2 ->
      t = x ++ b1 ++ lit "=" ++ b2 ++ y -> statement_text (Alias x t) t
  | st_define x o i k l r b1 b2 t : identifier x -> blank b1 -> blank b2 -> writes_bare E o i k l r t ->
      statement_text (Define x o i k l r) (x ++ b1 ++ lit "=" ++ b2 ++ t)
  | st_import ns path b1 b2 b3 tn tp : blank_line b1 -> blank_line b2 -> blank_line b3 ->
      names_text ns tn -> string_text path tp ->
      statement_text (Import ns path) (lit "import" ++ b1 ++ lit "{" ++ tn ++ b2 ++ lit "from" ++ b3 ++ tp).
  (* what may follow without being taken for a part of the statement *)
  Definition statement_ends (s : statement) (u : str) : Prop :=
    match u with
    | [] => True
    | x :: _ =>
        match s with
        | Alias _ _ => ~ (id_first x \/ digit_char x)
        | Define _ _ _ _ _ _ => ~ In x (lit "*+{")
        | Import _ _ => True
        end
    end.

  (* statements, blanks and comments *)
  Inductive statements_text : list statement -> str -> Prop :=
  | ht_end b : blank b -> statements_text [] b
  | ht_comment b c l u : blank b -> comment_text c -> starts_line u -> statements_text l u ->
      statements_text l (b ++ c ++ u)
  | ht_statement b s t l u : blank b -> statement_text s t -> statement_ends s u -> statements_text l u ->
      statements_text (s :: l) (b ++ t ++ u).

  (* patterns, blanks and comments *)
  Inductive body_text : list pat -> str -> Prop :=
  | bt_end b : blank b -> body_text [] b
  | bt_comment b c ps u : blank b -> comment_text c -> u = [] \/ starts_line u -> body_text ps u -> body_text ps (b ++ c ++ u)
  | bt_pattern b p t ps u : blank b -> writes E p t -> body_text ps u -> body_text (p :: ps) (b ++ t ++ u).

  (* A script starts with its head, if it has one, or has patterns.  The head
     may be empty, but does not consist of blanks. *)
  Inductive script_text : script -> str -> Prop :=
  | sx_patterns ps t : ps <> [] -> body_text ps t -> script_text (mkScript None ps) t
  | sx_head l l' v n ss ps lead b ta th tb : lead_text lead -> blank_line b -> attrs_text l l' ta ->
      last_of "version" l = Some v -> usize_text n v ->
      statements_text ss th -> (blank th -> th = []) -> body_text ps tb ->
      script_text (mkScript (Some (l, ss)) ps)
        (lead ++ lit "<!--[adextopa" ++ b ++ ta ++ lit "]" ++ th ++ lit "-->" ++ tb).
End ScriptWriting.

(* ---------- scripts that are not written well ---------- *)

Section BrokenWriting.
  Variable E : env.

  (* a text that starts neither a pattern, a comment or a repetition *)
  Definition junk (t : str) : Prop :=
    exists x u, t = x :: u /\ 33 <= code x < 127 /\ ~ In x (lit "#(<?!*+{").
  (* patterns, blanks and comments, and then such a text *)
  Inductive broken_body : list pat -> str -> Prop :=
  | bb_junk b t : blank b -> junk t -> broken_body [] (b ++ t)
  | bb_comment b c ps u : blank b -> comment_text c -> starts_line u -> broken_body ps u -> broken_body ps (b ++ c ++ u)
  | bb_pattern b p t ps u : blank b -> writes E p t -> broken_body ps u -> broken_body (p :: ps) (b ++ t ++ u).

  (* a head with whatever attributes, but not without anything in it *)
  Inductive head_text : list (str * str) -> list statement -> str -> Prop :=
  | hd_text l l' ss b ta th : blank_line b -> attrs_text l l' ta -> statements_text E ss th -> (blank th -> th = []) ->
      l <> [] \/ th <> [] ->
      head_text l ss (lit "<!--[adextopa" ++ b ++ ta ++ lit "]" ++ th ++ lit "-->").
End BrokenWriting.
(* ---------- scripts with an attribute that is not quoted ---------- *)

Section OpenWriting.
  Variable E : env.

  (* texts that end between the "=" of an attribute and its value *)
  Inductive open_attrs : str -> Prop :=
  | oa_value l l' ta n b1 b2 : attrs_text l l' ta -> n <> [] ->
      Forall (fun y => letter y \/ digit_char y \/ y = "+"%char \/ y = "_"%char) n -> blank_line b1 -> blank_line b2 ->
      open_attrs (ta ++ n ++ b1 ++ lit "=" ++ b2).
  Inductive open_pattern : str -> Prop :=
  | op_plain t : open_bare t -> open_pattern t
  | op_captured b1 t : blank b1 -> open_bare t -> open_pattern (lit "(" ++ b1 ++ t)
  | op_named n tn b1 b2 t : string_text n tn -> blank b1 -> blank b2 -> open_bare t ->
      open_pattern (lit "(" ++ b1 ++ lit "?" ++ tn ++ b2 ++ t)
  with open_bare : str -> Prop :=
  | on_attrs o i b1 k tk b2 ta : blank b1 -> writes_core E k tk -> blank b2 -> (forall l, separated k l b2) -> open_attrs ta ->
      open_bare (sign_text o ++ lit "<" ++ sign_text i ++ b1 ++ tk ++ b2 ++ ta)
  | on_core o i b1 t : blank b1 -> open_core t -> open_bare (sign_text o ++ lit "<" ++ sign_text i ++ b1 ++ t)
  with open_core : str -> Prop :=
  | oc_switch t : open_alternatives t -> open_core (lit "[" ++ t)
  | oc_program t : open_sequence t -> open_core (lit "{" ++ t)
  with open_alternatives : str -> Prop :=
  | ol_here b1 t : blank b1 -> open_pattern t -> open_alternatives (b1 ++ t)
  | ol_after b1 p tp b2 t : blank b1 -> writes E p tp -> blank b2 -> open_alternatives t ->
      open_alternatives (b1 ++ tp ++ b2 ++ lit "|" ++ t)
  with open_sequence : str -> Prop :=
  | oq_here b1 t : blank b1 -> open_pattern t -> open_sequence (b1 ++ t)
  | oq_after b1 p tp t : blank b1 -> writes E p tp -> open_sequence t -> open_sequence (b1 ++ tp ++ t).
  Inductive open_body : str -> Prop :=
  | oy_here b t : blank b -> open_pattern t -> open_body (b ++ t)
  | oy_comment b c t : blank b -> comment_text c -> starts_line t -> open_body t -> open_body (b ++ c ++ t)
  | oy_after b p tp t : blank b -> writes E p tp -> open_body t -> open_body (b ++ tp ++ t).
  Inductive open_statements : str -> Prop :=
  | os_here b x b1 b2 t : blank b -> identifier x -> blank b1 -> blank b2 -> open_bare t ->
      open_statements (b ++ x ++ b1 ++ lit "=" ++ b2 ++ t)
  | os_comment b c t : blank b -> comment_text c -> starts_line t -> open_statements t -> open_statements (b ++ c ++ t)
  | os_after b d td t : blank b -> statement_text E d td -> statement_ends d t -> open_statements t ->
      open_statements (b ++ td ++ t).
  Inductive open_script : str -> Prop :=
  | ox_patterns t : open_body t -> open_script t
  | ox_attrs lead b ta : lead_text lead -> blank_line b -> open_attrs ta ->
      open_script (lead ++ lit "<!--[adextopa" ++ b ++ ta)
  | ox_statements lead b l l' ta t : lead_text lead -> blank_line b -> attrs_text l l' ta -> open_statements t ->
      open_script (lead ++ lit "<!--[adextopa" ++ b ++ ta ++ lit "]" ++ t)
  | ox_body lead b l l' v n ta ss th t : lead_text lead -> blank_line b -> attrs_text l l' ta ->
      last_of "version" l = Some v -> usize_text n v -> statements_text E ss th -> (blank th -> th = []) -> open_body t ->
      open_script (lead ++ lit "<!--[adextopa" ++ b ++ ta ++ lit "]" ++ th ++ lit "-->" ++ t).

  (* [v] stands where the value should be, and is followed by [r] *)
  Definition unquoted (v r : str) : Prop :=
    v <> [] /\ Forall (fun x => x <> "'"%char /\ ~ blank_char x) v /\
    match r with [] => True | x :: _ => x = "'"%char \/ blank_char x end.
End OpenWriting.
Scheme open_pattern_ind2 := Minimality for open_pattern Sort Prop
  with open_bare_ind2 := Minimality for open_bare Sort Prop
  with open_core_ind2 := Minimality for open_core Sort Prop
  with open_alternatives_ind2 := Minimality for open_alternatives Sort Prop
  with open_sequence_ind2 := Minimality for open_sequence Sort Prop.
Combined Scheme open_mutind from open_pattern_ind2, open_bare_ind2, open_core_ind2, open_alternatives_ind2, open_sequence_ind2.

(* the messages that do not tell what is wrong with a script (src/script/v1/parser.rs,
   build_matcher_from_tokens and compile_script) *)
Definition says_nothing (msg : str) : Prop :=
  msg = lit "Expected provided token to be a `Script` token" \/
  msg = lit "Failed to parse script with an unknown error. This is likely a bug. Please report this issue to the adextopa maintainers.".

Definition s_statements (s : script) : list statement := match s_head s with Some (_, ss) => ss | None => [] end.
(* a script is called by its attribute "name", or else as it was asked for *)
Definition s_name (dflt : str) (s : script) : str :=
  match s_head s with
  | Some (l, _) => match last_of "name" l with Some v => v | None => dflt end
  | None => dflt
  end.

Definition statement_fault (d : statement) : option fault :=
  match d with Define _ _ _ k _ r => definition_fault k r | _ => None end.
(* the first thing that is wrong with a script, apart from its imports *)
Definition script_fault (d : script) : option fault :=
  first_fault (map statement_fault (s_statements d) ++ map fault_of (s_patterns d)).

(* ---------- what they stand for ---------- *)

(* Why a written script is refused: a faulty pattern, an import where none is
   allowed, an import of a whole file without another name, of a name that the
   file does not give to a matcher, of a file with errors, of a file that cannot
   be read. *)
Inductive blame :=
| Faulty (f : fault)
| Forbidden
| Unnamed
| Missing (x file : str)
| Inherits (l : list parse_error)
| Broken (p : panic).
(* [x] stands at this place of the source *)
Definition stands (P : parser) (x : str) (place : range) : Prop :=
  exists pre post, p_src P = pre ++ x ++ post /\ place = mkR (slen pre) (slen (pre ++ x)).
Definition blames (P : parser) (b : blame) (t : trouble) : Prop :=
  match b with
  | Faulty f => trouble_of f t
  | Forbidden => exists place, rs place <= re place /\ re place <= slen (p_src P) /\ t = Complaint msg_forbidden place
  | Unnamed => exists place, stands P "_" place /\ t = Complaint msg_unnamed place
  | Missing x file => exists place, stands P x place /\ t = Complaint (msg_missing x file) place
  | Inherits l => t = Inherited l
  | Broken p => t = Crash p
  end.

Section Stating.
  Variables (F : fs) (compile : str -> state -> res script_res) (sc : sid) (from_file : option str).

  (* the effect of a statement on the definitions [sc] of the script *)
  Inductive stated : statement -> state -> state -> Prop :=
  | sd_alias x whole s : stated (Alias x whole) s (sc_set s sc x (VMatcher (MRef (FStr whole) "Ref" false)))
  | sd_define x o i k l r s : definition_fault k r = None ->
      stated (Define x o i k l r) s (sc_set s sc x (VMatcher (defined x o i k l r)))
  | sd_import names path ff file root isc s s1 s' : from_file = Some ff -> fs_join F ff path = Some file ->
      compile file s = Ret (ScriptOk root isc) s1 ->
      imports sc (m_set_name (root_alias names (m_name root)) root) isc names s1 s' ->
      stated (Import names path) s s'.
  Inductive all_stated : list statement -> state -> state -> Prop :=
  | as_nil s : all_stated [] s s
  | as_cons d l s s1 s' : stated d s s1 -> all_stated l s1 s' -> all_stated (d :: l) s s'.
  (* some names are taken over, and then one that cannot be *)
  Inductive names_wrong (root : matcher) (isc : sid) (file : str) : list (str * str) -> state -> blame -> Prop :=
  | nw_unnamed l s : names_wrong root isc file ((lit "_", lit "_") :: l) s Unnamed
  | nw_missing x y l s : x <> lit "_" -> (forall m, sc_get s isc x <> Some (VMatcher m)) ->
      names_wrong root isc file ((x, y) :: l) s (Missing x file)
  | nw_later n l s s1 b : imports sc root isc [n] s s1 -> names_wrong root isc file l s1 b ->
      names_wrong root isc file (n :: l) s b.
  Inductive statement_wrong : statement -> state -> blame -> Prop :=
  | sw_fault d s f : statement_fault d = Some f -> statement_wrong d s (Faulty f)
  | sw_forbidden names path s : from_file = None -> statement_wrong (Import names path) s Forbidden
  | sw_path names path ff s : from_file = Some ff -> fs_join F ff path = None ->
      statement_wrong (Import names path) s (Broken PUnwrap)
  | sw_refused names path ff file s l s1 : from_file = Some ff -> fs_join F ff path = Some file ->
      compile file s = Ret (ScriptErr l) s1 -> statement_wrong (Import names path) s (Inherits l)
  | sw_crash names path ff file s p : from_file = Some ff -> fs_join F ff path = Some file ->
      compile file s = Pan p -> statement_wrong (Import names path) s (Broken p)
  | sw_names names path ff file root isc s s1 b : from_file = Some ff -> fs_join F ff path = Some file ->
      compile file s = Ret (ScriptOk root isc) s1 ->
      names_wrong (m_set_name (root_alias names (m_name root)) root) isc file names s1 b ->
      statement_wrong (Import names path) s b.
  (* some statements, and then one that is wrong *)
  Inductive statements_wrong : list statement -> state -> blame -> Prop :=
  | sx_here d l s b : statement_wrong d s b -> statements_wrong (d :: l) s b
  | sx_later d l s s1 b : stated d s s1 -> statements_wrong l s1 b -> statements_wrong (d :: l) s b.
  (* the first thing that is wrong with the script [d] *)
  Inductive script_wrong (d : script) (s : state) : blame -> Prop :=
  | xf_statement b : statements_wrong (s_statements d) s b -> script_wrong d s b
  | xf_pattern f s' : all_stated (s_statements d) s s' -> first_fault (map fault_of (s_patterns d)) = Some f ->
      script_wrong d s (Faulty f).
End Stating.

(* what a statement gives a name; what the last of the statements that give
   one to [x] gives it *)
Definition defines (d : statement) : option (str * matcher) :=
  match d with
  | Alias x whole => Some (x, MRef (FStr whole) "Ref" false)
  | Define x o i k l r => Some (x, defined x o i k l r)
  | Import _ _ => None
  end.
Fixpoint last_definition (x : str) (l : list statement) : option matcher :=
  match l with
  | [] => None
  | d :: l =>
      match last_definition x l, defines d with
      | Some m, _ => Some m
      | None, Some (y, m) => if str_eqb y x then Some m else None
      | None, None => None
      end
  end.

(* the matcher of a script with the definitions [sc] *)
Definition compiled_script (dflt : str) (sc : sid) (s : script) : matcher :=
  MProgram
    [MSetScope (Some sc)
       (MProxy (MProgram (map meaning (s_patterns s)) (mkPI "Program" None false false)) "Flatten" false)]
    (mkPI (s_name dflt s) None false true).

(* ---------- scripts that import each other ---------- *)

Section Project.
  Variables (E : env) (F : fs).

  (* [file], which is really called [full], contains the script [d] *)
  Definition contains (file full : str) (d : script) : Prop :=
    exists src, fs_canon F file = Some full /\ fs_read F full = Some src /\
      ascii_only src /\ slen src < isize_bound /\ script_text E d src.

  (* the names a statement gives something to *)
  Definition names_of (d : statement) : list str :=
    match d with Alias x _ | Define x _ _ _ _ _ => [x] | Import names _ => map snd names end.
  Definition given_names (d : script) : list str := flat_map names_of (s_statements d).
  (* what can be imported from [d]: its names, and the whole of it under a name *)
  Definition can_import (d : script) (n : str * str) : Prop :=
    (fst n = lit "_" /\ snd n <> lit "_") \/ (fst n <> lit "_" /\ In (fst n) (given_names d)).

  (* imports lead to files that have what is imported, and not in circles *)
  Inductive sound : str -> script -> Prop :=
  | so_file file full d : contains file full d -> sound_statements full (s_statements d) -> faultless (s_patterns d) ->
      sound file d
  with sound_statements : str -> list statement -> Prop :=
  | so_nil full : sound_statements full []
  | so_own full d x m l : defines d = Some (x, m) -> statement_fault d = None -> sound_statements full l ->
      sound_statements full (d :: l)
  | so_import full names path file d l : fs_join F full path = Some file -> sound file d ->
      Forall (can_import d) names -> sound_statements full l -> sound_statements full (Import names path :: l).

  (* why a file does not compile: a panic; errors like these; what is wrong with
     the script of this source *)
  Inductive cause := Crashes (p : panic) | Says (Q : list parse_error -> Prop) | Refuses (P : parser) (b : blame).
  Definition ends_as (c : cause) (out : res script_res) : Prop :=
    match c with
    | Crashes p => out = Pan p
    | Says Q => exists l st, Q l /\ out = Ret (ScriptErr l) st
    | Refuses P b => exists t, blames P b t /\ ends_in P t out
    end.
  (* [has_script file full src d]: [contains] with the text *)
  Definition has_script (file full src : str) (d : script) : Prop :=
    fs_canon F file = Some full /\ fs_read F full = Some src /\
    ascii_only src /\ slen src < isize_bound /\ script_text E d src.
  (* [src] is no script: nothing but errors like these comes of it *)
  Definition no_script (file full src : str) (Q : list parse_error -> Prop) : Prop :=
    fs_canon F file = Some full /\ fs_read F full = Some src /\
    forall compile st, exists fuel l st', Q l /\
      compile_with fuel E F compile (parser_named src full) file (Some full) false st = Ret (ScriptErr l) st'.
  (* why [n] cannot be imported *)
  Definition name_blame (file : str) (n : str * str) : blame :=
    if str_eqb (fst n) (lit "_") then Unnamed else Missing (fst n) file.
  (* the first thing that keeps a file from being compiled, in the order of the
     statements, imported files being gone through where they are imported *)
  Inductive culprit : str -> cause -> Prop :=
  | cu_lost file : fs_canon F file = None -> culprit file (Crashes PUnwrap)
  | cu_unreadable file full : fs_canon F file = Some full -> fs_read F full = None -> culprit file (Crashes PUnwrap)
  | cu_no_script file full src Q : no_script file full src Q -> culprit file (Says Q)
  | cu_statement file full src d c : has_script file full src d -> culprit_in src full (s_statements d) c -> culprit file c
  | cu_pattern file full src d f : has_script file full src d -> sound_statements full (s_statements d) ->
      first_fault (map fault_of (s_patterns d)) = Some f -> culprit file (Refuses (parser_named src full) (Faulty f))
  with culprit_in : str -> str -> list statement -> cause -> Prop :=
  | ci_fault src full d l f : statement_fault d = Some f ->
      culprit_in src full (d :: l) (Refuses (parser_named src full) (Faulty f))
  | ci_path src full names path l : fs_join F full path = None -> culprit_in src full (Import names path :: l) (Crashes PUnwrap)
  | ci_import src full names path file l c : fs_join F full path = Some file -> culprit file c ->
      culprit_in src full (Import names path :: l) c
  | ci_name src full names n more path file d l : fs_join F full path = Some file -> sound file d ->
      Forall (can_import d) names -> ~ can_import d n ->
      culprit_in src full (Import (names ++ n :: more) path :: l) (Refuses (parser_named src full) (name_blame file n))
  | ci_later src full d l c : sound_statements full [d] -> culprit_in src full l c -> culprit_in src full (d :: l) c.

  (* imports do not lead in circles; the files there are are written scripts or
     ones of which only errors come *)
  Inductive explored : str -> Prop :=
  | ex_lost file : fs_canon F file = None -> explored file
  | ex_unreadable file full : fs_canon F file = Some full -> fs_read F full = None -> explored file
  | ex_no_script file full src Q : no_script file full src Q -> explored file
  | ex_file file full src d : has_script file full src d ->
      (forall names path next, In (Import names path) (s_statements d) -> fs_join F full path = Some next -> explored next) ->
      explored file.

  (* what an import of [n] from [root] with the definitions [isc] binds *)
  Definition import_binds (st : state) (root : matcher) (isc : sid) (n : str * str) (b : str * matcher) : Prop :=
    fst b = snd n /\
    ((fst n = lit "_" /\ snd b = root) \/
     (fst n <> lit "_" /\ exists m, sc_get st isc (fst n) = Some (VMatcher m) /\
        snd b = MSetScope (Some isc) (MMap m (MapRename (snd n))))).

  (* [compiled st lo hi file d m sc]: [m] and the definitions [sc] of [st] are
     what the script [d] of [file] says, and so are those of the files it
     imports; all of the definitions are in scopes from [lo] to before [hi],
     those of each file in one of its own *)
  Inductive compiled (st : state) : sid -> sid -> str -> script -> matcher -> sid -> Prop :=
  | cp_file lo hi file full d sc bs : contains file full d -> faultless (s_patterns d) -> (lo <= sc < hi)%nat -> valid_scope st sc ->
      binds st (S sc) hi full (s_statements d) bs ->
      (forall x, sc_get st sc x = option_map VMatcher (last_of x bs)) ->
      compiled st lo hi file d (compiled_script file sc d) sc
  with binds (st : state) : sid -> sid -> str -> list statement -> list (str * matcher) -> Prop :=
  | bi_nil lo hi full : (lo <= hi)%nat -> binds st lo hi full [] []
  | bi_own lo hi full d x m l bs : defines d = Some (x, m) -> statement_fault d = None -> binds st lo hi full l bs ->
      binds st lo hi full (d :: l) ((x, m) :: bs)
  | bi_import lo mid hi full names path file d root isc l nbs bs : fs_join F full path = Some file ->
      compiled st lo mid file d root isc ->
      Forall2 (import_binds st (m_set_name (root_alias names (m_name root)) root) isc) names nbs ->
      binds st mid hi full l bs -> binds st lo hi full (Import names path :: l) (nbs ++ bs).
End Project.
Scheme sound_ind2 := Minimality for sound Sort Prop
  with sound_statements_ind2 := Minimality for sound_statements Sort Prop.
Combined Scheme sound_mutind from sound_ind2, sound_statements_ind2.
Scheme culprit_ind2 := Minimality for culprit Sort Prop
  with culprit_in_ind2 := Minimality for culprit_in Sort Prop.
Combined Scheme culprit_mutind from culprit_ind2, culprit_in_ind2.
Scheme compiled_ind2 := Minimality for compiled Sort Prop
  with binds_ind2 := Minimality for binds Sort Prop.
Combined Scheme compiled_mutind from compiled_ind2, binds_ind2.

(* [st'] is [st] with more tokens and scopes *)
Definition grown (st st' : state) : Prop :=
  exists h s, st_heap st' = st_heap st ++ h /\ st_scopes st' = st_scopes st ++ s.
