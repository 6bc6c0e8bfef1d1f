(* How the smallest parts of scripts are written: the tokens without children,
   their text, what follows it, and their value. *)
From Verif Require Import ScriptBuild Spec SpecScript SpecSyntax.
Open Scope string_scope.
Open Scope list_scope.
Open Scope N_scope.

Definition id_more (x : ascii) : Prop := id_first x \/ digit_char x.
Definition attr_more (x : ascii) : Prop := letter x \/ digit_char x \/ x = "+"%char \/ x = "_"%char.
Definition in_line (x : ascii) : Prop := code x <> 10 /\ code x <> 13.
Definition regex_plain (x : ascii) : Prop := x <> "/"%char /\ x <> "\"%char /\ x <> "["%char.

(* the rest of the text does not begin with such a character *)
Definition stops (Q : ascii -> Prop) (rest : str) : Prop := match rest with [] => True | x :: _ => ~ Q x end.

(* tokens that are always written in the same way *)
Definition fixed : list (str * str) :=
  [(lit "RegexStart", lit "/"); (lit "RegexEnd", lit "/"); (lit "Seperator", lit ",");
   (lit "RepeatZeroOrMore", lit "*"); (lit "RepeatOneOrMore", lit "+");
   (lit "OuterOptionalModifier", lit "?"); (lit "OuterNotModifier", lit "!");
   (lit "InnerOptionalModifier", lit "?"); (lit "InnerNotModifier", lit "!")].
Definition named (ns : list string) (n : str) : Prop := In n (map lit ns).

(* [lexeme n v t rest]: a token of the name [n] with the value [v] may be
   written [t] before [rest] *)
Inductive lexeme : str -> str -> str -> str -> Prop :=
| lx_fixed n t rest : In (n, t) fixed -> lexeme n t t rest
| lx_identifier n t rest : named ["Identifier"; "ImportName"; "ImportAsName"] n ->
    identifier t -> stops id_more rest -> lexeme n t t rest
| lx_string n v t rest :
    named ["String"; "Value"; "Path"; "Name"; "StartPattern"; "EndPattern"; "EscapePattern"] n ->
    string_text v t -> lexeme n v t rest
| lx_attribute t rest : t <> [] -> Forall attr_more t -> stops attr_more rest -> lexeme (lit "Name") t t rest
| lx_digits n t rest : named ["Minimum"; "Maximum"] n ->
    t <> [] -> Forall digit_char t -> stops digit_char rest -> lexeme n t t rest
| lx_comment t rest : Forall in_line t -> stops in_line rest -> lexeme (lit "Comment") (lit "#" ++ t) (lit "#" ++ t) rest
| lx_flags t rest : t <> [] -> regex_flags t -> stops (fun x => In x (lit "imsU")) rest -> lexeme (lit "Flags") t t rest
| lx_plain t rest : t <> [] -> Forall regex_plain t -> stops regex_plain rest -> lexeme (lit "Part") t t rest
| lx_escape x rest : code x <> 10 -> lexeme (lit "Part") ["\"%char; x] ["\"%char; x] rest
| lx_class v raw rest : literal_text "]" v raw -> lexeme (lit "Part") v (lit "[" ++ raw ++ lit "]") rest.

(* the token [a] covers the text of such a lexeme *)
Definition written (P : parser) (st : state) (a : addr) : Prop :=
  exists pre t post,
    p_src P = pre ++ t ++ post /\
    tk_mr (tok st a) = mkR (slen pre) (slen pre + slen t) /\
    lexeme (tk_name (tok st a)) (get_value (tok st a)) t post.
