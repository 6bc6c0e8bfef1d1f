(* What is said of texts and files that are not compiled. *)
From Verif Require Import ScriptBuild Spec SpecMore SpecScript SpecSyntax SpecShape.
Open Scope string_scope.
Open Scope list_scope.
Open Scope N_scope.

(* the value of an attribute is not between quotes; the place is that of the
   characters up to the next blank or quote *)
Definition said_unquoted (P : parser) (e : parse_error) : Prop :=
  exists pre v rest text,
    p_src P = pre ++ v ++ rest /\ unquoted v rest /\
    error_text P "Malformed attribute detected. Attribute value is not single-quoted. The proper format for an attribute is: name='value'"
      (mkR (slen pre) (slen pre + slen v)) text /\
    e = mkPE text (Some (mkR (slen pre) (slen pre + slen v))).

(* why there is no matcher for a pattern *)
Inductive pattern_reason : str -> Prop :=
| pr_fault f msg : complains f msg -> pattern_reason msg
| pr_regex : pattern_reason "Value can not be empty for a `Matches` pattern definition"
| pr_digit : pattern_reason "invalid digit found in string".

(* [place]: where the error is; [said P msg place e]: the error [e] has this message and this place *)
Definition said (P : parser) (msg : str) (place : range) (e : parse_error) : Prop :=
  exists text, error_text P msg place text /\ e = mkPE text (Some place).

Definition parsed_script (E : env) (P : parser) (st : state) (root : addr) : Prop :=
  exists name st0, Tokenizes E P (script_ctx P name st0) (Script_ E) (script_start E P name st0) (TOk root) st.

(* what is noted of an error token *)
Definition note (st : state) (a : addr) : list parse_error :=
  match get_attr "__message" (tok st a) with
  | Some m => if str_eqb (tk_name (tok st a)) "Error" then [mkPE m (Some (tk_mr (tok st a)))] else []
  | None => []
  end.

(* [i] is a name that the import statement [a] wants *)
Definition wanted (st : state) (a i : addr) : Prop :=
  exists ii k, first_kid st a ["ImportIdentifiers"] ii /\ In k (tk_kids (tok st ii)) /\ first_kid st k ["ImportName"] i.

(* the message and the place of an error that the token [a] is to blame for.
   [from]: the file the text comes from; [join]: how paths are resolved *)
Inductive blamed (from : option str) (join : str -> str -> option str) (st : state) (a : addr) : str -> range -> Prop :=
| bl_pattern msg : In (tk_name (tok st a)) (names ["AssignmentExpression"; "PatternScope"]) -> pattern_reason msg ->
    blamed from join st a (pattern_message msg) (mkR 0 0)
| bl_import : from = None -> tk_name (tok st a) = "ImportStatement" -> blamed from join st a msg_forbidden (tk_mr (tok st a))
| bl_unnamed f i : from = Some f -> tk_name (tok st a) = "ImportStatement" -> wanted st a i -> get_value (tok st i) = lit "_" ->
    blamed from join st a msg_unnamed (tk_mr (tok st i))
| bl_missing f i q file : from = Some f -> tk_name (tok st a) = "ImportStatement" -> wanted st a i -> get_value (tok st i) <> lit "_" ->
    first_kid st a ["Path"] q -> join f (get_value (tok st q)) = Some file ->
    blamed from join st a (msg_missing (get_value (tok st i)) file) (tk_mr (tok st i)).

(* the errors of a text: one without a token; or the errors noted by the tokens
   [l1] before the token [a], then the one [a] is to blame for or those of the
   file that it imports.  [inner]: the errors of files *)
Inductive refused (E : env) (P : parser) (from : option str) (join : str -> str -> option str) (inner : str -> list parse_error -> Prop)
  : list parse_error -> Prop :=
| rf_parse : refused E P from join inner
    [mkPE "Failed to parse script with an unknown error. This is likely a bug. Please report this issue to the adextopa maintainers." None]
| rf_root st root : parsed_script E P st root -> is_error (tok st root) = true ->
    refused E P from join inner [mkPE "Expected provided token to be a `Script` token" None]
| rf_value e : said_unquoted P e -> refused E P from join inner [e]
| rf_token st root l1 a l2 msg place e : parsed_script E P st root -> preorder st [root] (l1 ++ a :: l2) ->
    blamed from join st a msg place -> said P msg place e ->
    refused E P from join inner (flat_map (note st) l1 ++ [e])
| rf_import st root l1 a l2 f q file l : parsed_script E P st root -> preorder st [root] (l1 ++ a :: l2) ->
    from = Some f -> tk_name (tok st a) = "ImportStatement" -> first_kid st a ["Path"] q -> join f (get_value (tok st q)) = Some file ->
    inner file l -> refused E P from join inner (flat_map (note st) l1 ++ l).

(* the errors of a file *)
Inductive file_refused (E : env) (F : fs) : str -> list parse_error -> Prop :=
| fr_file file full src l : fs_canon F file = Some full -> fs_read F full = Some src ->
    refused E (parser_named src full) (Some full) (fs_join F) (file_refused E F) l -> file_refused E F file l.

(* a file is reached from another one by imports *)
Inductive reached (E : env) (F : fs) : str -> str -> Prop :=
| rc_here file : reached E F file file
| rc_import file full src st a q next last : fs_canon F file = Some full -> fs_read F full = Some src ->
    script_token E (parser_named src full) st a -> tk_name (tok st a) = "ImportStatement" ->
    first_kid st a ["Path"] q -> fs_join F full (get_value (tok st q)) = Some next -> reached E F next last -> reached E F file last.

(* why compiling panics, seen from the file where it happens *)
Inductive panic_reason (E : env) (F : fs) (file : str) : panic -> Prop :=
| pn_place : fs_canon F file = None -> panic_reason E F file PUnwrap
| pn_read full : fs_canon F file = Some full -> fs_read F full = None -> panic_reason E F file PUnwrap
| pn_path full src st a q : fs_canon F file = Some full -> fs_read F full = Some src ->
    script_token E (parser_named src full) st a -> tk_name (tok st a) = "ImportStatement" ->
    first_kid st a ["Path"] q -> fs_join F full (get_value (tok st q)) = None -> panic_reason E F file PUnwrap
| pn_slash full src : fs_canon F file = Some full -> fs_read F full = Some src -> In "/"%char src -> panic_reason E F file PUnwrap
| pn_percent full pre post p : fs_canon F file = Some full -> fs_read F full = Some (pre ++ lit "''" ++ post) ->
    In "%"%char (pre ++ lit "''" ++ post) -> panic_reason E F file p.
