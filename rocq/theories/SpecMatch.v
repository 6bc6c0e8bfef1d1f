(* What the patterns of a script mean for a text: which part of it they take
   and what they make of that.  The execution of matchers is not used here. *)
From Verif Require Import ScriptBuild Spec SpecScript SpecSyntax.
Open Scope string_scope.
Open Scope list_scope.
Open Scope N_scope.

(* ---------- what is made of a text ---------- *)

(* A node: its name, the range of its text, the range that is captured, the
   captured text, its attributes (of two with one name the first counts), the
   nodes in it. *)
Inductive node := Node (name : str) (mr cr : range) (raw : str) (attrs : list (str * str)) (kids : list node).
Definition n_cr (n : node) : range := let (_, _, cr, _, _, _) := n in cr.
Definition n_attrs (n : node) : list (str * str) := let (_, _, _, _, at_, _) := n in at_.
Definition n_raw (n : node) : str := let (_, _, _, raw, _, _) := n in raw.

Fixpoint first_of (x : str) (l : list (str * str)) : option str :=
  match l with
  | [] => None
  | (y, v) :: l => if str_eqb y x then Some v else first_of x l
  end.
(* the value of a node is its captured text, or what its attribute `__value` says *)
Definition n_value (n : node) : str :=
  match first_of "__value" (n_attrs n) with Some v => v | None => n_raw n end.

(* What a pattern makes of a text: a node and the text after it, nothing but
   the text after it, it does not match, or it refers to something unknown. *)
Inductive reading :=
| Took (n : node) (rest : str)
| Passed (rest : str)
| Missed
| Unknown (id : str).

(* what is not captured is passed over *)
Definition dropped (x : reading) : reading :=
  match x with Took _ r => Passed r | _ => x end.
(* `?` makes do with nothing; `!` matches nothing where nothing is taken *)
Definition under (o : sign) (w : str) (x : reading) : reading :=
  match o, x with
  | Question, Missed => Passed w
  | Bang, Missed => Passed w
  | Bang, Passed r => if slen r =? slen w then Passed w else Missed
  | Bang, Took _ _ => Missed
  | _, _ => x
  end.
(* attributes are added to those that are there; the later of the new ones counts *)
Definition labelled (l : list (str * str)) (x : reading) : reading :=
  match x with
  | Took (Node n mr cr raw at_ kids) r => Took (Node n mr cr raw (at_ ++ rev l) kids) r
  | _ => x
  end.
Definition renamed_as (name : str) (x : reading) : reading :=
  match x with
  | Took (Node _ mr cr raw at_ kids) r => Took (Node name mr cr raw at_ kids) r
  | _ => x
  end.

(* ---------- what names stand for ---------- *)

(* a definition of a script, one of another script under another name, another
   script as a whole *)
Inductive entry :=
| Own (name : str) (o i : sign) (k : core pat) (l : list (str * str)) (r : repetition)
| Renamed (s : sid) (e : entry) (name : str)
| Whole (name : str) (s : sid) (ps : list pat).
(* the definitions of every script *)
Definition book := sid -> str -> option entry.
Definition put (D : book) (s : sid) (x : str) (e : entry) : book :=
  fun s' y => if Nat.eqb s s' && str_eqb x y then Some e else D s' y.

(* Whatever has a name of its own makes itself known under that name when it
   is used, without what was around it (C44). *)
Definition own_name (dflt : String.string) (name : str) : bool := is_given name && negb (str_eqb name dflt).
Definition noted (D : book) (s : sid) (name : str) (k : core pat) : book :=
  let given := match k with
               | KText _ => own_name "Equals" name
               | KSequence _ _ _ => own_name "Sequence" name
               | KRegex _ _ _ => own_name "Matches" name
               | _ => is_given name
               end in
  if given then put D s name (Own name Unsigned Unsigned k [] Once) else D.

(* what is captured under whatever name is called "Name" (C42) *)
Definition capture_name (c : capture) : str := match c with CapturedAs _ => "Name" | _ => [] end.

Section Reading.
  Variable source : str.

  (* where the text [w], which is the rest of the source, starts *)
  Definition start_of (w : str) : N := slen source - slen w.
  Definition between (lo hi : N) : str := firstn (N.to_nat (hi - lo)) (skipn (N.to_nat lo) source).

  (* a node without others in it: [w] is what it starts at, [b] is dropped
     before and [a] after the captured [raw] *)
  Definition leaf_node (name : str) (w b raw a : str) (attrs : list (str * str)) : node :=
    let lo := start_of w in
    let cr := mkR (lo + slen b) (lo + slen b + slen raw) in
    Node name (mkR lo (lo + slen (b ++ raw ++ a))) cr raw attrs [].
  (* a node with others in it captures from the first to the last of what
     these capture *)
  Definition branch (name : str) (w : str) (kids : list node) (rest : str) : node :=
    let cr := match kids with
              | [] => mkR 0 0
              | k :: l => mkR (rs (n_cr k)) (re (n_cr (last l k)))
              end in
    Node name (mkR (start_of w) (start_of rest)) cr (between (rs cr) (re cr)) [] kids.
  (* without anything in it there is no node *)
  Definition gathered (name : str) (w : str) (kids : list node) (rest : str) : reading :=
    match kids with [] => Missed | _ => Took (branch name w kids rest) rest end.

  (* [reads D s p w x D']: used in the script [s], the pattern [p] makes [x] of
     the text [w], and the definitions [D] become [D'] *)
  Inductive reads : book -> sid -> pat -> str -> reading -> book -> Prop :=
  | rd_plain D s o i k l r w x D' : layers D s [] o i k l r w x D' ->
      reads D s (Pat Plain o i k l r) w (dropped x) D'
  | rd_captured D s c o i k l r w x D' : c <> Plain -> layers D s (capture_name c) o i k l r w x D' ->
      reads D s (Pat c o i k l r) w x D'
  with layers : book -> sid -> str -> sign -> sign -> core pat -> list (str * str) -> repetition -> str -> reading -> book -> Prop :=
  | ly_once D s name o i k l w x D' : reads_core D s name k w x D' ->
      layers D s name o i k l Once w (under o w (under i w (labelled l x))) D'
  | ly_repeated D s name o i k l r lo hi w x D' : bounds r = Some (lo, hi) ->
      rounds D s name i k l lo w (hi - lo) 0 [] w x D' ->
      layers D s name o i k l r w (under o w x) D'
  (* [left] rounds may follow, [count] are done and gave [kids]; the loop
     started at [w0] *)
  with rounds : book -> sid -> str -> sign -> core pat -> list (str * str) -> N -> str -> N -> N -> list node -> str -> reading -> book -> Prop :=
  | rn_none D s name i k l w : rounds D s name i k l 0 w 0 0 [] w (Passed w) D
  | rn_short D s name i k l lo w0 count kids w : count < lo -> rounds D s name i k l lo w0 0 count kids w Missed D
  | rn_full D s name i k l lo w0 count kids w : lo <= count -> 0 < lo \/ 0 < count \/ kids <> [] ->
      rounds D s name i k l lo w0 0 count kids w (gathered "Loop" w0 kids w) D
  | rn_end D s name i k l lo w0 left count kids w x D' : 0 < left -> reads_core D s name k w x D' ->
      under i w (labelled l x) = Missed ->
      rounds D s name i k l lo w0 left count kids w (gathered "Loop" w0 kids w) D'
  | rn_unknown D s name i k l lo w0 left count kids w x D' id : 0 < left -> reads_core D s name k w x D' ->
      under i w (labelled l x) = Unknown id ->
      rounds D s name i k l lo w0 left count kids w (Unknown id) D'
  | rn_took D s name i k l lo w0 left count kids w x D1 n r y D' : 0 < left -> reads_core D s name k w x D1 ->
      under i w (labelled l x) = Took n r ->
      rounds D1 s name i k l lo w0 (left - 1) (count + 1) (kids ++ [n]) r y D' ->
      rounds D s name i k l lo w0 left count kids w y D'
  | rn_passed D s name i k l lo w0 left count kids w x D1 r y D' : 0 < left -> reads_core D s name k w x D1 ->
      under i w (labelled l x) = Passed r ->
      rounds D1 s name i k l lo w0 (left - 1) (count + 1) kids r y D' ->
      rounds D s name i k l lo w0 left count kids w y D'
  with reads_core : book -> sid -> str -> core pat -> str -> reading -> book -> Prop :=
  | rc_text D s name v r : v <> [] ->
      reads_core D s name (KText v) (v ++ r) (Took (leaf_node (given name "Equals") (v ++ r) [] v [] []) r)
        (noted D s name (KText v))
  | rc_text_not D s name v w : v <> [] -> ~ has_prefix v w ->
      reads_core D s name (KText v) w Missed (noted D s name (KText v))
  | rc_sequence D s name a b x raw v r : a <> [] -> b <> [] -> scans b x (raw ++ b ++ r) raw v ->
      reads_core D s name (KSequence a b x) (a ++ raw ++ b ++ r)
        (Took (leaf_node (given name "Sequence") (a ++ raw ++ b ++ r) a raw b [(lit "__value", v)]) r)
        (noted D s name (KSequence a b x))
  | rc_sequence_not D s name a b x w : a <> [] -> b <> [] ->
      (forall text raw v, w = a ++ text -> ~ scans b x text raw v) ->
      reads_core D s name (KSequence a b x) w Missed (noted D s name (KSequence a b x))
  | rc_regex D s name body flags f u r : f (u ++ r) = Some (0, slen u) -> u <> [] ->
      reads_core D s name (KRegex body flags (Some f)) (u ++ r)
        (Took (leaf_node (given name "Matches") (u ++ r) [] u [] []) r)
        (noted D s name (KRegex body flags (Some f)))
  | rc_regex_empty D s name body flags f w : f w = Some (0, 0) ->
      reads_core D s name (KRegex body flags (Some f)) w (Passed w) (noted D s name (KRegex body flags (Some f)))
  | rc_regex_not D s name body flags f w : (forall n, f w <> Some (0, n)) ->
      reads_core D s name (KRegex body flags (Some f)) w Missed (noted D s name (KRegex body flags (Some f)))
  | rc_name D s name id e w x D' : noted D s name (KName id) s id = Some e ->
      enters_entry (noted D s name (KName id)) s e w x D' -> reads_core D s name (KName id) w x D'
  | rc_unknown D s name id w : noted D s name (KName id) s id = None ->
      reads_core D s name (KName id) w (Unknown id) (noted D s name (KName id))
  | rc_switch D s name ps w x D' : tries (noted D s name (KSwitch ps)) s ps w x D' ->
      reads_core D s name (KSwitch ps) w x D'
  | rc_program D s name ps w x D' : walks (noted D s name (KProgram ps)) s (given name "Program") ps w [] w x D' ->
      reads_core D s name (KProgram ps) w x D'
  (* one of them *)
  with tries : book -> sid -> list pat -> str -> reading -> book -> Prop :=
  | tr_none D s w : tries D s [] w Missed D
  | tr_next D s p ps w x D1 y D' : reads D s p w x D1 -> x = Missed \/ x = Passed w ->
      tries D1 s ps w y D' -> tries D s (p :: ps) w y D'
  | tr_this D s p ps w x D' : reads D s p w x D' -> x <> Missed -> x <> Passed w -> tries D s (p :: ps) w x D'
  (* all of them, one after the other *)
  with walks : book -> sid -> str -> list pat -> str -> list node -> str -> reading -> book -> Prop :=
  | wl_done D s name w0 kids w : walks D s name [] w0 kids w (gathered name w0 kids w) D
  | wl_took D s name p ps w0 kids w n r x D1 D' : reads D s p w (Took n r) D1 ->
      walks D1 s name ps w0 (kids ++ [n]) r x D' -> walks D s name (p :: ps) w0 kids w x D'
  | wl_passed D s name p ps w0 kids w r x D1 D' : reads D s p w (Passed r) D1 ->
      walks D1 s name ps w0 kids r x D' -> walks D s name (p :: ps) w0 kids w x D'
  | wl_missed D s name p ps w0 kids w D' : reads D s p w Missed D' ->
      walks D s name (p :: ps) w0 kids w Missed D'
  | wl_unknown D s name p ps w0 kids w id D' : reads D s p w (Unknown id) D' ->
      walks D s name (p :: ps) w0 kids w (Unknown id) D'
  (* what a name stands for *)
  with enters_entry : book -> sid -> entry -> str -> reading -> book -> Prop :=
  | en_own D s name o i k l r w x D' : layers D s name o i k l r w x D' ->
      enters_entry D s (Own name o i k l r) w x D'
  | en_renamed D s s1 e name w x D' : enters_entry D s1 e w x D' ->
      enters_entry D s (Renamed s1 e name) w (renamed_as name x) D'
  | en_whole D s s1 name ps w x D' :
      walks (put D s name (Whole name s1 ps)) s1 name ps w [] w x D' ->
      enters_entry D s (Whole name s1 ps) w x D'.
End Reading.

Scheme reads_ind2 := Minimality for reads Sort Prop
  with layers_ind2 := Minimality for layers Sort Prop
  with rounds_ind2 := Minimality for rounds Sort Prop
  with reads_core_ind2 := Minimality for reads_core Sort Prop
  with tries_ind2 := Minimality for tries Sort Prop
  with walks_ind2 := Minimality for walks Sort Prop
  with enters_entry_ind2 := Minimality for enters_entry Sort Prop.
Combined Scheme reads_mutind from reads_ind2, layers_ind2, rounds_ind2, reads_core_ind2, tries_ind2, walks_ind2, enters_entry_ind2.

(* ---------- the tokens of nodes, the matchers of definitions ---------- *)

(* the token [a] of a tree for [source] is [n], and so are those below it; [top]
   is its parent *)
Inductive renders (source : str) (st : state) : option addr -> addr -> node -> Prop :=
| re_node top a name mr cr raw attrs kids :
    (a < heap_size st)%nat -> tk_kind (tok st a) = KStandard -> tk_flags (tok st a) = 0 ->
    tk_parent (tok st a) = top ->
    tk_name (tok st a) = name -> tk_mr (tok st a) = mr -> tk_cr (tok st a) = cr -> get_cvalue (tok st a) = raw ->
    get_mvalue (tok st a) = between source (rs mr) (re mr) ->
    get_value (tok st a) = n_value (Node name mr cr raw attrs kids) ->
    (forall x, get_attr x (tok st a) = first_of x attrs) ->
    renders_all source st (Some a) (tk_kids (tok st a)) kids ->
    renders source st top a (Node name mr cr raw attrs kids)
with renders_all (source : str) (st : state) : option addr -> list addr -> list node -> Prop :=
| ra_nil top : renders_all source st top [] []
| ra_cons top a l n ns : renders source st top a n -> renders_all source st top l ns -> renders_all source st top (a :: l) (n :: ns).

Fixpoint entry_matcher (e : entry) : matcher :=
  match e with
  | Own name o i k l r => defined name o i k l r
  | Renamed s e name => MSetScope (Some s) (MMap (entry_matcher e) (MapRename name))
  | Whole name s ps =>
      MProgram
        [MSetScope (Some s) (MProxy (MProgram (map meaning ps) (mkPI "Program" None false false)) "Flatten" false)]
        (mkPI name None false true)
  end.

(* what the statements of a script define *)
Definition own_entry (d : statement) : option (str * entry) :=
  match d with
  | Alias x whole => Some (x, Own [] Unsigned Unsigned (KName whole) [] Once)
  | Define x o i k l r => Some (x, Own x o i k l r)
  | Import _ _ => None
  end.
Fixpoint last_entry (x : str) (l : list statement) : option entry :=
  match l with
  | [] => None
  | d :: l =>
      match last_entry x l, own_entry d with
      | Some e, _ => Some e
      | None, Some (y, e) => if str_eqb y x then Some e else None
      | None, None => None
      end
  end.
Definition own_book (sc : sid) (d : script) : book :=
  fun s x => if Nat.eqb s sc then last_entry x (s_statements d) else None.

(* The scripts in [V] refer to no others, and their scopes in [st] hold what
   the book [D] says. *)
Section Kept.
  Variable V : sid -> Prop.
  Fixpoint within (e : entry) : Prop :=
    match e with
    | Own _ _ _ _ _ _ => True
    | Renamed s e _ => V s /\ within e
    | Whole _ s _ => V s
    end.
  Definition kept (D : book) (st : state) : Prop :=
    (forall s, V s -> valid_scope st s) /\
    (forall s x, V s -> sc_get st s x = option_map (fun e => VMatcher (entry_matcher e)) (D s x)) /\
    (forall s x e, V s -> D s x = Some e -> within e).
End Kept.

Definition unknown_failure (id : str) : failure :=
  FError (mkPE (lit "`Ref` matcher unable to locate target reference `" ++ id ++ lit "`") None).
(* what a matcher gives for a reading of the text [w] *)
Inductive answers (source : str) (st : state) (w : str) : reading -> mres -> Prop :=
| an_took a n r : renders source st None a n -> tk_mr (tok st a) = mkR (start_of source w) (start_of source r) ->
    answers source st w (Took n r) (Ok (SToken a))
| an_passed r : answers source st w (Passed r) (Ok (SSkip (Z.of_N (start_of source r) - Z.of_N (start_of source w))))
| an_missed : answers source st w Missed (Err FFail)
| an_unknown id : answers source st w (Unknown id) (Err (unknown_failure id)).
(* what tokenizing gives for it *)
Inductive results (source : str) (st : state) : reading -> tres -> Prop :=
| rs_took a n r : renders source st None a n -> results source st (Took n r) (TOk a)
| rs_passed r : results source st (Passed r) (TErr FFail)
| rs_missed : results source st Missed (TErr FFail)
| rs_unknown id : results source st (Unknown id) (TErr (unknown_failure id)).

(* ---------- the books of files that import each other ---------- *)

Section Told.
  Variables (E : env) (F : fs) (D : book).

  (* what [n], imported with [names] from the script [d] of [file] with the
     definitions [isc], stands for *)
  Definition import_entry (file : str) (names : list (str * str)) (d : script) (isc : sid) (n : str * str) (b : str * entry) : Prop :=
    fst b = snd n /\
    ((fst n = lit "_" /\ snd b = Whole (root_alias names (s_name file d)) isc (s_patterns d)) \/
     (fst n <> lit "_" /\ exists e, D isc (fst n) = Some e /\ snd b = Renamed isc e (snd n))).

  (* the book has what the script [d] of [file] and those it imports say, in
     scopes from [lo] to before [hi], one for each file; that of [file] is [sc] *)
  Inductive told : sid -> sid -> str -> script -> sid -> Prop :=
  | to_file lo hi file full d sc es : contains E F file full d -> faultless (s_patterns d) -> (lo <= sc < hi)%nat ->
      tells (S sc) hi full (s_statements d) es -> (forall x, D sc x = last_of x es) -> told lo hi file d sc
  with tells : sid -> sid -> str -> list statement -> list (str * entry) -> Prop :=
  | te_nil lo hi full : (lo <= hi)%nat -> tells lo hi full [] []
  | te_own lo hi full d x e l es : own_entry d = Some (x, e) -> statement_fault d = None -> tells lo hi full l es ->
      tells lo hi full (d :: l) ((x, e) :: es)
  | te_import lo mid hi full names path file d isc l nes es : fs_join F full path = Some file ->
      told lo mid file d isc -> Forall2 (import_entry file names d isc) names nes ->
      tells mid hi full l es -> tells lo hi full (Import names path :: l) (nes ++ es).
End Told.
Scheme told_ind2 := Minimality for told Sort Prop
  with tells_ind2 := Minimality for tells Sort Prop.
Combined Scheme told_mutind from told_ind2, tells_ind2.
