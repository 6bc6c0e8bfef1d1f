(* No text is written in two ways that mean different things (C77). *)
From Verif Require Import TokenizeProofs CombProofs TreeProofs CompileProofs ProjectProofs CulpritProofs ScriptProofs FaultProofs LexProofs.
From Verif Require Export Spec SpecScript SpecSyntax.
From Coq Require Import Lia.
Open Scope string_scope.
Open Scope list_scope.
Open Scope N_scope.

(* ---------- patterns ---------- *)

Lemma app_same_length {A} (t u r r' : list A) : t ++ r = u ++ r' -> List.length t = List.length u -> t = u /\ r = r'.
Proof.
  revert u. induction t as [|x t IH]; intros [|y u] H Hl; try discriminate; [auto|].
  injection H as -> H. injection Hl as Hl. destruct (IH u H Hl) as [-> ->]. auto.
Qed.
Lemma digits_split (x x' u u' : str) c : (forall d, In d x -> is_digit d) -> (forall d, In d x' -> is_digit d) -> ~ is_digit c ->
  x ++ c :: u = x' ++ c :: u' -> x = x' /\ u = u'.
Proof.
  intros Hx Hx' Hc. revert x' Hx'. induction x as [|d x IH]; intros [|d' x'] Hx' H; cbn in H.
  - injection H as ->. auto.
  - injection H as -> _. destruct Hc. apply Hx'. now left.
  - injection H as -> _. destruct Hc. apply Hx. now left.
  - injection H as -> H. destruct (IH ltac:(intros; apply Hx; now right) x' ltac:(intros; apply Hx'; now right) H) as [-> ->]. auto.
Qed.
Lemma complains_inj f g m : complains f m -> complains g m -> f = g.
Proof.
  intros H1 H2. inversion H1; subst; inversion H2; subst; auto; try discriminate.
  match goal with H : @app _ _ _ = @app _ _ _ |- _ => rename H into He end.
  repeat match goal with H : decimal _ _ |- _ => destruct H as (_ & ? & <- & _) end.
  apply digits_split in He; [|assumption..|intros [K _]; vm_compute in K; now apply K]. destruct He as [-> He]. injection He as He.
  apply (app_inv_tail (lit "}")) in He. now subst.
Qed.
Lemma crashes_inj f g p : crashes f p -> crashes g p -> f = g.
Proof. intros H1 H2. inversion H1; subst; inversion H2; subst; auto; discriminate. Qed.

Theorem pattern_unique E p q t u r r' : tame E -> tidy E -> ascii_only (t ++ r) -> slen (t ++ r) < isize_bound ->
  writes E p t -> writes E q u -> t ++ r = u ++ r' ->
  (forall x w, r = x :: w -> ~ In x (lit "*+{")) -> (forall x w, r' = x :: w -> ~ In x (lit "*+{")) ->
  t = u /\ fault_of p = fault_of q /\ (fault_of p = None -> meaning p = meaning q).
Proof.
  intros HE HT Ha Hs Hp Hq He Hr Hr'.
  set (P := parser_new (t ++ r)).
  destruct (script_known_start E P "" empty_state) as [V K].
  assert (K1 : sc_get (script_start E P "" empty_state) (next_sid empty_state) "SwitchMatcher" = Some (VMatcher (ScriptSwitchMatcher E))) by (apply K; left; reflexivity).
  assert (K2 : sc_get (script_start E P "" empty_state) (next_sid empty_state) "ProgramMatcher" = Some (VMatcher (ScriptProgramMatcher E))) by (apply K; right; left; reflexivity).
  destruct (pattern_fares E P p [] t r (script_ctx P "" empty_state) _ _ HE HT Ha Hs Hp eq_refl Hr eq_refl eq_refl V K1 K2) as (a & st1 & A1 & A2 & A3).
  destruct (pattern_fares E P q [] u r' (script_ctx P "" empty_state) _ _ HE HT Ha Hs Hq He Hr' eq_refl eq_refl V K1 K2) as (b & st2 & B1 & B2 & B3).
  destruct (runs_det _ _ _ _ _ _ _ _ _ _ A1 B1) as [E1 E2]. injection E1 as <-. subst st2.
  rewrite A2 in B2. cbn [app] in B2. rewrite !slen_length in B2. apply Nnat.Nat2N.inj in B2.
  destruct (app_same_length _ _ _ _ He B2) as [-> _]. split; [reflexivity|].
  destruct (fault_of p) as [f|], (fault_of q) as [g|].
  - split; [|discriminate]. f_equal. destruct A3 as [A3 A4], B3 as [B3 B4].
    destruct (faults_fare f) as [[[m Hm] _]|[[x Hx] _]], (faults_fare g) as [[[m' Hm'] _]|[[x' Hx'] _]].
    + rewrite (A3 _ Hm) in B3. specialize (B3 _ Hm'). injection B3 as ->. eapply complains_inj; eassumption.
    + rewrite (A3 _ Hm) in B4. specialize (B4 _ Hx'). discriminate.
    + rewrite (A4 _ Hx) in B3. specialize (B3 _ Hm'). discriminate.
    + rewrite (A4 _ Hx) in B4. specialize (B4 _ Hx'). injection B4 as ->. eapply crashes_inj; eassumption.
  - destruct A3 as [A3 A4]. destruct (faults_fare f) as [[[m Hm] _]|[[x Hx] _]].
    + rewrite (A3 _ Hm) in B3. discriminate.
    + rewrite (A4 _ Hx) in B3. discriminate.
  - destruct B3 as [B3 B4]. destruct (faults_fare g) as [[[m Hm] _]|[[x Hx] _]].
    + rewrite (B3 _ Hm) in A3. discriminate.
    + rewrite (B4 _ Hx) in A3. discriminate.
  - split; [reflexivity|congruence].
Qed.

(* ---------- scripts ---------- *)

Section Scripts.
  Variables (E : env) (P : parser) (F : fs) (compile : str -> state -> res script_res) (name : str) (ff : option str).
  Hypothesis HE : tame E.
  Hypothesis HT : tidy E.
  Hypothesis Hascii : ascii_only (p_src P).
  Hypothesis Hsmall : slen (p_src P) < isize_bound.
  Hypothesis Hends : forall file s, compile file s <> OOF.

  (* statements can be carried out or go wrong *)
  Lemma names_decide sc root isc file ns : forall s,
    (exists s', imports sc root isc ns s s') \/ exists b, names_wrong sc root isc file ns s b.
  Proof.
    induction ns as [|[x y] ns IH]; intros s; [left; eexists; constructor|].
    destruct (list_eq_dec Ascii.ascii_dec x (lit "_")) as [->|Hx].
    - destruct (list_eq_dec Ascii.ascii_dec y (lit "_")) as [->|Hy]; [right; eexists; constructor|].
      destruct (IH (sc_set s sc y (VMatcher root))) as [[s' H]|[b H]].
      + left. eexists. constructor; eassumption.
      + right. exists b. eapply nw_later; [|exact H]. repeat constructor. exact Hy.
    - destruct (sc_get s isc x) as [v|] eqn:Hg; [destruct v as [a|z|m]|].
      3:{ destruct (IH (sc_set s sc y (VMatcher (MSetScope (Some isc) (MMap m (MapRename y)))))) as [[s' H]|[b H]].
          + left. eexists. econstructor; eassumption.
          + right. exists b. eapply nw_later; [|exact H]. econstructor; [exact Hx|exact Hg|constructor]. }
      all: right; eexists; apply nw_missing; [exact Hx|]; intros m; rewrite Hg; discriminate.
  Qed.
  Lemma statement_decides sc d s :
    (exists s', stated F compile sc ff d s s') \/ exists b, statement_wrong F compile sc ff d s b.
  Proof.
    destruct d as [x whole|x o i k l r|ns path].
    - left. eexists. constructor.
    - destruct (definition_fault k r) as [f|] eqn:Hf.
      + right. exists (Faulty f). apply sw_fault. exact Hf.
      + left. eexists. now constructor.
    - destruct ff as [f|] eqn:Hff; [|right; eexists; now apply sw_forbidden].
      destruct (fs_join F f path) as [file|] eqn:Hj; [|right; eexists; eapply sw_path; eauto].
      destruct (compile file s) as [[root isc|l] s1|p|] eqn:Hc.
      + destruct (names_decide sc (m_set_name (root_alias ns (m_name root)) root) isc file ns s1) as [[s' H]|[b H]].
        * left. exists s'. eapply sd_import; eauto.
        * right. exists b. eapply sw_names; eauto.
      + right. eexists. eapply sw_refused; eauto.
      + right. eexists. eapply sw_crash; eauto.
      + destruct (Hends _ _ Hc).
  Qed.
  Lemma statements_decide sc l : forall s,
    (exists s', all_stated F compile sc ff l s s') \/ exists b, statements_wrong F compile sc ff l s b.
  Proof.
    induction l as [|d l IH]; intros s; [left; eexists; constructor|].
    destruct (statement_decides sc d s) as [[s1 H1]|[b Hb]]; [|right; eexists; apply sx_here; eassumption].
    destruct (IH s1) as [[s' H2]|[b Hb]].
    - left. eexists. econstructor; eassumption.
    - right. exists b. eapply sx_later; eassumption.
  Qed.
  Lemma script_decides sc d s :
    (exists s', all_stated F compile sc ff (s_statements d) s s' /\ faultless (s_patterns d)) \/
    exists b, script_wrong F compile sc ff d s b.
  Proof.
    destruct (statements_decide sc (s_statements d) s) as [[s' H]|[b Hb]]; [|right; eexists; apply xf_statement; eassumption].
    destruct (first_fault (map fault_of (s_patterns d))) as [f|] eqn:Hf.
    - right. eexists. eapply xf_pattern; eassumption.
    - left. exists s'. split; [exact H|]. now apply no_fault_each.
  Qed.

  Lemma compile_once st n k r r' s s' : compile_with n E F compile P name ff false st = Ret r s ->
    compile_with k E F compile P name ff false st = Ret r' s' -> r = r' /\ s = s'.
  Proof.
    intros H1 H2. apply compile_later with (k := Nat.max n k) in H1; [|lia]. apply compile_later with (k := Nat.max n k) in H2; [|lia].
    rewrite H1 in H2. injection H2 as <- <-. auto.
  Qed.
  Lemma compile_no_panic st n k r s p : compile_with n E F compile P name ff false st = Ret r s ->
    compile_with k E F compile P name ff false st <> Pan p.
  Proof.
    intros H1 H2. destruct (compile_parses _ _ _ _ _ _ _ _ _ _ H1) as (x & sx & Hx).
    pose proof (compile_later _ _ _ _ _ _ _ _ _ _ H1 (Nat.max n k) ltac:(lia)) as H3.
    pose proof (tokenizes_later _ _ _ _ _ _ _ _ Hx (Nat.max n k) ltac:(lia)) as Hm.
    unfold compile_with in H2, H3. unfold script_start, script_ctx in *. destruct (context_new P name st) as [c st0]. cbn [fst snd] in *.
    destruct (tokenize k E P c (Script_ E) _) as [y sy|q|] eqn:Hy; [| |discriminate].
    - rewrite (tokenizes_later _ _ _ _ _ _ _ _ Hy (Nat.max n k)) in H3 by lia. rewrite H3 in H2. discriminate.
    - unfold tokenize in Hy, Hm.
      match type of Hy with context [exec k E P ?m ?c ?s ?st] => destruct (exec k E P m c s st) as [a sa|z|] eqn:He end; try discriminate;
        rewrite (exec_mono E P k (Nat.max n k)) in Hm by (try lia; rewrite He; discriminate); rewrite He in Hm; congruence.
  Qed.
  Lemma not_both d1 d2 st root st1 s' b : script_text E d1 (p_src P) -> script_text E d2 (p_src P) ->
    Tokenizes E P (script_ctx P name st) (Script_ E) (script_start E P name st) (TOk root) st1 ->
    all_stated F compile (next_sid st1) ff (s_statements d1) (sc_new st1) s' -> faultless (s_patterns d1) ->
    ~ script_wrong F compile (next_sid st1) ff d2 (sc_new st1) b.
  Proof.
    intros H1 H2 Ht Hs Hf Hb.
    destruct (script_compiles E P F compile name ff HE HT Hascii Hsmall d1 st H1 Hf) as (r1 & s1 & T1 & C1).
    destruct (tokenizes_det _ _ _ _ _ _ _ _ _ Ht T1) as [E1 E2]. injection E1 as <-. subst s1.
    destruct (script_refused E P F compile name ff HE HT Hascii Hsmall d2 st H2) as (r2 & s2 & T2 & C2).
    destruct (tokenizes_det _ _ _ _ _ _ _ _ _ Ht T2) as [E1 E2]. injection E1 as <-. subst s2.
    destruct (C1 _ Hs) as [n Hn]. destruct (C2 _ Hb) as (t & k & _ & Hk). destruct t as [msg pl|l|p]; cbn [ends_in] in Hk.
    - destruct Hk as (text & s & _ & Hk). destruct (compile_once _ _ _ _ _ _ _ Hn Hk). discriminate.
    - destruct Hk as (s & Hk). destruct (compile_once _ _ _ _ _ _ _ Hn Hk). discriminate.
    - now apply (compile_no_panic _ _ _ _ _ _ Hn) in Hk.
  Qed.

  Theorem script_unique d1 d2 st root st1 : script_text E d1 (p_src P) -> script_text E d2 (p_src P) ->
    Tokenizes E P (script_ctx P name st) (Script_ E) (script_start E P name st) (TOk root) st1 ->
    (forall s', all_stated F compile (next_sid st1) ff (s_statements d1) (sc_new st1) s' -> faultless (s_patterns d1) ->
       all_stated F compile (next_sid st1) ff (s_statements d2) (sc_new st1) s' /\ faultless (s_patterns d2) /\
       s_name name d1 = s_name name d2 /\ map meaning (s_patterns d1) = map meaning (s_patterns d2)) /\
    (forall b, script_wrong F compile (next_sid st1) ff d1 (sc_new st1) b ->
       exists b', script_wrong F compile (next_sid st1) ff d2 (sc_new st1) b').
  Proof.
    intros H1 H2 Ht. destruct (script_decides (next_sid st1) d2 (sc_new st1)) as [(s2 & S2 & F2)|[b2 B2]].
    - split.
      + intros s' Hs Hf.
        destruct (script_compiles E P F compile name ff HE HT Hascii Hsmall d1 st H1 Hf) as (r1 & s1 & T1 & C1).
        destruct (tokenizes_det _ _ _ _ _ _ _ _ _ Ht T1) as [E1 E2]. injection E1 as <-. subst s1.
        destruct (script_compiles E P F compile name ff HE HT Hascii Hsmall d2 st H2 F2) as (r3 & s3 & T3 & C3).
        destruct (tokenizes_det _ _ _ _ _ _ _ _ _ Ht T3) as [E1 E2]. injection E1 as <-. subst s3.
        destruct (C1 _ Hs) as [n Hn]. destruct (C3 _ S2) as [k Hk]. destruct (compile_once _ _ _ _ _ _ _ Hn Hk) as [E1 <-].
        unfold compiled_script in E1. injection E1 as E1 E2. auto.
      + intros b Hb. destruct (not_both d2 d1 st root st1 s2 b H2 H1 Ht S2 F2 Hb).
    - split; [|eauto]. intros s' Hs Hf. destruct (not_both d1 d2 st root st1 s' b2 H1 H2 Ht Hs Hf B2).
  Qed.
End Scripts.

(* without imports, in no file system at all *)
Lemma stated_own F compile sc l s s' : all_stated F compile sc None l s s' ->
  (forall ns path, ~ In (Import ns path) l) /\ first_fault (map statement_fault l) = None.
Proof.
  induction 1 as [s|d l s s1 s' Hd _ [IH1 IH2]]; [split; [intros ? ? []|reflexivity]|].
  destruct d as [x whole|x o i k lp r|ns path]; inversion Hd; subst; try discriminate; cbn [map statement_fault first_fault].
  - split; [|exact IH2]. intros ns path [H|H]; [discriminate|]. now apply (IH1 ns path).
  - match goal with H : definition_fault _ _ = None |- _ => rewrite H end.
    split; [|exact IH2]. intros ns path [H|H]; [discriminate|]. now apply (IH1 ns path).
Qed.
Lemma stated_det F compile sc l s s1 s2 : all_stated F compile sc None l s s1 -> all_stated F compile sc None l s s2 -> s1 = s2.
Proof.
  intros H. revert s2. induction H as [s|d l s s1 s' Hd _ IH]; intros s2 H2; inversion H2 as [|d0 l0 a b c Hd2 Hl2]; subst; [reflexivity|].
  apply IH. replace s1 with b; [exact Hl2|]. destruct d; inversion Hd; subst; inversion Hd2; subst; try discriminate; reflexivity.
Qed.
Lemma faultless_none ps : faultless ps -> first_fault (map fault_of ps) = None.
Proof. induction 1 as [|p ps Hp _ IH]; [reflexivity|]. cbn. now rewrite Hp. Qed.

Theorem alone_unique E src d1 d2 : tame E -> tidy E -> ascii_only src -> slen src < isize_bound ->
  script_text E d1 src -> script_text E d2 src ->
  (forall ns path, ~ In (Import ns path) (s_statements d1)) -> script_fault d1 = None ->
  (forall ns path, ~ In (Import ns path) (s_statements d2)) /\ script_fault d2 = None /\
  (forall name, s_name name d1 = s_name name d2) /\ map meaning (s_patterns d1) = map meaning (s_patterns d2) /\
  forall x, last_definition x (s_statements d1) = last_definition x (s_statements d2).
Proof.
  intros HE HT Ha Hs H1 H2 Hi Hf.
  set (F := mkFs (fun _ _ => None) (fun _ => None) (fun _ => None)).
  set (compile := fun (_ : str) (s : state) => Ret (ScriptErr []) s).
  set (P := parser_new src).
  unfold script_fault in Hf. rewrite fault_app in Hf. destruct (first_fault (map statement_fault _)) eqn:Hf1; [discriminate|].
  pose proof (no_fault_each _ Hf) as Hps.
  assert (Hall : forall name,
    ((forall ns path, ~ In (Import ns path) (s_statements d2)) /\ script_fault d2 = None /\
     s_name name d1 = s_name name d2 /\ map meaning (s_patterns d1) = map meaning (s_patterns d2) /\
     forall x, last_definition x (s_statements d1) = last_definition x (s_statements d2))).
  { intros name.
    destruct (script_compiles E P F compile name None HE HT Ha Hs d1 empty_state H1 Hps) as (root & st1 & Ht & _).
    set (sc := next_sid st1) in *.
    assert (V : valid_scope (sc_new st1) sc).
    { unfold sc, valid_scope, next_sid, sc_new. cbn. rewrite app_length. cbn. lia. }
    destruct (states_all F compile None sc (s_statements d1) (sc_new st1) V Hi Hf1) as (s1 & A1 & _ & _ & A4 & _).
    destruct (script_unique E P F compile name None HE HT Ha Hs ltac:(discriminate) d1 d2 empty_state root st1 H1 H2 Ht) as [U _].
    destruct (U s1 A1 Hps) as (B1 & B2 & B3 & B4).
    destruct (stated_own _ _ _ _ _ _ B1) as [C1 C2].
    destruct (states_all F compile None sc (s_statements d2) (sc_new st1) V C1 C2) as (s2 & D1 & _ & _ & D4 & _).
    split; [exact C1|]. split; [unfold script_fault; rewrite fault_app, C2; now apply faultless_none|].
    split; [exact B3|]. split; [exact B4|]. intros x.
    assert (s1 = s2) as <- by exact (stated_det _ _ _ _ _ _ _ B1 D1).
    specialize (A4 x). rewrite D4 in A4.
    assert (Hnew : sc_get (sc_new st1) sc x = None).
    { unfold sc_get, stack_of, sc_new, sc, next_sid. cbn [st_scopes]. rewrite app_nth2, Nat.sub_diag by lia. reflexivity. }
    rewrite Hnew in A4. destruct (last_definition x (s_statements d1)), (last_definition x (s_statements d2)); congruence. }
  destruct (Hall []) as (A & B & _ & C & D). split; [exact A|]. split; [exact B|]. split; [|auto]. intros name. now destruct (Hall name) as (_ & _ & H & _).
Qed.
