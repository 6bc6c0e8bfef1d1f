(* Programs and loops: readable consequences of program_does and loop_does. *)
From Verif Require Export FamilyProofs.
Open Scope string_scope.
Open Scope list_scope.
Open Scope N_scope.

(* ---------- C16 ---------- *)

Lemma chain_pass E P c name s pt ms off st l off' st' rest :
  chain E P c name s pt ms off st l off' st' -> forall done,
  exists done', forall w, pass E P c name s pt rest done' off' st' w ->
    pass E P c name s pt (ms ++ rest) done off st w.
Proof.
  induction 1 as [off st|m ms off st a st1 l off' st' Hc Hr Hk He Hf H IH]; intros done.
  - exists done. auto.
  - set (t := adopted P pt (lowest (all_mr done)) (tok st1 a)).
    assert (Ht : t = set_parent (Some pt) (tok st1 a)) by (unfold t, adopted; now rewrite He).
    destruct (IH (done ++ [token_piece a true t])) as (done' & Hp).
    exists done'. intros w Hw. cbn [app]. eapply ps_next; [exact Hr| |exact (Hp w Hw)].
    rewrite Hc. replace (re (tk_mr (tok st1 a))) with (re (tk_mr t)) by (rewrite Ht; reflexivity).
    rewrite <- Ht. apply (ct_token E P pt (rs (c_off c)) true true done off st1 a t); auto.
Qed.

(* pieces of a chain *)
Lemma chain_pieces E P c name s pt ms off st l off' st' :
  tame E -> chain E P c name s pt ms off st l off' st' -> forall done,
  (pt < heap_size st)%nat ->
  pass E P c name s pt ms done off st (AllDone (done ++ map (fun a => token_piece a true (tok st' a)) l) off' st') /\
  (heap_size st <= heap_size st')%nat /\
  (forall a, (a < heap_size st)%nat -> tok st' a = tok st a) /\
  (forall a, In a l -> (heap_size st <= a < heap_size st')%nat).
Proof.
  intros HE. induction 1 as [off st|m ms off st a st1 l off' st' Hc Hr Hk He Hf H IH]; intros done Hpt.
  - cbn [map]. rewrite app_nil_r. split; [constructor|]. split; [lia|]. split; [auto|intros a []].
  - destruct (runs_frame _ _ _ _ _ _ _ _ HE Hr) as ((Hs1 & Hp1) & _ & Hn).
    specialize (Hn a (or_introl eq_refl)).
    set (t := set_parent (Some pt) (tok st1 a)) in *.
    destruct (IH (done ++ [token_piece a true t])) as (Hp & Hs & Ht & Hl).
    { rewrite heap_size_set. lia. }
    rewrite heap_size_set in *.
    assert (Ha : tok st' a = t) by (rewrite Ht by lia; apply tok_set_same; unfold heap_size in *; lia).
    assert (Hadopt : t = adopted P pt (lowest (all_mr done)) (tok st1 a)) by (unfold t, adopted; now rewrite He).
    split; [|split; [lia|split]].
    + cbn [map]. rewrite Ha. rewrite <- app_assoc in Hp. cbn [app] in Hp.
      eapply ps_next; [exact Hr| |exact Hp]. rewrite Hc.
      replace (re (tk_mr (tok st1 a))) with (re (tk_mr t)) by reflexivity.
      apply (ct_token E P pt (rs (c_off c)) true true done off st1 a t); auto.
    + intros b Hb. rewrite Ht by lia. rewrite tok_set_other by lia. apply Hp1. exact Hb.
    + intros b [<-|Hb]; [lia|]. specialize (Hl b Hb). lia.
Qed.

Lemma all_kids_map st l : all_kids (map (fun a => token_piece a true (tok st a)) l) = l.
Proof. unfold all_kids. induction l as [|a l IH]; cbn [map flat_map]; [reflexivity|rewrite IH; reflexivity]. Qed.
Lemma all_cr_map st l : all_cr (map (fun a => token_piece a true (tok st a)) l) = map (fun a => tk_cr (tok st a)) l.
Proof. unfold all_cr. induction l as [|a l IH]; cbn [map flat_map]; [reflexivity|rewrite IH; reflexivity]. Qed.
Lemma all_mr_map st l : all_mr (map (fun a => token_piece a true (tok st a)) l) = map (fun a => tk_mr (tok st a)) l.
Proof. unfold all_mr. induction l as [|a l IH]; cbn [map flat_map]; [reflexivity|rewrite IH; reflexivity]. Qed.

Lemma program_start_size P pats i s st : heap_size (program_start P pats i s st) = S (heap_size st).
Proof. unfold heap_size, program_start. cbn. rewrite app_length. cbn. lia. Qed.
Lemma program_start_tok P pats i s st :
  tok (program_start P pats i s st) (List.length (st_heap st)) = std_token P (pi_name i) (mkR 0 0).
Proof. unfold tok, program_start. cbn. rewrite app_nth2 by lia. now rewrite Nat.sub_diag. Qed.
Lemma program_start_old P pats i s st a : (a < heap_size st)%nat ->
  tok (program_start P pats i s st) a = tok st a.
Proof. intros Ha. unfold tok, program_start. cbn. now rewrite app_nth1. Qed.

Lemma chain_program E P c i s st pats l off' st' :
  tame E -> c_debug c = 0 -> pi_stop i = false -> pi_iter i = None ->
  let pt := List.length (st_heap st) in
  chain E P c (pi_name i) s pt pats (rs (c_off c)) (program_start P pats i s st) l off' st' ->
  l <> [] ->
  lowest (map (fun a => tk_cr (tok st' a)) l) <> usize_max ->
  lowest (map (fun a => tk_mr (tok st' a)) l) <> usize_max ->
  exists st2,
    Runs E P (MProgram pats i) c s st (Ok (SToken pt)) st2 /\
    tk_kids (tok st2 pt) = l /\ tk_name (tok st2 pt) = pi_name i /\
    tk_cr (tok st2 pt) = hull (map (fun a => tk_cr (tok st2 a)) l) /\
    tk_mr (tok st2 pt) = hull (map (fun a => tk_mr (tok st2 a)) l) /\
    st_scopes st2 = st_scopes st' /\ heap_size st2 = heap_size st' /\
    forall a, a <> pt -> tok st2 a = tok st' a.
Proof.
  intros HE Hd Hs Hi pt H Hl Hcr Hmr.
  destruct (chain_pieces _ _ _ _ _ _ _ _ _ _ _ _ HE H []) as (Hp & Hsz & Hold & Hnew).
  { rewrite program_start_size. unfold heap_size, pt. lia. }
  cbn [app] in Hp.
  set (done := map (fun a => token_piece a true (tok st' a)) l) in *.
  assert (Hpt : (pt < List.length (st_heap st'))%nat).
  { rewrite program_start_size in Hsz. unfold heap_size, pt in *. lia. }
  exists (set_tok st' pt (filled P done (tok st' pt))).
  assert (Hother : forall a, a <> pt -> tok (set_tok st' pt (filled P done (tok st' pt))) a = tok st' a).
  { intros a Ha. apply tok_set_other. auto. }
  assert (Hla : forall a, In a l -> a <> pt).
  { intros a Ha. specialize (Hnew a Ha). rewrite program_start_size in Hnew. unfold heap_size, pt in *. lia. }
  split.
  - eapply (program_does E P c i s st pats Hd Hs Hi _ (Done _ _)); [exact Hp|].
    apply lt_all. apply cl_token. unfold collected_something, done.
    rewrite all_kids_map, all_cr_map, all_mr_map. auto.
  - rewrite tok_set_same by exact Hpt. unfold filled.
    cbn [tk_kids tk_name tk_cr tk_mr set_mr set_cr set_kids].
    unfold done. rewrite all_kids_map, all_cr_map, all_mr_map.
    split; [reflexivity|]. split.
    { rewrite Hold; [unfold pt; now rewrite program_start_tok|].
      rewrite program_start_size. unfold heap_size, pt. lia. }
    split; [|split].
    + f_equal. apply map_ext_in. intros a Ha. rewrite tok_set_other; auto. intros Heq. now apply (Hla a Ha).
    + f_equal. apply map_ext_in. intros a Ha. rewrite tok_set_other; auto. intros Heq. now apply (Hla a Ha).
    + split; [reflexivity|]. split; [apply heap_size_set|]. intros b Hb; apply tok_set_other; auto.
Qed.

(* a failing pattern ends the program; what follows it does not matter *)
Lemma chain_fails E P c i s st m pre rest l off' st' st1 :
  c_debug c = 0 -> pi_stop i = false -> pi_iter i = None ->
  let pt := List.length (st_heap st) in
  chain E P c (pi_name i) s pt pre (rs (c_off c)) (program_start P (pre ++ m :: rest) i s st) l off' st' ->
  Runs E P m (pattern_ctx c (pi_name i) pt off') s st' (Err FFail) st1 ->
  Runs E P (MProgram (pre ++ m :: rest) i) c s st (Err FFail) st1.
Proof.
  intros Hd Hs Hi pt H Hm.
  destruct (chain_pass _ _ _ _ _ _ _ _ _ _ _ _ (m :: rest) H []) as [d Hp].
  eapply (program_does E P c i s st _ Hd Hs Hi _ (Done _ _)); [|apply lt_fail].
  apply Hp. apply ps_fail. exact Hm.
Qed.

(* ---------- loops ---------- *)

Section Loops.
  Variables (E : env) (P : parser) (c : ctx) (i : pinfo) (s : sid) (pt : addr) (pats : list matcher) (lo : N).
  Let loops := loops E P c i lo s pt pats.
  Let rounds := rounds E P c i s pt pats.
  Let pass := pass E P c (pi_name i) s pt pats.

  Lemma rounds_loops n done off st d o st' : rounds n done off st d o st' ->
    forall left count x, n <= left ->
    loops (left - n) (count + n) d o st' x -> loops left count done off st x.
  Proof.
    induction 1 as [done off st|n done off st d1 o1 st1 d2 o2 st2 Hp H IH
                   |n done off st nm p d0 o0 st0 d1 o1 st1 d2 o2 st2 Hp Hn Ht H IH]; intros left count x Hle Hx.
    - now rewrite N.sub_0_r, N.add_0_r in Hx.
    - eapply lp_next; [lia|exact Hp|]. apply IH; [lia|].
      now replace (left - 1 - n) with (left - (n + 1)) by lia; replace (count + 1 + n) with (count + (n + 1)) by lia.
    - eapply lp_continue; [lia|exact Hp|exact Hn|exact Ht|]. apply IH; [lia|].
      now replace (left - 1 - n) with (left - (n + 1)) by lia; replace (count + 1 + n) with (count + (n + 1)) by lia.
  Qed.

  (* C27: the rounds of a loop and the pass that ends it *)
  Lemma loops_rounds left count done off st x : loops left count done off st x ->
    exists n d o st', n <= left /\ rounds n done off st d o st' /\
      (n = left \/ exists w, pass d o st' w /\ forall d' o' st2, w <> AllDone d' o' st2).
  Proof.
    induction 1 as
      [count done off st|count done off st|count done off st r st'
      |left count done off st done' off' st' o Hl Hp H IH
      |left count done off st done' st1 r st' Hl Hp Hc
      |left count done off st e st1 Hl Hp|left count done off st p Hl Hp|left count done off st Hl Hp
      |left count done off st done' off' st1 Hl Hp
      |left count done off st done' off' st1 o Hl Hp H IH
      |left count done off st n p done' off' st1 q Hl Hp Hq
      |left count done off st n p done' off' st1 done2 off2 st2 r st' Hl Hp Hn Ht Hc
      |left count done off st n p done' off' st1 done2 off2 st2 x st' Hl Hp Hn Hn' Ht Hc
      |left count done off st n p done' off' st1 done2 off2 st2 e st' Hl Hp Hn Hn' Ht Hc
      |left count done off st n p done' off' st1 done2 off2 st2 o Hl Hp Hn Ht H IH
      |left count done off st n p done' off' st1 done2 off2 st2 r st' Hl Hp Hn Hn' Ht Hc].
    1-3: exists 0, done, off, st; split; [lia|]; split; [constructor|now left].
    2,3,4,5,6,7,9,10,11,13:
      exists 0, done, off, st; split; [lia|]; split; [constructor|]; right; eexists; (split; [exact Hp|]); congruence.
    - destruct IH as (n & d & o' & st2 & Hn & Hr & He). exists (n + 1), d, o', st2. split; [lia|].
      split; [eapply rd_pass; eauto|]. destruct He as [->|He]; [left; lia|now right].
    - exists 0, done, off, st. split; [lia|]. split; [constructor|]. right.
      destruct Hp as [Hp|Hp]; eexists; (split; [exact Hp|]); congruence.
    - destruct IH as (n' & d & o' & st3 & Hn' & Hr & He). exists (n' + 1), d, o', st3. split; [lia|].
      split; [eapply rd_continue; eauto|]. destruct He as [->|He]; [left; lia|now right].
  Qed.
End Loops.

(* nothing that was collected is lost *)
Lemma adopts_extends P pt self u l done off st done' off' st' :
  adopts P pt self u l done off st done' off' st' -> exists more, done' = done ++ more.
Proof.
  induction 1 as [| |k l done off st t done' off' st' Hk Hn Ht H [more ->]].
  - exists []. now rewrite app_nil_r.
  - assumption.
  - eexists. rewrite <- app_assoc. reflexivity.
Qed.
Lemma contributes_extends E P pt start u f done off st x done' off' st' :
  contributes E P pt start u f done off st x done' off' st' -> exists more, done' = done ++ more.
Proof.
  destruct 1 as [a t|a done' off' st' Hk H|z n|z].
  - eauto.
  - apply adopts_extends in H as [more ->]. destruct u; [rewrite <- app_assoc|]; eauto.
  - eauto.
  - exists []. now rewrite app_nil_r.
Qed.
Lemma payload_extends E P pt start done off st x done' off' st' :
  takes_payload E P pt start done off st x done' off' st' -> exists more, done' = done ++ more.
Proof.
  destruct 1 as [a t|a t|a done' off' st' H|a done' off' st' Hk H|z done' off' st' H|x].
  - eauto.
  - eauto.
  - eapply contributes_extends; eauto.
  - eapply adopts_extends; eauto.
  - eapply contributes_extends; eauto.
  - exists []. now rewrite app_nil_r.
Qed.
Definition pass_pieces (w : pass_end) : option (list piece) :=
  match w with AllDone d _ _ | Signal _ d _ _ | NoMatch d _ => Some d | _ => None end.
Lemma pass_extends E P c name s pt ms done off st w :
  pass E P c name s pt ms done off st w -> forall d, pass_pieces w = Some d -> exists more, d = done ++ more.
Proof.
  induction 1 as [done off st|m ms done off st x st1 done' off' st' w Hr Hc H IH
                 |m ms done off st a st1 w Hr Hk H IH|m ms done off st x st1 Hr Hx|m ms done off st st1 Hr| | | |];
    intros d Hd; cbn [pass_pieces] in Hd; try discriminate.
  - injection Hd as <-. exists []. now rewrite app_nil_r.
  - destruct (IH d Hd) as [more ->]. apply contributes_extends in Hc as [m2 ->]. rewrite <- app_assoc. eauto.
  - auto.
  - injection Hd as <-. exists []. now rewrite app_nil_r.
  - injection Hd as <-. exists []. now rewrite app_nil_r.
Qed.
Lemma rounds_extends E P c i s pt pats n done off st d o st' :
  rounds E P c i s pt pats n done off st d o st' -> exists more, d = done ++ more.
Proof.
  induction 1 as [done off st|n done off st d1 o1 st1 d2 o2 st2 Hp H [more ->]
                 |n done off st nm p d0 o0 st0 d1 o1 st1 d2 o2 st2 Hp Hn Ht H [more ->]].
  - exists []. now rewrite app_nil_r.
  - destruct (pass_extends _ _ _ _ _ _ _ _ _ _ _ Hp _ eq_refl) as [m2 ->]. rewrite <- app_assoc. eauto.
  - destruct (pass_extends _ _ _ _ _ _ _ _ _ _ _ Hp _ eq_refl) as [m2 ->].
    apply payload_extends in Ht as [m3 ->]. rewrite <- !app_assoc. eauto.
Qed.

(* ---------- C29 ---------- *)

Lemma first_fails E P c i s st m ms lo hi st1 :
  c_debug c = 0 -> pi_stop i = false -> pi_iter i = Some (lo, hi) -> lo < hi ->
  Runs E P m (pattern_ctx c (pi_name i) (List.length (st_heap st)) (rs (c_off c))) s
       (program_start P (m :: ms) i s st) (Err FFail) st1 ->
  Runs E P (MProgram (m :: ms) i) c s st (Err FFail) st1.
Proof.
  intros Hd Hs Hi Hlt H.
  apply (loop_does E P c i s st (m :: ms) lo hi (Done _ _) Hd Hs Hi).
  eapply lp_fail; [lia|apply ps_fail; exact H|]. apply cl_fail. intros (H1 & _). now apply H1.
Qed.

(* ---------- C30 ---------- *)

Section Spin.
  Variables (E : env) (P : parser) (c : ctx) (i : pinfo) (s : sid) (st : state) (pats : list matcher) (lo hi : N).
  Hypothesis Hd : c_debug c = 0.
  Hypothesis Hstop : pi_stop i = false.
  Hypothesis Hiter : pi_iter i = Some (lo, hi).
  Hypothesis Hoff : rs (c_off c) <= usize_max.
  Let pt := List.length (st_heap st).
  Let off := rs (c_off c).
  Let st0 := program_start P pats i s st.
  Hypothesis Hskip : forall m, In m pats ->
    Runs E P m (pattern_ctx c (pi_name i) pt off) s st0 (Ok (SSkip 0)) st0.

  Lemma add_zero k : k <= usize_max -> usize_add (e_checks E) k (as_usize 0) = Some k.
  Proof.
    clear Hd.
    intros Hk. unfold usize_add, as_usize. rewrite Z.mod_0_l by discriminate. cbn [Z.to_N].
    rewrite N.add_0_r. destruct (N.leb_spec k usize_max); [reflexivity|lia].
  Qed.

  Lemma idle_pass n count sub : incl sub pats -> forall ps, ps_off ps = off ->
    run_patterns E P (exec n E P) i (clone_with_name c (pi_name i)) s pt off count sub ps st0 = OOF \/
    exists ps', ps_off ps' = off /\
      run_patterns E P (exec n E P) i (clone_with_name c (pi_name i)) s pt off count sub ps st0 = Ret (CDone, ps') st0.
  Proof.
    clear Hd.
    induction sub as [|m sub IH]; intros Hin ps Hps; cbn [run_patterns]; [right; eauto|].
    rewrite Hps. change (push_tok (with_start (clone_with_name c (pi_name i)) off) pt)
      with (pattern_ctx c (pi_name i) pt off).
    assert (Hm : exec n E P m (pattern_ctx c (pi_name i) pt off) s st0 = OOF \/
                 exec n E P m (pattern_ctx c (pi_name i) pt off) s st0 = Ret (Ok (SSkip 0)) st0).
    { destruct (Hskip m) as [n' H']; [apply Hin; now left|].
      destruct (exec n E P m (pattern_ctx c (pi_name i) pt off) s st0) eqn:He; auto; right;
        rewrite <- He; rewrite <- H'; eapply exec_unique; congruence. }
    destruct Hm as [-> | ->]; [now left|]. cbn [Z.ltb Z.compare andb].
    assert (Hsub : incl sub pats) by (intros x Hx; apply Hin; now right).
    destruct (m_consuming m); [|now apply IH].
    unfold handle_skip. rewrite Hps, add_zero by exact Hoff. cbn [or_die]. now apply IH.
  Qed.

  Lemma idle_iterate n : forall f left count ps, ps_off ps = off -> N.of_nat f < left ->
    iterate f E P (exec n E P) pats i (clone_with_name c (pi_name i)) s pt off left count ps st0 = OOF.
  Proof.
    clear Hd.
    induction f as [|f IH]; intros left count ps Hps Hlt; cbn [iterate];
      (destruct (N.eqb_spec left 0); [lia|]); [reflexivity|].
    destruct (idle_pass n count pats (incl_refl _) ps Hps) as [->|(ps' & Hps' & ->)]; [reflexivity|].
    apply IH; [exact Hps'|lia].
  Qed.

  Lemma spins n : N.of_nat n <= hi - lo -> lo < hi -> exec n E P (MProgram pats i) c s st = OOF.
  Proof.
    clear Hd.
    intros Hn Hlt. destruct n as [|n]; [reflexivity|]. rewrite program_unfold.
    unfold iterations. rewrite Hiter. apply idle_iterate; [reflexivity|lia].
  Qed.

  Lemma idle_pass_rel sub : incl sub pats -> forall done, all_kids done = [] ->
    exists d, all_kids d = [] /\
    pass E P c (pi_name i) s pt sub done off st0 (AllDone d off st0).
  Proof.
    induction sub as [|m sub IH]; intros Hin done Hdn; [exists done; split; [assumption|constructor]|].
    assert (Hsub : incl sub pats) by (intros x Hx; apply Hin; now right).
    pose proof (Hskip m (Hin m (or_introl eq_refl))) as Hm.
    destruct (m_consuming m) eqn:Em.
    - destruct (IH Hsub (done ++ [mkPiece [] [] [mkR (rs (c_off c)) off]])) as (d & Hd' & Hp).
      { rewrite all_kids_app, Hdn. reflexivity. }
      exists d. split; [exact Hd'|]. eapply ps_next; [exact Hm| |exact Hp]. rewrite Em.
      apply ct_skip; [reflexivity|]. split.
      + rewrite Z.add_0_r. rewrite Z.mod_small; [reflexivity|].
        unfold usize_max in Hoff. unfold off. lia.
      + intros _. rewrite Z.mod_0_l by discriminate. unfold usize_max in Hoff. unfold off. lia.
    - destruct (IH Hsub done Hdn) as (d & Hd' & Hp). exists d. split; [exact Hd'|].
      eapply ps_next; [exact Hm| |exact Hp]. rewrite Em. now apply ct_no_skip.
  Qed.

  Lemma idle_rounds n : forall done, all_kids done = [] -> exists d, all_kids d = [] /\
    rounds E P c i s pt pats n done off st0 d off st0.
  Proof.
    induction n as [|n IH] using N.peano_ind; intros done Hdn; [exists done; split; [assumption|constructor]|].
    destruct (idle_pass_rel pats (incl_refl _) done Hdn) as (d1 & Hd1 & Hp).
    destruct (IH d1 Hd1) as (d2 & Hd2 & Hr). exists d2. split; [exact Hd2|].
    rewrite <- N.add_1_r. eapply rd_pass; eauto.
  Qed.

  Lemma spin_ends : lo < hi -> Runs E P (MProgram pats i) c s st (Err FFail) st0.
  Proof.
    intros Hlt. apply (loop_does E P c i s st pats lo hi (Done _ _) Hd Hstop Hiter).
    destruct (idle_rounds (hi - lo) [] eq_refl) as (d & Hdk & Hr).
    eapply rounds_loops; [exact Hr|lia|]. rewrite N.sub_diag, N.add_0_l.
    destruct (N.lt_ge_cases (hi - lo) lo).
    - now apply lp_short.
    - apply lp_end; [assumption|intros (_ & H2 & _); lia|]. apply cl_fail. intros (H1 & _). now apply H1.
  Qed.
End Spin.

(* ---------- C31, C28 ---------- *)

Section Literal.
  Variables (E : env) (P : parser) (c : ctx) (i : pinfo) (s : sid) (st : state) (v name : str) (custom : bool).
  Variables (lo hi : N) (k : nat).
  Hypothesis Hd : c_debug c = 0.
  Hypothesis Hstop : pi_stop i = false.
  Hypothesis Hiter : pi_iter i = Some (lo, hi).
  Hypothesis Hv : v <> [].
  Hypothesis Hrun : literal_run (p_src P) v (c_off c) k.
  Hypothesis Hmax : slen (p_src P) < usize_max.
  Let m := MEquals (FStr v) name custom.
  Let pt := List.length (st_heap st).
  Let off := rs (c_off c).
  Let st0 := program_start P [m] i s st.
  Let at_ (j : nat) : N := off + N.of_nat j * slen v.

  Lemma copies_app j l : copies v (j + l) = copies v j ++ copies v l.
  Proof. unfold copies. now rewrite repeat_app, concat_app. Qed.
  Lemma copies_len j : slen (copies v j) = N.of_nat j * slen v.
  Proof.
    induction j as [|j IH]; [reflexivity|]. change (copies v (S j)) with (v ++ copies v j).
    rewrite slen_app, IH. lia.
  Qed.

  (* the text from copy [j] on *)
  Lemma copy_window j : (j <= k)%nat ->
    exists rest, window (p_src P) (at_ j) (re (c_off c)) (copies v (k - j) ++ rest) /\ ~ has_prefix v rest.
  Proof.
    intros Hj. destruct Hrun as ((rest & W & Hn) & _ & _). exists rest. split; [|exact Hn].
    destruct W as (pre & post & Hsrc & Hpre & Hlen).
    exists (pre ++ copies v j), post.
    replace k with (j + (k - j))%nat in Hsrc, Hlen by lia. rewrite copies_app in Hsrc, Hlen.
    split; [rewrite Hsrc; now rewrite <- !app_assoc|]. split.
    - rewrite slen_app, copies_len, Hpre. reflexivity.
    - rewrite <- Hlen. now rewrite <- !app_assoc.
  Qed.
  Lemma at_sliceable j : (j <= k)%nat -> sliceable (p_src P) (mkR (at_ j) (re (c_off c))).
  Proof.
    intros Hj. destruct (copy_window j Hj) as (rest & W & _). apply window_len in W as L.
    destruct Hrun as (_ & Hb & Hbe). destruct W as (pre & post & Hsrc & Hpre & Hlen).
    split; [|split; [|split]]; cbn [rs re].
    - rewrite <- Hlen, slen_app. lia.
    - rewrite Hsrc, app_assoc, slen_app. lia.
    - now apply Hb.
    - exact Hbe.
  Qed.

  (* after [j] iterations *)
  Definition row_so_far (j : nat) (d : list piece) (st1 : state) : Prop :=
    heap_size st1 = (S pt + j)%nat /\ tok st1 pt = tok st0 pt /\
    all_kids d = seq (S pt) j /\
    (all_cr d = map (fun x => mkR (at_ x) (at_ (S x))) (seq 0 j)) /\
    (all_mr d = map (fun x => mkR (at_ x) (at_ (S x))) (seq 0 j)) /\
    forall x, (x < j)%nat -> literal_child (tok st1 (S pt + x)%nat) name (mkR (at_ x) (at_ (S x))) pt.

  Lemma at_succ j : at_ (S j) = at_ j + slen v.
  Proof. unfold at_. lia. Qed.
  Lemma len_pos : 0 < slen v.
  Proof. now apply slen_pos. Qed.

  Lemma literal_pass j d st1 : (j < k)%nat -> row_so_far j d st1 ->
    exists d' st2, row_so_far (S j) d' st2 /\
      pass E P c (pi_name i) s pt [m] d (at_ j) st1 (AllDone d' (at_ (S j)) st2).
  Proof.
    intros Hj (Hsz & Hpt & Hk & Hcr & Hmr & Hrow).
    destruct (copy_window j) as (rest & W & Hn); [lia|].
    replace (k - j)%nat with (S (k - S j)) in W by lia.
    change (copies v (S (k - S j))) with (v ++ copies v (k - S j)) in W. rewrite <- app_assoc in W.
    destruct (equals_found E P v name custom (pattern_ctx c (pi_name i) pt (at_ j)) s st1 (copies v (k - S j) ++ rest))
      as (t & Hr & Ht & _); [exact Hd|apply at_sliceable; lia|exact Hv|exact W|].
    cbn [c_off pattern_ctx rs re] in Ht. fold m in Hr.
    set (st2 := mkSt (st_heap st1 ++ [t]) (scopes_after st1 s custom name m)) in *.
    set (a := List.length (st_heap st1)) in *.
    assert (Ha : tok st2 a = t).
    { unfold tok, st2, a. cbn. rewrite app_nth2 by lia. now rewrite Nat.sub_diag. }
    destruct Ht as (T1 & T2 & T3 & T4 & T5 & T6 & T7 & T8 & T9).
    assert (He : is_error t = false) by (unfold is_error; now rewrite T9).
    set (t' := adopted P pt (lowest (all_mr d)) t).
    assert (Ht' : t' = set_parent (Some pt) t) by (unfold t', adopted; now rewrite He).
    exists (d ++ [token_piece a true t']), (set_tok st2 a t'). split.
    - assert (Hla : a = (S pt + j)%nat) by exact Hsz.
      assert (Hsz2 : List.length (st_heap st2) = S a) by (unfold st2; cbn; rewrite app_length; cbn; fold a; lia).
      split; [rewrite heap_size_set; unfold heap_size; lia|].
      assert (Hold : forall b, (b < a)%nat -> tok (set_tok st2 a t') b = tok st1 b).
      { intros b Hb. rewrite tok_set_other by lia. unfold tok, st2. cbn. now rewrite app_nth1. }
      split; [rewrite Hold by lia; exact Hpt|].
      rewrite all_kids_app, all_cr_app, all_mr_app, Hk, Hcr, Hmr, !seq_S, !map_app.
      unfold all_kids, all_cr, all_mr. cbn [flat_map token_piece pc_kids pc_cr pc_mr app map].
      rewrite Ht'. cbn [tk_cr tk_mr set_parent]. rewrite T3, T4, Hla, at_succ.
      split; [reflexivity|]. split; [now rewrite Nat.add_0_l|]. split; [now rewrite Nat.add_0_l|].
      intros x Hx. destruct (Nat.eq_dec x j) as [->|Hnx].
      + rewrite <- Hla, tok_set_same by lia. rewrite at_succ. unfold literal_child.
        cbn [tk_kind tk_name tk_cr tk_mr tk_kids tk_parent tk_attrs tk_value tk_flags set_parent].
        repeat split; assumption.
      + rewrite <- Ht', <- Hla, Hold by lia. apply Hrow. lia.
    - assert (Hre : at_ (S j) = re (tk_mr t')).
      { rewrite Ht'. cbn [tk_mr set_parent]. rewrite T4. cbn [re]. now rewrite at_succ. }
      rewrite Hre. eapply ps_next; [exact Hr| |constructor].
      apply (ct_token E P pt (rs (c_off c)) true true d (at_ j) st2 a t').
      + now rewrite Ha.
      + intros _ _. right. rewrite Ha, T4. cbn [re]. pose proof len_pos. lia.
      + unfold t'. now rewrite Ha.
  Qed.

  Lemma literal_rounds j : (j <= k)%nat -> exists d st1, row_so_far j d st1 /\
    rounds E P c i s pt [m] (N.of_nat j) [] off st0 d (at_ j) st1.
  Proof.
    (* rounds grow at the front, so do it from an arbitrary start *)
    assert (Hgen : forall n j d st1, (j + n <= k)%nat -> row_so_far j d st1 ->
      exists d' st2, row_so_far (j + n) d' st2 /\
        rounds E P c i s pt [m] (N.of_nat n) d (at_ j) st1 d' (at_ (j + n)) st2).
    { induction n as [|n IH]; intros j0 d st1 Hj Hrow.
      - rewrite Nat.add_0_r. exists d, st1. split; [exact Hrow|constructor].
      - destruct (literal_pass j0 d st1) as (d1 & st2 & Hrow1 & Hp); [lia|exact Hrow|].
        destruct (IH (S j0) d1 st2) as (d2 & st3 & Hrow2 & Hr); [lia|exact Hrow1|].
        exists d2, st3. replace (j0 + S n)%nat with (S j0 + n)%nat by lia. split; [exact Hrow2|].
        replace (N.of_nat (S n)) with (N.of_nat n + 1) by lia. eapply rd_pass; eauto. }
    intros Hj. destruct (Hgen j 0%nat [] st0) as (d & st1 & Hrow & Hr); [lia| |].
    - split; [unfold st0; rewrite program_start_size; unfold heap_size, pt; lia|].
      split; [reflexivity|]. repeat (split; [reflexivity|]). intros x Hx. lia.
    - exists d, st1. split; [exact Hrow|].
      replace (at_ 0) with off in Hr by (unfold at_; lia). exact Hr.
  Qed.

  Lemma row_hull j : (0 < j)%nat -> at_ j < usize_max ->
    hull (map (fun x => mkR (at_ x) (at_ (S x))) (seq 0 j)) = mkR off (at_ j).
  Proof.
    intros Hj Hm. pose proof len_pos as Hp.
    assert (H : forall n x, at_ (x + n) < usize_max -> (0 < n)%nat ->
       lowest (map (fun x => mkR (at_ x) (at_ (S x))) (seq x n)) = at_ x /\
       highest (map (fun x => mkR (at_ x) (at_ (S x))) (seq x n)) = at_ (x + n)).
    { induction n as [|n IH]; intros x Hx Hn; [lia|]. cbn [seq map lowest highest fold_right rs re].
      fold (lowest (map (fun x => mkR (at_ x) (at_ (S x))) (seq (S x) n))).
      fold (highest (map (fun x => mkR (at_ x) (at_ (S x))) (seq (S x) n))).
      destruct n as [|n].
      - cbn [seq map lowest highest fold_right]. replace (x + 1)%nat with (S x) in * by lia.
        assert (at_ x <= at_ (S x)) by (rewrite at_succ; lia). split; lia.
      - destruct (IH (S x)) as [-> ->]; [now replace (S x + S n)%nat with (x + S (S n))%nat by lia|lia|].
        replace (x + S (S n))%nat with (S x + S n)%nat by lia.
        assert (at_ x <= at_ (S x)) by (rewrite at_succ; lia).
        assert (at_ (S x) <= at_ (S x + S n)) by (unfold at_; nia).
        split; lia. }
    destruct (H j 0%nat Hm Hj) as [H1 H2]. unfold hull. rewrite H1, H2. cbn [Nat.add].
    f_equal. unfold at_. lia.
  Qed.

  Lemma row_closes j d st1 : (j <= k)%nat -> row_so_far j d st1 ->
    (j = 0%nat -> closes P pt d st1 (Err FFail) st1) /\
    ((0 < j)%nat -> exists st', closes P pt d st1 (Ok (SToken pt)) st' /\ literal_row st' pt name v off j).
  Proof.
    intros Hj (Hsz & Hpt & Hk & Hcr & Hmr & Hrow). split.
    - intros ->. apply cl_fail. intros (H1 & _). now apply H1.
    - intros H0. assert (Hat : at_ j < usize_max).
      { destruct (at_sliceable j Hj) as (A & B & _). cbn [rs re] in *. lia. }
      pose proof (row_hull j H0 Hat) as Hh.
      exists (set_tok st1 pt (filled P d (tok st1 pt))). split.
      + apply cl_token. split; [|split].
        * rewrite Hk. destruct j; [lia|discriminate].
        * rewrite Hcr. injection Hh as Hl _. rewrite Hl. unfold at_ in Hat. nia.
        * rewrite Hmr. injection Hh as Hl _. rewrite Hl. unfold at_ in Hat. nia.
      + assert (Hlt : (pt < List.length (st_heap st1))%nat) by (unfold heap_size in Hsz; lia).
        unfold literal_row. rewrite tok_set_same by exact Hlt. unfold filled.
        cbn [tk_kids tk_cr tk_mr set_mr set_cr set_kids]. rewrite Hk, Hcr, Hmr, Hh.
        split; [reflexivity|]. split; [reflexivity|]. split; [reflexivity|].
        intros x Hx. rewrite tok_set_other by lia. now apply Hrow.
  Qed.

  (* the literal stops before the bound: what was found is the result *)
  Lemma literal_stops : N.of_nat k < hi - lo ->
    exists st', (k = 0%nat -> Runs E P (MProgram [m] i) c s st (Err FFail) st') /\
                ((0 < k)%nat -> Runs E P (MProgram [m] i) c s st (Ok (SToken pt)) st' /\
                                literal_row st' pt name v off k).
  Proof.
    intros Hlt. destruct (literal_rounds k (le_n k)) as (d & st1 & Hrow & Hr).
    destruct (copy_window k (le_n k)) as (rest & W & Hn). rewrite Nat.sub_diag in W. cbn [copies repeat List.concat app] in W.
    set (st2 := mkSt (st_heap st1) (scopes_after st1 s custom name m)).
    assert (Hfail : Runs E P m (pattern_ctx c (pi_name i) pt (at_ k)) s st1 (Err FFail) st2).
    { apply equals_not_found; [exact Hd|apply at_sliceable; lia|]. right. intros [rest' W'].
      cbn [c_off pattern_ctx rs re] in W'. apply Hn. exists rest'. exact (window_unique _ _ _ _ _ W W'). }
    assert (Hrow2 : row_so_far k d st2) by exact Hrow.
    destruct (row_closes k d st2 (le_n k) Hrow2) as [Hc0 Hc1].
    assert (Hgo : forall r st', closes P pt d st2 r st' -> Runs E P (MProgram [m] i) c s st r st').
    { intros r st' Hc. apply (loop_does E P c i s st [m] lo hi (Done _ _) Hd Hstop Hiter).
      eapply rounds_loops; [exact Hr|lia|]. eapply lp_fail; [lia|apply ps_fail; exact Hfail|exact Hc]. }
    destruct k as [|k'].
    - exists st2. split; [intros _; apply Hgo; auto|lia].
    - destruct Hc1 as (st' & Hc & Hl); [lia|]. exists st'. split; [lia|]. intros _. split; [now apply Hgo|exact Hl].
  Qed.

  (* all iterations find the literal *)
  Lemma literal_fills : 0 < hi - lo -> hi - lo <= N.of_nat k ->
    exists st', (hi - lo < lo -> Runs E P (MProgram [m] i) c s st (Err FFail) st') /\
                (lo <= hi - lo -> Runs E P (MProgram [m] i) c s st (Ok (SToken pt)) st' /\
                                literal_row st' pt name v off (N.to_nat (hi - lo))).
  Proof.
    intros Hpos Hle. set (n := N.to_nat (hi - lo)).
    destruct (literal_rounds n) as (d & st1 & Hrow & Hr); [lia|].
    destruct (row_closes n d st1 ltac:(lia) Hrow) as [_ Hc]. destruct Hc as (st' & Hc & Hl); [lia|].
    assert (Hgo : forall o, loops E P c i lo s pt [m] 0 (hi - lo) d (at_ n) st1 o -> Does E P (MProgram [m] i) c s st o).
    { intros o Ho. apply (loop_does E P c i s st [m] lo hi o Hd Hstop Hiter).
      eapply rounds_loops; [exact Hr|lia|].
      now replace (hi - lo - N.of_nat n) with 0 by lia; replace (0 + N.of_nat n) with (hi - lo) by lia. }
    destruct (N.lt_ge_cases (hi - lo) lo) as [Hlt|Hge].
    - exists st1. split; [|lia]. intros _. apply (Hgo (Done _ _)). now apply lp_short.
    - exists st'. split; [lia|]. intros _. split; [|exact Hl].
      apply (Hgo (Done _ _)). apply lp_end; [assumption|intros (_ & H2 & _); lia|exact Hc].
  Qed.
End Literal.

(* ---------- C32, C33 ---------- *)

Section Signals.
  Variables (E : env) (P : parser) (c : ctx) (i : pinfo) (s : sid) (st : state) (pats : list matcher) (lo hi : N).
  Hypothesis Hd : c_debug c = 0.
  Hypothesis Hstop : pi_stop i = false.
  Hypothesis Hiter : pi_iter i = Some (lo, hi).
  Let pt := List.length (st_heap st).
  Variables (n : N) (d : list piece) (off : N) (st1 : state).
  Hypothesis Hr : rounds E P c i s pt pats n [] (rs (c_off c)) (program_start P pats i s st) d off st1.
  Hypothesis Hn : n < hi - lo.
  Variables (nm : str) (p : success) (d1 d2 : list piece) (o1 o2 : N) (st2 st3 : state).
  Hypothesis Ht : takes_payload E P pt (rs (c_off c)) d1 o1 st2 p d2 o2 st3.

  Lemma break_own r st' : nm = [] \/ nm = pi_name i ->
    pass E P c (pi_name i) s pt pats d off st1 (Signal (SBreak nm p) d1 o1 st2) ->
    closes P pt d2 st3 r st' -> Runs E P (MProgram pats i) c s st r st'.
  Proof.
    intros Hnm Hp Hc. apply (loop_does E P c i s st pats lo hi (Done _ _) Hd Hstop Hiter).
    eapply rounds_loops; [exact Hr|lia|]. eapply lp_break; eauto. lia.
  Qed.
  Lemma break_other x st' : nm <> [] -> nm <> pi_name i ->
    pass E P c (pi_name i) s pt pats d off st1 (Signal (SBreak nm p) d1 o1 st2) ->
    closes P pt d2 st3 (Ok x) st' -> Runs E P (MProgram pats i) c s st (Ok (SBreak nm x)) st'.
  Proof.
    intros Hnm Hnm' Hp Hc. apply (loop_does E P c i s st pats lo hi (Done _ _) Hd Hstop Hiter).
    eapply rounds_loops; [exact Hr|lia|]. eapply lp_break_outer; eauto. lia.
  Qed.
  Lemma break_other_empty e st' : nm <> [] -> nm <> pi_name i ->
    pass E P c (pi_name i) s pt pats d off st1 (Signal (SBreak nm p) d1 o1 st2) ->
    closes P pt d2 st3 (Err e) st' -> Runs E P (MProgram pats i) c s st (Err e) st'.
  Proof.
    intros Hnm Hnm' Hp Hc. apply (loop_does E P c i s st pats lo hi (Done _ _) Hd Hstop Hiter).
    eapply rounds_loops; [exact Hr|lia|]. eapply lp_break_outer_fail; eauto. lia.
  Qed.
  Lemma continue_other r st' : nm <> [] -> nm <> pi_name i ->
    pass E P c (pi_name i) s pt pats d off st1 (Signal (SContinue nm p) d1 o1 st2) ->
    closes P pt d2 st3 r st' -> Runs E P (MProgram pats i) c s st r st'.
  Proof.
    intros Hnm Hnm' Hp Hc. apply (loop_does E P c i s st pats lo hi (Done _ _) Hd Hstop Hiter).
    eapply rounds_loops; [exact Hr|lia|]. eapply lp_continue_outer; eauto. lia.
  Qed.
End Signals.

(* a program that is not a loop *)
Lemma program_break E P c i s st pats nm p d1 o1 st2 d2 o2 st3 x st' :
  c_debug c = 0 -> pi_stop i = false -> pi_iter i = None ->
  let pt := List.length (st_heap st) in
  pass E P c (pi_name i) s pt pats [] (rs (c_off c)) (program_start P pats i s st) (Signal (SBreak nm p) d1 o1 st2) ->
  takes_payload E P pt (rs (c_off c)) d1 o1 st2 p d2 o2 st3 ->
  closes P pt d2 st3 x st' ->
  Runs E P (MProgram pats i) c s st (match x with Ok y => Ok (SBreak nm y) | Err e => Err e end) st'.
Proof.
  intros Hd Hs Hi pt Hp Ht Hc. eapply (program_does E P c i s st pats Hd Hs Hi _ (Done _ _)); [exact Hp|].
  destruct x; [eapply lt_break|eapply lt_break_fail]; eauto.
Qed.
Lemma program_continue E P c i s st pats nm p d1 o1 st2 d2 o2 st3 r st' :
  c_debug c = 0 -> pi_stop i = false -> pi_iter i = None ->
  let pt := List.length (st_heap st) in
  pass E P c (pi_name i) s pt pats [] (rs (c_off c)) (program_start P pats i s st) (Signal (SContinue nm p) d1 o1 st2) ->
  takes_payload E P pt (rs (c_off c)) d1 o1 st2 p d2 o2 st3 ->
  closes P pt d2 st3 r st' ->
  Runs E P (MProgram pats i) c s st r st'.
Proof.
  intros Hd Hs Hi pt Hp Ht Hc. eapply (program_does E P c i s st pats Hd Hs Hi _ (Done _ _)); [exact Hp|].
  eapply lt_continue; eauto.
Qed.

(* C27 *)
Lemma loop_runs_rounds E P c i s st pats lo hi o :
  c_debug c = 0 -> pi_stop i = false -> pi_iter i = Some (lo, hi) -> o <> Never ->
  Does E P (MProgram pats i) c s st o ->
  let pt := List.length (st_heap st) in
  exists n d off st1, n <= hi - lo /\
    rounds E P c i s pt pats n [] (rs (c_off c)) (program_start P pats i s st) d off st1 /\
    (n = hi - lo \/
     exists w, pass E P c (pi_name i) s pt pats d off st1 w /\ forall d' o' st2, w <> AllDone d' o' st2).
Proof.
  intros Hd Hs Hi Ho H pt. eapply loops_rounds. eapply does_loop; eauto.
Qed.

(* C28 *)
Lemma short_loop E P c i s st pats lo hi d off st1 :
  c_debug c = 0 -> pi_stop i = false -> pi_iter i = Some (lo, hi) -> hi - lo < lo ->
  rounds E P c i s (List.length (st_heap st)) pats (hi - lo) [] (rs (c_off c)) (program_start P pats i s st) d off st1 ->
  Runs E P (MProgram pats i) c s st (Err FFail) st1.
Proof.
  intros Hd Hs Hi Hlt Hr. apply (loop_does E P c i s st pats lo hi (Done _ _) Hd Hs Hi).
  eapply rounds_loops; [exact Hr|lia|]. rewrite N.sub_diag. now apply lp_short.
Qed.
Lemma failing_round E P c i s st pats lo hi n d off st1 d2 st2 r st' :
  c_debug c = 0 -> pi_stop i = false -> pi_iter i = Some (lo, hi) -> n < hi - lo ->
  let pt := List.length (st_heap st) in
  rounds E P c i s pt pats n [] (rs (c_off c)) (program_start P pats i s st) d off st1 ->
  pass E P c (pi_name i) s pt pats d off st1 (NoMatch d2 st2) ->
  closes P pt d2 st2 r st' ->
  Runs E P (MProgram pats i) c s st r st'.
Proof.
  intros Hd Hs Hi Hlt pt Hr Hp Hc. apply (loop_does E P c i s st pats lo hi (Done _ _) Hd Hs Hi).
  eapply rounds_loops; [exact Hr|lia|]. eapply lp_fail; eauto. lia.
Qed.

(* C33 *)
Lemma switch_continue E P c i s st m ms nm p st1 :
  c_debug c = 0 -> pi_stop i = true -> pi_iter i = None -> rs (c_off c) <= usize_max ->
  Runs E P m (pattern_ctx c (pi_name i) (List.length (st_heap st)) (rs (c_off c))) s
       (program_start P (m :: ms) i s st) (Ok (SContinue nm p)) st1 ->
  Runs E P (MProgram (m :: ms) i) c s st (Ok (SBreak nm p)) st1.
Proof.
  intros Hd Hs Hi Ho H. apply (switch_does E P c i s st (m :: ms) (Done _ _) Hd Hs Hi Ho).
  eapply ch_decide; [exact H|constructor].
Qed.
Lemma closes_token P pt d st r st' : closes P pt d st r st' -> r = Ok (SToken pt) \/ r = Err FFail.
Proof. destruct 1; auto. Qed.

(* C30, for contexts with any debug level *)
Lemma spins_any E P c i s st pats lo hi :
  pi_stop i = false -> pi_iter i = Some (lo, hi) -> rs (c_off c) <= usize_max ->
  (forall m, In m pats ->
     Runs E P m (pattern_ctx c (pi_name i) (List.length (st_heap st)) (rs (c_off c))) s
          (program_start P pats i s st) (Ok (SSkip 0)) (program_start P pats i s st)) ->
  forall n, N.of_nat n <= hi - lo -> lo < hi -> exec n E P (MProgram pats i) c s st = OOF.
Proof. intros Hs Hi Ho H n Hn Hl. eapply spins; eauto. Qed.
