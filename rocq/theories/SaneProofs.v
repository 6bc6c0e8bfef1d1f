(* Written patterns stand for something, unless something is wrong with them. *)
From Verif Require Import Facts Spec SpecScript SpecSyntax SpecMatch SpecSteady.
Open Scope string_scope.
Open Scope list_scope.
Open Scope N_scope.

(* ---------- books of patterns that stand for something ---------- *)

Lemma sane_put V D s x e : sane_book V D -> sane_entry e -> sane_book V (put D s x e).
Proof.
  intros H He s' y e' Hs Hp. unfold put in Hp. destruct (Nat.eqb s s' && str_eqb x y); [now injection Hp as <-|eauto].
Qed.
Lemma sane_noted V D s name k : sane_book V D -> sane_core sane k -> sane_book V (noted D s name k).
Proof.
  intros H Hk. pose proof (sane_put V D s name (Own name Unsigned Unsigned k [] Once) H Hk) as G.
  unfold noted. destruct k; (match goal with |- sane_book V (if ?b then _ else _) => destruct b end); auto.
Qed.
Lemma sane_list ps : fold_right (fun p Q => sane p /\ Q) True ps <-> Forall sane ps.
Proof.
  induction ps as [|p ps IH]; cbn; [split; auto|]. rewrite IH. split; [intros []; now constructor|]. inversion 1; auto.
Qed.

(* ---------- written ones ---------- *)

Lemma first_none a l : first_fault (a :: l) = None <-> a = None /\ first_fault l = None.
Proof. cbn. destruct a; split; intros; try (split; [reflexivity|]); try easy; intuition discriminate. Qed.
Lemma first_nones l : first_fault l = None <-> Forall (fun a => a = None) l.
Proof.
  induction l as [|a l IH]; [now split|]. rewrite first_none, IH. split; [intros []; now constructor|]. inversion 1; auto.
Qed.

Section Written.
  Variable E : env.
  Hypothesis HM : measured E.

  Lemma written_sane :
    (forall p t, writes E p t -> fault_of p = None -> sane p) /\
    (forall o i k l r t, writes_bare E o i k l r t -> core_fault fault_of k = None -> sane_core sane k) /\
    (forall k t, writes_core E k t -> core_fault fault_of k = None -> sane_core sane k) /\
    (forall ps t, writes_alternatives E ps t -> first_fault (map fault_of ps) = None -> fold_right (fun p Q => sane p /\ Q) True ps) /\
    (forall ps t, writes_sequence E ps t -> first_fault (map fault_of ps) = None -> fold_right (fun p Q => sane p /\ Q) True ps).
  Proof.
    apply writes_mutind; try (intros; match goal with H : _ = None -> sane_core _ _ |- _ => apply H end;
      match goal with H : fault_of _ = None |- _ => cbn [fault_of] in H; apply first_none in H; apply H end).
    - intros. auto.
    - intros v t _ H. destruct v; [discriminate H|]. discriminate.
    - intros. exact Logic.I.
    - intros a b x ta tb tx b1 b2 b3 b4 b5 _ _ _ _ _ _ _ _ H. destruct a; [discriminate H|]. destruct b; [discriminate H|]. split; discriminate.
    - intros body flags _ _ H. destruct (e_regex E (regex_source body flags)) as [f|] eqn:Hf; [|discriminate H]. exact (HM _ _ Hf).
    - auto.
    - auto.
    - intros p t b1 b2 _ IH _ _ H. cbn [map] in H. apply first_none in H as [H _]. split; [auto|exact Logic.I].
    - intros p t b1 b2 b3 _ IH _ _ _ H. cbn [map] in H. apply first_none in H as [H _]. split; [auto|exact Logic.I].
    - intros p t ps u b1 b2 _ IH _ _ _ IHs H. cbn [map] in H. apply first_none in H as [H H']. split; auto.
    - intros p t b1 b2 _ IH _ _ H. cbn [map] in H. apply first_none in H as [H _]. split; [auto|exact Logic.I].
    - intros p t ps u b1 _ IH _ _ IHs H. cbn [map] in H. apply first_none in H as [H H']. split; auto.
  Qed.
  Lemma body_sane ps t : body_text E ps t -> faultless ps -> Forall sane ps.
  Proof.
    induction 1 as [| |b p t ps u Hb Hw Hbo IH]; intros Hf; auto. inversion Hf; subst. constructor; [|auto].
    eapply (proj1 written_sane); eauto.
  Qed.
  Lemma statement_sane d t x e : statement_text E d t -> statement_fault d = None -> own_entry d = Some (x, e) -> sane_entry e.
  Proof.
    destruct 1 as [| y o i k l r b1 b2 t Hy H1 H2 Hw|]; intros Hf He; cbn [own_entry] in He; try discriminate; injection He as <- <-; cbn.
    - exact Logic.I.
    - cbn [statement_fault] in Hf. unfold definition_fault in Hf. apply first_none in Hf as [Hf _]. eapply (proj1 (proj2 written_sane)); eauto.
  Qed.
  Lemma statements_texts l t : statements_text E l t -> forall d, In d l -> exists u, statement_text E d u.
  Proof.
    induction 1 as [| |b s t l u Hb Hs He Hl IH]; intros d Hd; [contradiction|auto|]. destruct Hd as [<- |Hd]; eauto.
  Qed.
  Lemma script_statements d src : script_text E d src -> forall s, In s (s_statements d) -> exists u, statement_text E s u.
  Proof.
    destruct 1; cbn [s_statements s_head]; [contradiction|]. eapply statements_texts; eauto.
  Qed.
  Lemma script_patterns_sane d src : script_text E d src -> faultless (s_patterns d) -> Forall sane (s_patterns d).
  Proof. destruct 1; cbn [s_patterns]; eapply body_sane; eauto. Qed.
End Written.
