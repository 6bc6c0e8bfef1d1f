(* Map, the fatal-if / assert-if families, and Catch (C34, C35). *)
From Verif Require Export ProgramProofs.
Open Scope string_scope.
Open Scope list_scope.
Open Scope N_scope.

Lemma error_string_text E P msg r : sliceable (p_src P) r -> re r < usize_max ->
  exists text, error_text P msg r text /\ error_string E P msg r = Val text.
Proof.
  intros H1 H2. destruct (error_string_spec E P msg r H1 H2) as
    (a & b & la & lb & ls & le & lines & cols & H & H0 & H3 & H4 & H5 & H6 & H7 & H8 & H9).
  eexists. split; [|exact H9]. exists a, b, la, lb, ls, le, lines, cols. auto 20.
Qed.

Lemma error_token_at_spec E P msg r st : sliceable (p_src P) r -> re r < usize_max ->
  exists text t, error_text P msg r text /\ message_token t r text /\
    error_token_at E P msg r st = Ret (Ok (SToken (List.length (st_heap st)))) (mkSt (st_heap st ++ [t]) (st_scopes st)).
Proof.
  intros H1 H2. destruct (error_string_text E P msg r H1 H2) as (text & Ht & He).
  exists text. unfold error_token_at. rewrite He. eexists. split; [exact Ht|].
  split; [|reflexivity]. repeat split.
Qed.

Definition map_k (E : env) (P : parser) (f : mapfn) (c : ctx) (s : sid) (r : mres) (st : state) : res mres :=
  match r with
  | Ok (SToken a) | Ok (SProxy a) => map_ok E P f a c s st
  | Ok _ => Ret r st
  | Err e => map_err E P f e c s st
  end.
Lemma map_unfold E P m f c s st n :
  exec (S n) E P (MMap m f) c s st
  = (do r, st1 <- exec n E P m (renamed c "Map") s st; map_k E P f (renamed c "Map") s r st1).
Proof. reflexivity. Qed.

Lemma map_runs E P m f c s st r0 st1 r st' :
  Runs E P m (renamed c "Map") s st r0 st1 -> map_k E P f (renamed c "Map") s r0 st1 = Ret r st' ->
  Runs E P (MMap m f) c s st r st'.
Proof.
  intros D Hk. apply (runs_bind _ _ _ _ _ _ _ _ _ _ _ (map_unfold E P m f c s st)). eauto.
Qed.

Definition a_token (x : success) : Prop := exists a, x = SToken a \/ x = SProxy a.

Lemma map_signals E P m f c s st x st1 :
  Runs E P m (renamed c "Map") s st (Ok x) st1 -> (forall a, x <> SToken a /\ x <> SProxy a) ->
  Runs E P (MMap m f) c s st (Ok x) st1.
Proof.
  intros D Hx. eapply map_runs; [exact D|].
  destruct x as [a|a|z|b p|b p| |]; try reflexivity; destruct (Hx a); congruence.
Qed.

Lemma map_user_ok E P m k c s st x a st1 r st' :
  Runs E P m (renamed c "Map") s st (Ok x) st1 -> x = SToken a \/ x = SProxy a ->
  e_map_ok E k a (renamed c "Map") s st1 = Ret r st' ->
  Runs E P (MMap m (MapUser k)) c s st r st'.
Proof. intros D [-> | ->] H; (eapply map_runs; [exact D|exact H]). Qed.
Lemma map_user_err E P m k c s st e st1 r st' :
  Runs E P m (renamed c "Map") s st (Err e) st1 ->
  e_map_err E k e (renamed c "Map") s st1 = Ret r st' ->
  Runs E P (MMap m (MapUser k)) c s st r st'.
Proof. intros D H; (eapply map_runs; [exact D|exact H]). Qed.

Lemma map_panics E P m f c s st p :
  Panics E P m (renamed c "Map") s st p -> Panics E P (MMap m f) c s st p.
Proof. intros D. apply (panics_bind _ _ _ _ _ _ _ _ _ _ _ (map_unfold E P m f c s st)). auto. Qed.
Lemma map_diverges E P m f c s st :
  Diverges E P m (renamed c "Map") s st -> Diverges E P (MMap m f) c s st.
Proof. intros D [|n]; [reflexivity|]. now rewrite map_unfold, D. Qed.

(* parse errors pass through everything but user closures *)
Lemma map_errors E P m f c s st e st1 :
  (forall k, f <> MapUser k) ->
  Runs E P m (renamed c "Map") s st (Err (FError e)) st1 ->
  Runs E P (MMap m f) c s st (Err (FError e)) st1.
Proof.
  intros Hf D. eapply map_runs; [exact D|]. destruct f; try reflexivity. now destruct (Hf k).
Qed.

Lemma fatal_if_match E P m msg c s st x a st1 :
  let r := tk_mr (tok st1 a) in
  Runs E P m (renamed c "Map") s st (Ok x) st1 -> x = SToken a \/ x = SProxy a ->
  sliceable (p_src P) r -> re r < usize_max ->
  exists text, error_text P msg r text /\
    Runs E P (MMap m (MapFatalIf msg)) c s st (Err (FError (mkPE text (Some r)))) st1.
Proof.
  intros r D Hx H1 H2. destruct (error_string_text E P msg r H1 H2) as (text & Ht & He).
  exists text. split; [exact Ht|].
  destruct Hx as [-> | ->]; (eapply map_runs; [exact D|]); cbn [map_k map_ok]; fold r; now rewrite He.
Qed.
Lemma fatal_if_no_match E P m msg c s st st1 :
  Runs E P m (renamed c "Map") s st (Err FFail) st1 ->
  Runs E P (MMap m (MapFatalIf msg)) c s st (Ok (SSkip 0)) st1.
Proof. intros D. now apply (map_runs _ _ _ _ _ _ _ _ _ _ _ D). Qed.

Lemma fatal_if_not_match E P m msg c s st x a st1 :
  Runs E P m (renamed c "Map") s st (Ok x) st1 -> x = SToken a \/ x = SProxy a ->
  Runs E P (MMap m (MapFatalIfNot msg)) c s st (Ok (SSkip 0)) st1.
Proof. intros D [-> | ->]; now apply (map_runs _ _ _ _ _ _ _ _ _ _ _ D). Qed.
Lemma fatal_if_not_no_match E P m msg c s st st1 :
  Runs E P m (renamed c "Map") s st (Err FFail) st1 ->
  sliceable (p_src P) (c_off c) -> re (c_off c) < usize_max ->
  exists text, error_text P msg (c_off c) text /\
    Runs E P (MMap m (MapFatalIfNot msg)) c s st (Err (FError (mkPE text (Some (c_off c))))) st1.
Proof.
  intros D H1 H2. destruct (error_string_text E P msg (c_off c) H1 H2) as (text & Ht & He).
  exists text. split; [exact Ht|]. apply (map_runs _ _ _ _ _ _ _ _ _ _ _ D).
  cbn [map_k map_err renamed c_off]. now rewrite He.
Qed.

Lemma assert_if_match E P m msg c s st x a st1 :
  let r := tk_mr (tok st1 a) in
  Runs E P m (renamed c "Map") s st (Ok x) st1 -> x = SToken a \/ x = SProxy a ->
  sliceable (p_src P) r -> re r < usize_max ->
  exists text t, error_text P msg r text /\ message_token t r text /\
    Runs E P (MMap m (MapAssertIf msg)) c s st (Ok (SToken (List.length (st_heap st1))))
         (mkSt (st_heap st1 ++ [t]) (st_scopes st1)).
Proof.
  intros r D Hx H1 H2. destruct (error_token_at_spec E P msg r st1 H1 H2) as (text & t & Ht & Hm & He).
  exists text, t. split; [exact Ht|]. split; [exact Hm|].
  destruct Hx as [-> | ->]; now apply (map_runs _ _ _ _ _ _ _ _ _ _ _ D).
Qed.
Lemma assert_if_no_match E P m msg c s st st1 :
  Runs E P m (renamed c "Map") s st (Err FFail) st1 ->
  Runs E P (MMap m (MapAssertIf msg)) c s st (Ok (SSkip 0)) st1.
Proof. intros D. now apply (map_runs _ _ _ _ _ _ _ _ _ _ _ D). Qed.

Lemma assert_if_not_match E P m msg c s st x a st1 :
  Runs E P m (renamed c "Map") s st (Ok x) st1 -> x = SToken a \/ x = SProxy a ->
  Runs E P (MMap m (MapAssertIfNot msg)) c s st (Ok (SSkip 0)) st1.
Proof. intros D [-> | ->]; now apply (map_runs _ _ _ _ _ _ _ _ _ _ _ D). Qed.
Lemma assert_if_not_no_match E P m msg c s st st1 :
  let r := mkR (rs (c_off c)) (rs (c_off c)) in
  Runs E P m (renamed c "Map") s st (Err FFail) st1 ->
  sliceable (p_src P) r -> re r < usize_max ->
  exists text t, error_text P msg r text /\ message_token t r text /\
    Runs E P (MMap m (MapAssertIfNot msg)) c s st (Ok (SToken (List.length (st_heap st1))))
         (mkSt (st_heap st1 ++ [t]) (st_scopes st1)).
Proof.
  intros r D H1 H2. destruct (error_token_at_spec E P msg r st1 H1 H2) as (text & t & Ht & Hm & He).
  exists text, t. split; [exact Ht|]. split; [exact Hm|].
  now apply (map_runs _ _ _ _ _ _ _ _ _ _ _ D).
Qed.

(* the error matchers *)
Lemma error_matcher E P msg c s st :
  let r := mkR (rs (c_off c)) (rs (c_off c)) in
  sliceable (p_src P) r -> re r < usize_max ->
  exists text t, error_text P msg r text /\ message_token t r text /\
    Runs E P (MErrorP msg) c s st (Ok (SToken (List.length (st_heap st))))
         (mkSt (st_heap st ++ [t]) (st_scopes st)).
Proof.
  intros r H1 H2. destruct (error_token_at_spec E P msg r st H1 H2) as (text & t & Ht & Hm & He).
  exists text, t. split; [exact Ht|]. split; [exact Hm|]. now exists 1%nat.
Qed.

(* the range of Panic starts where the innermost enclosing program token
   currently starts *)
Lemma panic_matcher E P msg c s st :
  let r := mkR (match c_stack c with a :: _ => rs (tk_mr (tok st a)) | [] => rs (c_off c) end) (rs (c_off c)) in
  sliceable (p_src P) r -> re r < usize_max ->
  exists text, error_text P msg r text /\
    Runs E P (MPanic msg) c s st (Err (FError (mkPE text (Some r)))) st.
Proof.
  intros r H1 H2. destruct (error_string_text E P msg r H1 H2) as (text & Ht & He).
  exists text. split; [exact Ht|]. exists 1%nat. cbn [exec step]. unfold top_token, before_exec. cbn [m_custom].
  subst r. unfold top_token. destruct (c_stack c) as [|b l]; cbn [hd_error] in *; now rewrite He.
Qed.

(* ---------- Catch ---------- *)

Definition catch_k (E : env) (k : N) (c : ctx) (r : mres) (st : state) : res mres :=
  match r with Ok _ => Ret r st | Err e => e_catch E k e c st end.
Lemma catch_unfold E P m k c s st n :
  exec (S n) E P (MCatch m k) c s st
  = (do r, st1 <- exec n E P m (renamed c "Catch") s st; catch_k E k (renamed c "Catch") r st1).
Proof. reflexivity. Qed.

Lemma catch_ok E P m k c s st x st1 :
  Runs E P m (renamed c "Catch") s st (Ok x) st1 -> Runs E P (MCatch m k) c s st (Ok x) st1.
Proof.
  intros D. apply (runs_bind _ _ _ _ _ _ _ _ _ _ _ (catch_unfold E P m k c s st)). eexists _, _; split; eauto.
Qed.
Lemma catch_err E P m k c s st e st1 r st' :
  Runs E P m (renamed c "Catch") s st (Err e) st1 ->
  e_catch E k e (renamed c "Catch") st1 = Ret r st' ->
  Runs E P (MCatch m k) c s st r st'.
Proof.
  intros D H. apply (runs_bind _ _ _ _ _ _ _ _ _ _ _ (catch_unfold E P m k c s st)). eexists _, _; split; eauto.
Qed.
Lemma catch_inv E P m k c s st r st' :
  Runs E P (MCatch m k) c s st r st' ->
  exists r0 st1, Runs E P m (renamed c "Catch") s st r0 st1 /\
    match r0 with Ok _ => r = r0 /\ st' = st1 | Err e => e_catch E k e (renamed c "Catch") st1 = Ret r st' end.
Proof.
  intros D. apply (runs_bind _ _ _ _ _ _ _ _ _ _ _ (catch_unfold E P m k c s st)) in D.
  destruct D as (r0 & st1 & D & Hk). exists r0, st1. split; [exact D|].
  destruct r0; cbn in Hk; [injection Hk as <- <-; auto|exact Hk].
Qed.
Lemma catch_panics E P m k c s st p :
  Panics E P m (renamed c "Catch") s st p -> Panics E P (MCatch m k) c s st p.
Proof. intros D. apply (panics_bind _ _ _ _ _ _ _ _ _ _ _ (catch_unfold E P m k c s st)). auto. Qed.
Lemma catch_diverges E P m k c s st :
  Diverges E P m (renamed c "Catch") s st -> Diverges E P (MCatch m k) c s st.
Proof. intros D [|n]; [reflexivity|]. now rewrite catch_unfold, D. Qed.
