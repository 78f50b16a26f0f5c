(** Property theorems C92-C98: the NLP interface seen as an Osi solver. *)
From Verif Require Import Base Arr Nlp Prob_Model Prob_Spec Prob_Proofs Acc_Model Acc_Spec Acc_Proofs LinObj_Props.
#[local] Open Scope Q_scope.

(** The example problem has 2 variables and one row  1 <= x0 x1 <= 4. *)
Definition exSolve (x : list Q) : iop := ISolve x (p_g exP x) [0; 0] [0; 0] [0] (p_f exP x) None.
Lemma legal_ex h : no_use h -> valid_hist exP (calls h) -> legal exP h.
Proof. split; auto. Qed.

(** ** C92 *)
Theorem C92_rows_partial : forall P h, nlp_ok P -> legal P h ->
  Forall proper (combine (fst (rows_now P (calls h))) (snd (rows_now P (calls h)))) ->
  exists s ss rs ws, irun P h = Ok s /\ ask s = Ok (ss, rs, ws) /\
    arrays_ok (fst (rows_now P (calls h))) (snd (rows_now P (calls h))) ss rs ws.
Proof. exact C92_lem. Qed.
Print Assumptions C92_rows_partial.
(** Rows asked for, then a row added: the arrays are recomputed. *)
Example C92_hypotheses_met :
  legal exP [IAdd [MInf] [Fin 3] 2; ISense] /\
  (do s <- irun exP [IAdd [MInf] [Fin 3] 2; ISense]; ask s) =
    Ok (Some [sR; sL], Some [Fin 4; Fin 3], Some [Fin (4 - 1); Fin 0]).
Proof. split; [apply legal_ex; repeat constructor|vm_compute; reflexivity]. Qed.
(** Another problem is used: the arrays are still those of the previous one. *)
Theorem C92_refuted : ~ C92_full.
Proof.
  intros H. pose (p2 := del_rows [] [] (mk_prob exP)).
  specialize (H exP [IUse p2; ISense] _ C11_hypotheses_met eq_refl).
  destruct H as (ss & rs & ws & A & B); [constructor|reflexivity|]. cbn in A. injection A as <- <- <-. cbn in B.
  destruct B as (B & _). discriminate B.
Qed.
Print Assumptions C92_refuted.

(** ** C93 *)
(** What is reported, exactly. *)
Theorem C93_shown_partial : forall P h, nlp_ok P -> (0 < p_n P)%nat -> legal P h ->
  exists s, irun P h = Ok s /\
  getColSolution s = match shown (p_n P) h with Some x => Ok x | None => OutOfBounds end.
Proof. exact C93_exact. Qed.
Print Assumptions C93_shown_partial.
(** It is the last point as long as only rows were changed since, or since it was set by the user. *)
Theorem C93_point_partial : forall P h x, nlp_ok P -> (0 < p_n P)%nat -> legal P h ->
  undisturbed h \/ since_set h -> last_point h = Some x ->
  exists s, irun P h = Ok s /\ getColSolution s = Ok x.
Proof.
  intros P h x K N V U L. destruct (C93_exact P h K N V) as (s & E & G). exists s. split; [exact E|].
  assert (shown (p_n P) h = last_point h) as S by (destruct U as [U|U]; [apply undisturbed_shown|apply since_shown]; exact U).
  rewrite S, L in G. exact G.
Qed.
Print Assumptions C93_point_partial.
Example C93_hypotheses_met :
  legal exP [IAdd [MInf] [Fin 3] 2; exSolve [2; 1]] /\ undisturbed [IAdd [MInf] [Fin 3] 2; exSolve [2; 1]] /\
  since_set [ILow 0 (Fin 1); ISetCol [3; 4] 0; exSolve [2; 1]] /\
  (do s <- irun exP [IAdd [MInf] [Fin 3] 2; exSolve [2; 1]]; getColSolution s) = Ok [2; 1] /\
  (do s <- irun exP [ILow 0 (Fin 1); ISetCol [3; 4] 0; exSolve [2; 1]]; getColSolution s) = Ok [3; 4].
Proof. split; [apply legal_ex; repeat constructor|]. repeat split; vm_compute; auto. Qed.
(** After a bound is changed the point of the last solve is gone. *)
Theorem C93_refuted : ~ C93_full.
Proof.
  intros H.
  destruct (H exP [ILow 0 (Fin 1); exSolve [2; 1]] C11_hypotheses_met) as (s & E & G).
  - cbn; lia.
  - apply legal_ex; repeat constructor.
  - specialize (G [2; 1] eq_refl). vm_compute in E. injection E as <-. vm_compute in G. discriminate G.
Qed.
Print Assumptions C93_refuted.

(** ** C94 *)
(** Activities, objective and gradient are always those of the point of the last solve. *)
Theorem C94_last_partial : forall P h, nlp_ok P -> (0 < p_n P)%nat -> legal P h -> true_solves P h -> has_solve h ->
  exists s x, irun P h = Ok s /\ fst (fst (last_final (calls h))) = x /\ length x = p_n P /\
  getRowActivity s = Ok (p_g P x) /\ getObjValue s = Some (p_f P x) /\ getObjCoefficients s = Ok (p_gf P x).
Proof. exact C94_exact. Qed.
Print Assumptions C94_last_partial.
(** They belong to the reported point as long as nothing was changed since the solve. *)
Theorem C94_together_partial : forall P h, nlp_ok P -> (0 < p_n P)%nat -> legal P h -> true_solves P h -> solved h = true ->
  exists s x, irun P h = Ok s /\ getColSolution s = Ok x /\
  getRowActivity s = Ok (p_g P x) /\ getObjValue s = Some (p_f P x) /\ getObjCoefficients s = Ok (p_gf P x).
Proof.
  intros P h K N V T S.
  assert (HS : has_solve h).
  { clear K N V T. induction h as [|o h IH]; [discriminate|].
    destruct o; cbn [solved] in S; try discriminate S;
    try (destruct (IH S) as (a & b & c & d & e & f & g & W); do 7 eexists; right; exact W).
    do 7 eexists. left. reflexivity. }
  destruct (C94_exact P h K N V T HS) as (s & x & E & L & _ & R).
  destruct (C93_exact P h K N V) as (s' & E' & G). assert (s' = s) by congruence. subst s'.
  exists s, x. split; [exact E|]. unfold shown in G. rewrite S, L in G. auto.
Qed.
Print Assumptions C94_together_partial.
Example C94_hypotheses_met :
  legal exP [ISense; exSolve [2; 1]; ISetCol [3; 4] 0] /\ true_solves exP [ISense; exSolve [2; 1]; ISetCol [3; 4] 0] /\
  solved [ISense; exSolve [2; 1]; ISetCol [3; 4] 0] = true /\
  (do s <- irun exP [ISense; exSolve [2; 1]; ISetCol [3; 4] 0]; getObjCoefficients s) = Ok [2 * 2; 1].
Proof.
  split; [apply legal_ex; repeat constructor|]. split; [|split; [reflexivity|vm_compute; reflexivity]].
  repeat constructor.
Qed.
(** After setColSolution they still are those of the solve. *)
Theorem C94_refuted : ~ C94_full.
Proof.
  intros H.
  destruct (H exP [ISetCol [3; 4] 0; exSolve [2; 1]] C11_hypotheses_met) as (s & E & G).
  - cbn; lia.
  - apply legal_ex; repeat constructor.
  - repeat constructor.
  - do 7 eexists. right. left. reflexivity.
  - vm_compute in E. injection E as <-. specialize (G [3; 4] eq_refl). destruct G as (G & _). vm_compute in G. discriminate G.
Qed.
Print Assumptions C94_refuted.

(** ** C95 *)
(** The basis exists exactly when every row has an activity (a row added since the last solve has none). *)
Theorem C95_exists_partial : forall s, length (b_gu (i_p s)) = length (b_gl (i_p s)) ->
  (exists st, build_fake_basis s = Ok st /\ length st = length (b_gl (i_p s))) <->
  (length (b_gl (i_p s)) <= length (b_gs (i_p s)))%nat.
Proof. exact basis_total. Qed.
Print Assumptions C95_exists_partial.
(** A row is basic exactly when its activity is 1e-4 away from both bounds; otherwise it is
    at its lower bound, never at its upper one. *)
Theorem C95_status_partial : forall s st, build_fake_basis s = Ok st ->
  forall i l u a t, nth_error (b_gl (i_p s)) i = Some l -> nth_error (b_gu (i_p s)) i = Some u ->
  nth_error (b_gs (i_p s)) i = Some a -> nth_error st i = Some t ->
  (t = bBasic <-> (match l with MInf => True | Fin q => q + eps4 <= a | PInf => False end /\
                   match u with PInf => True | Fin q => a <= q - eps4 | MInf => False end)) /\
  (t <> bBasic -> t = bLower).
Proof. exact basis_exact. Qed.
Print Assumptions C95_status_partial.
Definition exBasis : itf :=
  mkI (mkProb exP [] [] [] [] [Fin 0; Fin 0; MInf] [Fin 1; Fin 1; Fin 5] [] [] vempty None [] [0; 1; 3] [] None) true None None None.
Example C95_hypotheses_met : build_fake_basis exBasis = Ok [bLower; bLower; bBasic].
Proof. vm_compute. reflexivity. Qed.
Theorem C95_refuted : ~ C95_full.
Proof.
  intros H. destruct (H exBasis _ C95_hypotheses_met 0%nat 1%nat _ _ _ _ _ _ _ _ eq_refl eq_refl eq_refl eq_refl eq_refl eq_refl eq_refl eq_refl)
    as (_ & _ & A).
  apply A; [| |reflexivity]; (split; [eexists; split; [reflexivity|reflexivity]|vm_compute; discriminate]).
Qed.
Print Assumptions C95_refuted.

(** ** C96 *)
Theorem C96_parameters_partial : forall k v p ok p', setDblParam k v p = (ok, p') ->
  (ok = true -> k <> PrimalTol -> getDblParam k p' = Some (Fin v)) /\ (ok = false -> p' = p) /\
  (ok = true <-> k = DualObjLimit \/ k = PrimalTol \/ k = ObjOffset) /\
  (forall k', k' <> k -> getDblParam k' p' = getDblParam k' p).
Proof.
  intros k v p ok p' H. destruct k; cbn in H; injection H as <- <-; repeat split; try discriminate; auto;
    try (intros [A|[A|A]]; discriminate A); try congruence; intros k' N; destruct k'; cbn; auto; congruence.
Qed.
Print Assumptions C96_parameters_partial.
Example C96_hypotheses_met : let p := mkPar 5 (fun _ => 0) in
  fst (setDblParam DualObjLimit 7 p) = true /\ getDblParam DualObjLimit (snd (setDblParam DualObjLimit 7 p)) = Some (Fin 7).
Proof. split; reflexivity. Qed.
(** The primal tolerance is accepted and has no effect. *)
Theorem C96_refuted : ~ C96_full.
Proof.
  intros H. destruct (H PrimalTol (1#2) (mkPar 5 (fun _ => 0)) _ _ eq_refl) as (A & _). specialize (A eq_refl). discriminate A.
Qed.
Print Assumptions C96_refuted.

(** ** C97 *)
(** Without rows added: the largest violation over the rows not marked linear
    (all of them before the constraint types are known). *)
Theorem C97_violation_partial : forall P h ct x, nlp_ok P -> legal P h -> no_row_change h -> length x = p_n P ->
  (forall t, ct = Some t -> t = p_lin P) -> Forall small_bounds (combine (p_gl P) (p_gu P)) ->
  exists s v, irun P h = Ok s /\ getConstraintsViolation ct x s = Ok (v, p_f P x) /\
    largest (p_gl P) (p_gu P) (p_g P x) (fun i => forall t, ct = Some t -> nth_error t i = Some false) v.
Proof. exact C97_lem. Qed.
Print Assumptions C97_violation_partial.
(** With rows added: their activities are read without having been computed, or the types of
    the rows are read past the end. *)
Theorem C97_added_rows_partial : forall P h gl gu ex ct x, nlp_ok P -> legal P (IAdd gl gu ex :: h) -> no_row_change h ->
  gl <> [] -> length x = p_n P -> (forall t, ct = Some t -> t = p_lin P) ->
  exists s, irun P (IAdd gl gu ex :: h) = Ok s /\
    getConstraintsViolation ct x s = match ct with None => Uninit | Some _ => OutOfBounds end.
Proof. exact C97_added. Qed.
Print Assumptions C97_added_rows_partial.
(** The largest of the violation and the gap between the objective and its estimate; an
    assertion fails when the estimate is above the objective. *)
Theorem C97_nonlinearities_partial : forall P h ct x obj, nlp_ok P -> legal P h -> no_row_change h -> length x = p_n P ->
  (forall t, ct = Some t -> t = p_lin P) -> Forall small_bounds (combine (p_gl P) (p_gu P)) ->
  exists s v, irun P h = Ok s /\
    largest (p_gl P) (p_gu P) (p_g P x) (fun i => forall t, ct = Some t -> nth_error t i = Some false) v /\
    (p_f P x - obj <= - (1 # 100000000) -> getNonLinearitiesViolation ct x obj s = AssertFail) /\
    (- (1 # 100000000) < p_f P x - obj -> exists r, getNonLinearitiesViolation ct x obj s = Ok r /\
       v <= r /\ p_f P x - obj <= r /\ (r = v \/ r = p_f P x - obj)).
Proof.
  intros P h ct x obj K V R L T F. destruct (C97_lem P h ct x K V R L T F) as (s & v & E & G & M).
  exists s, v. split; [exact E|]. split; [exact M|]. unfold getNonLinearitiesViolation. rewrite G. cbn [bind].
  unfold chk. destruct (Qltb (- (1 # 100000000)) (p_f P x - obj)) eqn:Q; cbn [bind].
  - apply Qltb_lt in Q. split; [intros; exfalso; lra|]. intros _. destruct (Qltb v (p_f P x - obj)) eqn:D.
    + apply Qltb_lt in D. eexists. split; [reflexivity|]. repeat split; try lra. auto.
    + apply Qltb_ge in D. eexists. split; [reflexivity|]. repeat split; try lra. auto.
  - apply Qltb_ge in Q. split; [reflexivity|]. intros; exfalso; lra.
Qed.
Print Assumptions C97_nonlinearities_partial.
Example C97_hypotheses_met :
  legal exP [exSolve [2; 1]] /\ no_row_change [exSolve [2; 1]] /\ Forall small_bounds (combine (p_gl exP) (p_gu exP)) /\
  (do s <- irun exP [exSolve [2; 1]]; getConstraintsViolation (Some [false]) [3; 2] s) = Ok (3 * 2 - 4, 3 * 3 + 2) /\
  (do s <- irun exP [exSolve [2; 1]]; getNonLinearitiesViolation (Some [false]) [3; 2] 12 s) = AssertFail.
Proof. split; [apply legal_ex; repeat constructor|]. split; [repeat constructor|]. repeat split; repeat constructor. Qed.
(** A linear row violated is not seen once the constraint types are known. *)
Definition exLin : nlp := mkNlp 1 1 1 [MInf] [PInf] [Fin 5] [PInf] [true] [false] [0] [0]
  (fun x => v0 x) (fun x => [1]) (fun x => [v0 x]) [(1, 1)]%nat (fun x => [1]) [] (fun x s l => []).
Theorem C97_refuted : ~ C97_full.
Proof.
  intros H. destruct (H exLin [] (mk_itf exLin) (Some [true]) [0]) as (v & A & B & D & _).
  - constructor; simpl; intros; try reflexivity; repeat constructor.
  - split; repeat constructor.
  - reflexivity.
  - reflexivity.
  - intros t E. injection E as <-. reflexivity.
  - repeat constructor.
  - vm_compute in A. injection A as <-. specialize (D 0%nat (Fin 5) PInf 0 eq_refl eq_refl eq_refl Logic.I).
    destruct D as [D _]. cbn in D. lra.
Qed.
Print Assumptions C97_refuted.

(** ** C98 *)
Theorem C98_optimum_partial : forall (W : Type) (empty basis : W) valid pd ws stored,
  let '(acc, stored', clears) := setWarmStart W valid pd WOptimum ws stored in
  clears = true /\
  (acc = false <-> exists w, ws = Some w /\ valid w = false /\ pd w = None) /\
  (acc = false -> stored' = None /\ getWarmStart W empty basis WOptimum stored' = empty) /\
  (acc = true -> match ws with
                 | None => getWarmStart W empty basis WOptimum stored' = empty
                 | Some w => (valid w = true -> getWarmStart W empty basis WOptimum stored' = w) /\
                             (valid w = false -> pd w = Some (getWarmStart W empty basis WOptimum stored'))
                 end).
Proof.
  intros W empty basis valid pd ws stored. cbn [setWarmStart]. destruct ws as [w|].
  - destruct (valid w) eqn:V; [|destruct (pd w) eqn:D]; cbn.
    + split; [reflexivity|]. split; [split; [discriminate|intros (w' & E & F & _); congruence]|].
      split; [discriminate|]. intros _. split; [reflexivity|discriminate].
    + split; [reflexivity|]. split; [split; [discriminate|intros (w' & E & _ & F); congruence]|].
      split; [discriminate|]. intros _. split; [discriminate|reflexivity].
    + split; [reflexivity|]. split; [split; [eauto|reflexivity]|]. split; [auto|discriminate].
  - cbn. split; [reflexivity|]. split; [split; [discriminate|intros (w' & E & _); discriminate E]|]. split; [discriminate|reflexivity].
Qed.
Print Assumptions C98_optimum_partial.
(** In the other modes everything is accepted and nothing is kept. *)
Theorem C98_ignored_partial : forall (W : Type) (empty basis : W) valid pd m ws stored, m <> WOptimum ->
  setWarmStart W valid pd m ws stored = (true, stored, false) /\
  (getWarmStart W empty basis m stored = empty \/ getWarmStart W empty basis m stored = basis).
Proof. intros W empty basis valid pd [] ws stored N; cbn; auto. congruence. Qed.
Print Assumptions C98_ignored_partial.
Example C98_hypotheses_met :
  setWarmStart nat (fun n => Nat.ltb n 5) (fun n => if Nat.eqb n 9 then Some 1%nat else None) WOptimum (Some 3%nat) (Some 2%nat)
    = (true, Some 3%nat, true) /\
  setWarmStart nat (fun n => Nat.ltb n 5) (fun n => if Nat.eqb n 9 then Some 1%nat else None) WOptimum (Some 7%nat) (Some 2%nat)
    = (false, None, true) /\ WNone <> WOptimum.
Proof. repeat split; auto. discriminate. Qed.
Theorem C98_refuted : ~ C98_full.
Proof.
  intros H. specialize (H nat 0%nat 0%nat (fun _ => true) (fun _ => None) WNone 3%nat None). cbn in H.
  destruct H as [H _]. specialize (H eq_refl). discriminate H.
Qed.
Print Assumptions C98_refuted.
