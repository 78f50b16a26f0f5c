(** Property theorems C12, C13, C14, C50: the feasibility NLP. *)
From Verif Require Import Base Arr Nlp LinObj_Spec LinObj_Props FP_Model FP_Spec FP_Proofs FP_Proofs2.
#[local] Open Scope Q_scope.

(** Example: the problem of LinObj_Props with target x0 = 1. *)
Definition exF (use cut lb : bool) : fp :=
  mkFp [0%nat] [1] (1 # 2) 1 2 100 use cut lb (Fin 3) (Fin 1).
Example FP_hypotheses_met : forall u c l, fp_ok exP (exF u c l).
Proof. intros. split; [reflexivity|]. split; [repeat constructor|]. right; reflexivity. Qed.

(** *** C12 *)
Theorem C12_cutoff_strictly_below : forall c, fp_cutoff c < c.
Proof. exact cutoff_below. Qed.
Print Assumptions C12_cutoff_strictly_below.
Example C12_cutoff_example : fp_cutoff 0 == -(1 # 1000000) /\ fp_cutoff (-(5)) == -(5 + (5 # 1000000)).
Proof. split; reflexivity. Qed.

(** Bounds, values and starting multipliers use one row order, in all four combinations. *)
Theorem C12_rows_partial : forall P F, nlp_ok P -> fp_ok P F ->
  fp_bounds P F (fresh (fp_m P F)) (fresh (fp_m P F)) =
    Ok (map Some (p_gl P ++ map (fun _ => MInf) (xrows F)), map Some (p_gu P ++ map (xub F) (xrows F))) /\
  fp_start_lambda P F (fresh (fp_m P F)) = Ok (map Some (p_l0 P ++ map (fun _ => 0) (xrows F))) /\
  forall x, length x = p_n P ->
    exists es, fp_eval_g P F x (fresh (fp_m P F)) = Ok (map Some (p_g P x ++ es)) /\
      Forall2 (fun v r => v == xval P F x r) es (xrows F).
Proof.
  intros P F OK FO. split; [exact (fbounds_ok P F OK)|]. split; [exact (fstart_ok P F OK)|].
  exact (feval_g_ok P F OK FO).
Qed.
Print Assumptions C12_rows_partial.
(** Linearity flags agree with that order unless both extra rows are present. *)
Theorem C12_linearity_partial : forall P F, nlp_ok P -> f_cut F && f_lb F = false ->
  fp_lin P F (fresh (fp_m P F)) = Ok (map Some (p_lin P ++ map xlin (xrows F))).
Proof. exact flin_ok. Qed.
Print Assumptions C12_linearity_partial.
(** With both, the cutoff row is announced linear and the local branching row nonlinear. *)
Theorem C12_refuted : ~ C12_order_full.
Proof.
  intros H. specialize (H exP (exF false true true) C11_hypotheses_met (FP_hypotheses_met _ _ _)).
  rewrite (flin_both _ _ C11_hypotheses_met) in H by reflexivity. discriminate.
Qed.
Print Assumptions C12_refuted.
(** The local branching row is the l1 distance to a binary target on the box [0,1]. *)
Theorem C12_local_branching_is_distance : forall x inds vals,
  Forall (fun v => v == 0 \/ v == 1) vals -> Forall (fun i => 0 <= at_ x i <= 1) inds ->
  lin_dist inds vals x == abs_dist inds vals x.
Proof. exact lin_abs. Qed.
Print Assumptions C12_local_branching_is_distance.
Example C12_rows_example :
  fp_eval_g exP (exF false true true) [0; 3] (fresh 3) = Ok (map Some [0 * 3; 0 * 0 + 3; 1 - 0 + 0]) /\
  fp_lin exP (exF false true true) (fresh 3) = Ok (map Some [false; true; false]).
Proof. split; reflexivity. Qed.

(** *** C13 *)
(** The objective returned, and its gradient: the difference with the linear
    model is the weighted difference of the original problem plus the exact
    second-order part of the distance. *)
Theorem C13_objective_and_gradient : forall P F, nlp_ok P -> fp_ok P F -> forall x, length x = p_n P ->
  (exists o, fp_eval_f P F x = Ok o /\ o == fobj P F x) /\
  exists g, fp_eval_grad_f P F x = Ok g /\ length g = p_n P /\
  forall h, length h = p_n P ->
    fobj P F (ladds x h) - fobj P F x - dot g h ==
    wt F * (p_f P (ladds x h) - p_f P x - dot (p_gf P x) h) + dw F * sq_part F h.
Proof. intros P F OK FO x L. split; [exact (eval_f_ok P F FO x L)|exact (gradient_ok P F OK FO x L)]. Qed.
Print Assumptions C13_objective_and_gradient.
Example C13_gradient_example :
  fp_eval_grad_f exP (exF true false false) [3; 2] =
  Ok [2 * 3 * ((1 - (1 # 2)) * 1) + 100 * 2 * (1 # 2) * (3 - 1); 1 * ((1 - (1 # 2)) * 1)].
Proof. reflexivity. Qed.

(** The Hessian is right with the distance objective on and no cutoff row; or
    with it off if the unused weight happens to be 1. *)
Theorem C13_hessian_partial : forall P F, nlp_ok P -> fp_ok P F -> forall x s lam Hf Hg,
  length x = p_n P -> length lam = fp_m P F -> length Hg = p_m P ->
  (forall s l i j, length l = p_m P -> dense (p_off P) (p_hst P) (p_hv P x s l) i j == lag s Hf l Hg i j) ->
  (f_use F = true /\ f_cut F = false) \/ (f_use F = false /\ (1 - f_lam F) * f_sig F == 1) ->
  exists ir jc vs,
    fp_hess_struct P F (fresh (fp_nnz_h P F)) (fresh (fp_nnz_h P F)) = Ok (map Some ir, map Some jc) /\
    fp_hess_vals P F x s lam (fresh (fp_nnz_h P F)) = Ok (map Some vs) /\
    forall i j, dense (p_off P) (combine ir jc) vs i j ==
                lag s (fhess F Hf) lam (Hg ++ map (xhess F Hf) (xrows F)) i j.
Proof. exact hess_right. Qed.
Print Assumptions C13_hessian_partial.
(** With the distance objective off, as in the local branching heuristic, the
    Hessian of the objective is still multiplied by (1-lambda) sigma. *)
Theorem C13_hessian_refuted : ~ C13_hessian_full.
Proof.
  intros H. destruct (H exP (exF false false true) [1; 1] 1 [0; 0] exHf [exHg] C11_hypotheses_met
    (FP_hypotheses_met _ _ _) eq_refl eq_refl eq_refl) as (ir & jc & vs & E1 & E2 & D).
  - intros. apply C11_hessian_hypotheses_met. assumption.
  - vm_compute in E1, E2. injection E1 as E1 E1'. injection E2 as E2.
    change [Some 1%nat; Some 2%nat] with (map Some [1; 2]%nat) in E1.
    change [Some 1%nat; Some 1%nat] with (map Some [1; 1]%nat) in E1'.
    apply map_Some_inj in E1, E1'. subst ir jc.
    destruct vs as [|v [|w [|? ?]]]; try discriminate. injection E2 as <- <-.
    specialize (D 0 0)%nat. vm_compute in D. discriminate.
Qed.
Print Assumptions C13_hessian_refuted.
(** What the Hessian is in every case. *)
Theorem C13_hessian_exact_value : forall P F, nlp_ok P -> fp_ok P F -> forall x s lam Hf Hg,
  length x = p_n P -> length lam = fp_m P F ->
  (forall s l i j, length l = p_m P -> dense (p_off P) (p_hst P) (p_hv P x s l) i j == lag s Hf l Hg i j) ->
  exists ir jc vs,
    fp_hess_struct P F (fresh (fp_nnz_h P F)) (fresh (fp_nnz_h P F)) = Ok (map Some ir, map Some jc) /\
    fp_hess_vals P F x s lam (fresh (fp_nnz_h P F)) = Ok (map Some vs) /\
    length vs = fp_nnz_h P F /\
    forall i j, dense (p_off P) (combine ir jc) vs i j == 
      (s * (1 - f_lam F) * f_sig F + (if f_cut F then at_ lam (p_m P) else 0)) * Hf i j +
      qsum (map (fun p => fst p * snd p i j) (combine (firstn (p_m P) lam) Hg)) +
      (if f_use F && Nat.eqb (f_norm F) 2 then 2 * f_scale F * f_lam F * s * dcount (f_inds F) i j else 0).
Proof. exact hess_ok. Qed.
Print Assumptions C13_hessian_exact_value.

(** *** C14 *)
(** All positions are written, in range, and the entries are the derivatives of
    the rows, unless both extra rows are used with a nonempty Jacobian. *)
Theorem C14_jacobian_partial : forall P F, nlp_ok P -> fp_ok P F -> forall x, length x = p_n P ->
  good_rows P F ->
  exists ir jc vs g,
    fp_jac_struct P F (fresh (fp_nnz_jac P F)) (fresh (fp_nnz_jac P F)) = Ok (map Some ir, map Some jc) /\
    fp_jac_vals P F x (fresh (fp_nnz_jac P F)) = Ok (map Some vs) /\
    length vs = fp_nnz_jac P F /\ length ir = fp_nnz_jac P F /\ length jc = fp_nnz_jac P F /\
    fp_eval_grad_f P F x = Ok g /\
    Forall (fun rc => p_off P <= fst rc /\ fst rc < fp_m P F + p_off P /\
                      p_off P <= snd rc /\ snd rc < p_n P + p_off P)%nat (combine ir jc) /\
    forall i j, dense (p_off P) (combine ir jc) vs i j == full_jac P F x g i j.
Proof. exact jac_ok. Qed.
Print Assumptions C14_jacobian_partial.
Theorem C14_both_rows_out_of_bounds : forall P F, fp_ok P F ->
  f_cut F = true -> f_lb F = true -> p_jst P <> [] -> f_vals F <> [] ->
  fp_jac_struct P F (fresh (fp_nnz_jac P F)) (fresh (fp_nnz_jac P F)) = OutOfBounds.
Proof. exact jac_oob. Qed.
Print Assumptions C14_both_rows_out_of_bounds.
Theorem C14_refuted : ~ C14_full.
Proof.
  intros H. destruct (H exP (exF false true true) [1; 1] C11_hypotheses_met (FP_hypotheses_met _ _ _) eq_refl)
    as (ir & jc & vs & E & _).
  rewrite C14_both_rows_out_of_bounds in E; [discriminate|apply FP_hypotheses_met|reflexivity|reflexivity| |];
    discriminate.
Qed.
Print Assumptions C14_refuted.
Example C14_example : good_rows exP (exF true true false) /\
  fp_jac_struct exP (exF true true false) (fresh 4) (fresh 4) = Ok (map Some [1; 1; 2; 2], map Some [1; 2; 1; 2])%nat.
Proof. split; [left; reflexivity|reflexivity]. Qed.

(** *** C50 *)
(** The cutoff row is the original objective only when the distance objective is off. *)
Theorem C50_cutoff_row_partial : forall P F x g, nlp_ok P -> fp_ok P F -> length x = p_n P ->
  f_cut F = true -> f_use F = false ->
  fp_eval_g P F x (fresh (fp_m P F)) = Ok (map Some g) -> nth (p_m P) g 0 == p_f P x.
Proof.
  intros P F x g OK FO L C U E. destruct (feval_g_ok P F OK FO x L) as (es & E' & V).
  rewrite E in E'. injection E' as E'. apply map_Some_inj in E'. subst g.
  pose proof (ok_g P OK x L) as Lg. rewrite app_nth2 by lia. rewrite Lg, Nat.sub_diag.
  unfold xrows in V. rewrite C in V. cbn [app] in V. inversion V as [|v r es' rs' HV]; subst. simpl.
  rewrite HV. unfold xval, fobj, wt, dw. rewrite U. ring.
Qed.
Print Assumptions C50_cutoff_row_partial.
Theorem C50_refuted : ~ C50_full.
Proof.
  intros H. specialize (H exP (exF true true false) [3; 2]
    [3 * 2; (3 * 3 + 2) * ((1 - (1 # 2)) * 1) + 100 * (1 # 2) * ((3 - 1) * (3 - 1) + 0)]
    C11_hypotheses_met (FP_hypotheses_met _ _ _) eq_refl eq_refl eq_refl). vm_compute in H. discriminate.
Qed.
Print Assumptions C50_refuted.
Example C50_example : fp_eval_g exP (exF false true false) [3; 2] (fresh 2) = Ok (map Some [3 * 2; 3 * 3 + 2]).
Proof. reflexivity. Qed.
