(** Property theorems C11 and C49: the objective moved to a constraint. *)
From Verif Require Import Base Arr Nlp LinObj_Model LinObj_Spec LinObj_Proofs.
#[local] Open Scope Q_scope.

(** Example problem: min x0^2 + x1 s.t. 1 <= x0*x1 <= 4, 0 <= x0, FORTRAN indices. *)
Definition v0 (x : list Q) := nth 0 x 0.
Definition v1 (x : list Q) := nth 1 x 0.
Definition exP : nlp := mkNlp 2 1 1 [Fin 0; MInf] [PInf; Fin 9] [Fin 1] [Fin 4] [false] [true; false]
  [1; 2] [5] (fun x => v0 x * v0 x + v1 x) (fun x => [2 * v0 x; 1]) (fun x => [v0 x * v1 x])
  [(1, 1); (1, 2)]%nat (fun x => [v1 x; v0 x]) [(1, 1); (2, 1)]%nat
  (fun x s l => [2 * s; nth 0 l 0]).
Example C11_hypotheses_met : nlp_ok exP.
Proof. constructor; simpl; intros; try reflexivity; repeat constructor. Qed.

(** Feasible points project exactly on feasible points with eta >= f(x); the objective is eta. *)
Theorem C11_equivalent_problem : forall P, nlp_ok P ->
  exists xl xu gl gu,
    lo_bounds P (fresh (lo_n P)) (fresh (lo_n P)) (fresh (lo_m P)) (fresh (lo_m P)) =
      Ok (map Some xl, map Some xu, map Some gl, map Some gu) /\
  forall x eta, length x = p_n P ->
  exists g, lo_eval_g P (x ++ [eta]) (fresh (lo_m P)) = Ok (map Some g) /\
    lo_eval_f P (x ++ [eta]) = Ok eta /\
    ((in_bounds xl xu (x ++ [eta]) /\ in_bounds gl gu g) <-> (feasible P x /\ p_f P x <= eta)).
Proof.
  intros P OK. do 4 eexists. split; [exact (bounds_ok P OK)|]. intros x eta L. eexists.
  split; [exact (eval_g_ok P OK x eta L)|]. split; [exact (rd_last P x eta L)|exact (equiv P OK x eta L)].
Qed.
Print Assumptions C11_equivalent_problem.

(** Every lower bound on one problem is one on the other: same infimum. *)
Theorem C11_same_infimum : forall P, nlp_ok P -> forall v,
  lower_bound P v <->
  (forall y g fo xl xu gl gu, length y = lo_n P ->
     lo_bounds P (fresh (lo_n P)) (fresh (lo_n P)) (fresh (lo_m P)) (fresh (lo_m P)) =
       Ok (map Some xl, map Some xu, map Some gl, map Some gu) ->
     lo_eval_g P y (fresh (lo_m P)) = Ok (map Some g) -> lo_eval_f P y = Ok fo ->
     in_bounds xl xu y -> in_bounds gl gu g -> v <= fo).
Proof. exact infimum. Qed.
Print Assumptions C11_same_infimum.
Example C11_equivalent_example :
  lo_eval_g exP [2; 1; 7] (fresh 2) = Ok (map Some [2 * 2 + 1 - 7; 2 * 1]) /\
  feasible exP [2; 1] /\ p_f exP [2; 1] <= 7.
Proof.
  split; [reflexivity|]. split; [|vm_compute; discriminate].
  repeat split; repeat constructor; simpl; try (vm_compute; discriminate).
Qed.

Theorem C11_jacobian : forall P, nlp_ok P -> forall x eta, length x = p_n P ->
  exists ir jc vs, lo_jac_struct P (fresh (lo_nnz_jac P)) (fresh (lo_nnz_jac P)) = Ok (map Some ir, map Some jc) /\
    lo_jac_vals P (x ++ [eta]) (fresh (lo_nnz_jac P)) = Ok (map Some vs) /\
    length vs = lo_nnz_jac P /\
    Forall (fun rc => p_off P <= fst rc /\ fst rc < lo_m P + p_off P /\
                      p_off P <= snd rc /\ snd rc < lo_n P + p_off P)%nat (combine ir jc) /\
    forall i j, dense (p_off P) (combine ir jc) vs i j ==
                epi_jac (p_n P) (p_gf P x) (dense (p_off P) (p_jst P) (p_jv P x)) i j.
Proof. exact jacobian. Qed.
Print Assumptions C11_jacobian.
Example C11_jacobian_example :
  lo_jac_struct exP (fresh 5) (fresh 5) = Ok (map Some [1; 1; 1; 2; 2], map Some [1; 2; 3; 1; 2])%nat /\
  lo_jac_vals exP [2; 3; 7] (fresh 5) = Ok (map Some [2 * 2; 1; -(1); 3; 2]).
Proof. split; reflexivity. Qed.

(** The Lagrangian Hessian is that of the new problem, whose objective is linear
    and whose first constraint has the Hessian of f. *)
Theorem C11_hessian : forall P, nlp_ok P -> forall Hf Hg x eta s l0 lt,
  length x = p_n P -> length Hg = p_m P -> length lt = p_m P ->
  (forall s l i j, length l = p_m P -> dense (p_off P) (p_hst P) (p_hv P x s l) i j == lag s Hf l Hg i j) ->
  exists vs, lo_hess_vals P (x ++ [eta]) s (Some (l0 :: lt)) = Ok vs /\
    length vs = length (lo_hess_struct P) /\
    forall i j, dense (p_off P) (lo_hess_struct P) vs i j ==
                lag s (fun _ _ => 0) (l0 :: lt) (Hf :: Hg) i j.
Proof. exact hessian. Qed.
Print Assumptions C11_hessian.
Definition exHf : mat := fun i j => match i, j with O, O => 2 | _, _ => 0 end.
Definition exHg : mat := fun i j => match i, j with 1%nat, O => 1 | _, _ => 0 end.
Example C11_hessian_hypotheses_met : forall x s l i j, length l = p_m exP ->
  dense (p_off exP) (p_hst exP) (p_hv exP x s l) i j == lag s exHf l [exHg] i j.
Proof.
  intros x s [|l [|? ?]] i j H; try discriminate. unfold dense, lag. simpl.
  destruct i as [|[|[|i]]], j as [|[|[|j]]]; simpl; ring.
Qed.

Theorem C11_rows_share_one_order : forall P, nlp_ok P ->
  lo_lin P (fresh (lo_m P)) = Ok (map Some (false :: p_lin P)) /\
  lo_int P (fresh (lo_n P)) = Ok (map Some (p_int P ++ [false])) /\
  lo_eval_grad_f P (fresh (lo_n P)) = Ok (map Some (repeat 0 (p_n P) ++ [1])) /\
  forall x eta i v, length x = p_n P ->
    (lo_eval_gi P (x ++ [eta]) i = Ok v <->
     exists g, lo_eval_g P (x ++ [eta]) (fresh (lo_m P)) = Ok (map Some g) /\ nth_error g i = Some v).
Proof.
  intros P OK. split; [exact (linearity P OK)|]. split; [exact (inttypes P OK)|].
  split; [exact (gradient P)|]. exact (single P OK).
Qed.
Print Assumptions C11_rows_share_one_order.
Example C11_rows_example : lo_eval_gi exP [2; 3; 7] 1 = Ok (2 * 3) /\ lo_eval_gi exP [2; 3; 7] 2 = AssertFail.
Proof. split; reflexivity. Qed.

(** *** C49 *)
(** The start given satisfies the new row with equality; the multipliers of
    the bounds of the new variable are left unwritten. *)
Theorem C49_start_partial : forall P, nlp_ok P -> forall zl zu, length zl = p_n P -> length zu = p_n P ->
  exists x l, lo_start P zl zu (fresh (lo_n P)) (fresh (lo_m P)) (fresh (lo_n P)) (fresh (lo_n P)) =
    Ok (map Some x, map Some l, map Some zl ++ [None], map Some zu ++ [None]) /\
  (exists g, lo_eval_g P x (fresh (lo_m P)) = Ok (map Some (g)) /\ nth 0 g 1 == 0 /\
             inner P x = p_x0 P /\ l = 0 :: p_l0 P).
Proof. exact start. Qed.
Print Assumptions C49_start_partial.
(** Scaling is complete only if the caller had set both flags before asking. *)
Definition C49_scaling_full : Prop := forall P, nlp_ok P -> forall ux0 ug0 ux ug os xs gs xa ga,
  length xs = p_n P -> length gs = p_m P ->
  lo_scaling P ux0 ug0 ux ug os xs gs (fresh (lo_n P)) (fresh (lo_m P)) = Ok (xa, ga) ->
  (ux = true -> ~ In None xa) /\ (ug = true -> ~ In None ga).
Theorem C49_scaling_refuted : ~ C49_scaling_full.
Proof.
  intros H. specialize (H exP C11_hypotheses_met false false true true 1 [2; 3] [4] _ _ eq_refl eq_refl eq_refl).
  destruct H as (H & _). apply H; [reflexivity|]. simpl. tauto.
Qed.
Print Assumptions C49_scaling_refuted.
(** Asking the structure of the gradient of the new row writes through a null pointer. *)
Theorem C49_gradient_structure_refuted : forall P x jc, 
  jc = fresh (lo_n P) -> lo_eval_grad_g0 P x (Some jc) None = NullDeref.
Proof.
  intros P x jc ->. unfold lo_eval_grad_g0. rewrite seq_shift_off.
  pose proof (ablit_fresh (seq (p_off P) (lo_n P))) as H. rewrite seq_length in H. rewrite H. reflexivity.
Qed.
Print Assumptions C49_gradient_structure_refuted.
Theorem C49_gradient_values_partial : forall P, nlp_ok P -> forall x eta jc, length x = p_n P -> exists jc',
  lo_eval_grad_g0 P (x ++ [eta]) None (Some (fresh (lo_n P))) = Ok (jc', Some (map Some (p_gf P x ++ [-(1)]))) /\
  (jc = fresh (lo_n P) -> exists j2, lo_eval_grad_g0 P (x ++ [eta]) (Some jc) (Some (fresh (lo_n P))) =
       Ok (Some (map Some j2), Some (map Some (p_gf P x ++ [-(1)]))) /\ j2 = seq (p_off P) (lo_n P)).
Proof. exact grad_g0_vals. Qed.
Print Assumptions C49_gradient_values_partial.
Example C49_example : lo_scaling exP true true true true 7 [2; 3] [4] (fresh 3) (fresh 2)
  = Ok (map Some [2; 3; 1], map Some [7; 4]).
Proof. reflexivity. Qed.
