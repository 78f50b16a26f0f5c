(** Theorems: the branching QP (C23, C61). *)
From Verif Require Import Base Arr Nlp FP_Spec Bqp_Model Bqp_Spec Bqp_Proofs.
#[local] Open Scope Q_scope.

(** An example: f = x0^2 + x0 x1, g = x0^2 + x1 <= 4, at (1, 2) with multiplier 1/2. *)
Definition exB : nlp := mkNlp 2 1 1 [Fin 0; MInf] [Fin 10; PInf] [MInf] [Fin 4] [false] [true; false] [1; 2] [0]
  (fun x => at_ x 0 * at_ x 0 + at_ x 0 * at_ x 1) (fun x => [2 * at_ x 0 + at_ x 1; at_ x 0]) (fun x => [at_ x 0 * at_ x 0 + at_ x 1])
  [(1, 1); (1, 2)]%nat (fun x => [2 * at_ x 0; 1]) [(1, 1); (2, 1)]%nat (fun x s l => [2 * s + 2 * nth 0 l 0; s]).
Definition exDu : list Q := [0; 0; 0; 0; 1 # 2].
Example C23_hypotheses_met : node_ok exB [1; 2] exDu.
Proof. split; [constructor; simpl; intros; try reflexivity; repeat constructor|split; reflexivity]. Qed.

(** ** C23 *)
(** The objective is the second-order model of the Lagrangian's Hessian. *)
Theorem C23_objective : forall P x0 du B d, node_ok P x0 du -> bqp_make P (Some x0) (Some du) = Ok B -> length d = p_n P ->
  exists f, b_eval_f B d = Ok f /\ f == qmodel P x0 du d.
Proof. intros P x0 du B d NO MK L. exact (objective P x0 du NO B MK d L). Qed.
Print Assumptions C23_objective.
(** Gradient and Hessian are its exact derivatives: the expansion at d along any e is
    exact, and the Hessian entries are those of the expansion times the given factor. *)
Theorem C23_derivatives : forall P x0 du B d, node_ok P x0 du -> bqp_make P (Some x0) (Some du) = Ok B -> length d = p_n P ->
  exists g f, b_eval_grad_f B d = Ok g /\ length g = p_n P /\ b_eval_f B d = Ok f /\
    (forall e, length e = p_n P -> exists f', b_eval_f B (ladds d e) = Ok f' /\
       f' == f + dot g e + (1 # 2) * form (p_n P) (hlag P x0 du) e e) /\
    (forall x s l, b_h_struct B = p_hst P /\ forall i j, sym (p_off P) (b_h_struct B) (b_h_vals B x s l) i j == s * hlag P x0 du i j).
Proof.
  intros P x0 du B d NO MK L. destruct (gradient_exact P x0 du NO B MK d L) as (g & f & E1 & E2 & E3 & E4).
  exists g, f. split; [exact E1|]. split; [exact E2|]. split; [exact E3|]. split; [exact E4|].
  intros x s l. split; [exact (proj1 (hess_same P x0 du NO B MK x s l 0 0))|]. intros i j. exact (proj2 (hess_same P x0 du NO B MK x s l i j)).
Qed.
Print Assumptions C23_derivatives.
(** A displacement is feasible exactly when x0+d is in the box and the linearised
    constraints are within their bounds; the constraint Jacobian is that of the node. *)
Theorem C23_constraints : forall P x0 du B d, node_ok P x0 du -> bqp_make P (Some x0) (Some du) = Ok B -> length d = p_n P ->
  (exists g, b_eval_g B d = Ok g /\ (forall i, at_ g i == mrow (p_n P) (jac0 P x0) i d) /\
    (in_bounds (b_xl B) (b_xu B) d /\ in_bounds (b_gl B) (b_gu B) g <->
     in_bounds (p_xl P) (p_xu P) (ladds x0 d) /\ in_bounds (p_gl P) (p_gu P) (lin_g P x0 d))) /\
  b_jac_struct B = p_jst P /\ b_jac_vals B d = p_jv P x0.
Proof.
  intros P x0 du B d NO MK L. split; [|exact (jac_same P x0 du NO B MK d)].
  destruct (qp_feasible P x0 du NO B MK d L) as (g & E & H). exists g. split; [exact E|]. split; [|exact H].
  destruct (constraint_rows P x0 du NO B MK d L) as (g' & E' & _ & HG). rewrite E in E'. injection E' as <-. exact HG.
Qed.
Print Assumptions C23_constraints.
(** The point reported is x0+d and, unless the QP was locally infeasible, the value
    reported is f(x0) plus the model value; the duals handed out as a start are those of
    the node, in the same order. *)
Theorem C23_solution_partial : forall P x0 du B d g, node_ok P x0 du -> bqp_make P (Some x0) (Some du) = Ok B -> length d = p_n P ->
  (forall li v, r_x (b_finalize B li d g v) = ladds x0 d) /\
  (forall f, b_eval_f B d = Ok f -> r_obj (b_finalize B false d g f) == p_f P x0 + qmodel P x0 du d) /\
  (forall f, b_eval_f B d = Ok f -> r_obj (b_finalize B true d g f) == qmodel P x0 du d) /\
  fst (fst (fst (b_start B))) = repeat 0 (p_n P) /\
  snd (fst (fst (b_start B))) ++ snd (fst (b_start B)) ++ snd (b_start B) = du.
Proof.
  intros P x0 du B d g NO MK L. destruct (objective P x0 du NO B MK d L) as (f & E & F).
  split; [intros [|] v; exact (proj2 (final_point P x0 du B MK d g v L)) || exact (proj1 (final_point P x0 du B MK d g v L))|].
  split; [|split; [|exact (start_spec P x0 du NO B MK)]].
  - intros f0 E0. rewrite E in E0. injection E0 as <-. unfold b_finalize. cbn [r_obj]. rewrite F. rewrite (B_is P x0 du B MK). cbn [b_f]. ring.
  - intros f0 E0. rewrite E in E0. injection E0 as <-. exact F.
Qed.
Print Assumptions C23_solution_partial.
(** When the QP is locally infeasible the value reported lacks f(x0). *)
Theorem C23_refuted : ~ C23_status_full.
Proof.
  intros H. destruct (bqp_make exB (Some [1; 2]) (Some exDu)) as [B| | | | | | |] eqn:E; try discriminate E.
  pose proof (objective exB [1; 2] exDu C23_hypotheses_met B E [0; 0] eq_refl) as (f & EF & F).
  pose proof (H exB [1; 2] exDu B [0; 0] true [] f C23_hypotheses_met eq_refl E EF) as C. unfold b_finalize in C. cbn [r_obj] in C.
  rewrite F in C. assert (Z : p_f exB [1; 2] == 3) by reflexivity. rewrite Z in C. lra.
Qed.
Print Assumptions C23_refuted.
Example C23_example : (do B <- bqp_make exB (Some [1; 2]) (Some exDu); do f <- b_eval_f B [1; -1]; do g <- b_eval_g B [1; -1]; Ok (Qred f, map Qred g)) = Ok (7 # 2, [1]).
Proof. vm_compute. reflexivity. Qed.
(** Asking for the QP before any solution exists dereferences a null pointer. *)
Theorem C23_needs_solution : forall P x0 du, bqp_make P x0 du = NullDeref <-> x0 = None \/ du = None.
Proof. intros P [x0|] [du|]; cbn; split; intros H; try discriminate; try tauto; destruct H; discriminate. Qed.
Print Assumptions C23_needs_solution.

(** ** C61 *)
(** The constraint values reported are those of the displacement, without g(x0). *)
Theorem C61_refuted : ~ C61_full.
Proof.
  intros H. destruct (bqp_make exB (Some [1; 2]) (Some exDu)) as [B| | | | | | |] eqn:E; try discriminate E.
  destruct (constraint_rows exB [1; 2] exDu C23_hypotheses_met B E [0; 0] eq_refl) as (g & EG & LG & HG).
  pose proof (H exB [1; 2] exDu B [0; 0] g C23_hypotheses_met eq_refl E EG 0) as C. unfold b_finalize in C. cbn [r_g] in C.
  specialize (HG 0%nat). destruct g as [|g0 [|]]; try discriminate LG. inversion C as [|? ? ? ? C0 _]; subst.
  unfold at_ in HG. cbn [nth] in HG.
  assert (Z : mrow (p_n exB) (jac0 exB [1; 2]) 0 [0; 0] == 0) by reflexivity.
  rewrite HG, Z in C0. assert (Z2 : at_ (p_g exB [1; 2]) 0 == 3) by reflexivity. rewrite Z2 in C0. lra.
Qed.
Print Assumptions C61_refuted.
(** They are right up to the values at x0. *)
Theorem C61_partial : forall P x0 du B d g li v, node_ok P x0 du -> length d = p_n P -> bqp_make P (Some x0) (Some du) = Ok B ->
  b_eval_g B d = Ok g -> eqs (ladds (p_g P x0) (r_g (b_finalize B li d g v))) (lin_g P x0 d).
Proof.
  intros P x0 du B d g li v NO L MK E. destruct (constraint_rows P x0 du NO B MK d L) as (g' & E' & LG & HG).
  rewrite E in E'. injection E' as <-. exact (lin_g_eq P x0 du NO d g LG HG).
Qed.
Print Assumptions C61_partial.
