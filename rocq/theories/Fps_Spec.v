(** What users of the feasibility problem expect. *)
From Verif Require Import Base Arr Nlp FP_Model Fps_Model.
#[local] Open Scope Q_scope.

(** What a solver sees of the problem posed, but for the values of the Hessian. *)
Definition same_but_hess (P : nlp) (F G : fp) : Prop :=
  fp_m P F = fp_m P G /\ fp_nnz_jac P F = fp_nnz_jac P G /\ fp_nnz_h P F = fp_nnz_h P G /\
  (forall gl gu, fp_bounds P F gl gu = fp_bounds P G gl gu) /\
  (forall a, fp_lin P F a = fp_lin P G a) /\ (forall a, fp_start_lambda P F a = fp_start_lambda P G a) /\
  (forall x, fp_eval_f P F x = fp_eval_f P G x) /\ (forall x, fp_eval_grad_f P F x = fp_eval_grad_f P G x) /\
  (forall x a, fp_eval_g P F x a = fp_eval_g P G x a) /\
  (forall i j, fp_jac_struct P F i j = fp_jac_struct P G i j) /\ (forall x a, fp_jac_vals P F x a = fp_jac_vals P G x a) /\
  (forall i j, fp_hess_struct P F i j = fp_hess_struct P G i j).
Definition same_hess (P : nlp) (F G : fp) : Prop :=
  forall x s lam a, fp_hess_vals P F x s lam a = fp_hess_vals P G x s lam a.

(** ** C346: the problem posed depends on the last call only, not on the calls before. *)
Definition C346_full : Prop := forall P sc h1 h2 c F G,
  poses (h1 ++ [c]) (fp_new sc) = Ok F -> poses (h2 ++ [c]) (fp_new sc) = Ok G ->
  same_but_hess P F G /\ same_hess P F G.

(** Weight of the original objective in the last call that has a distance objective; none before the first. *)
Definition weight_of (c : fcall) : option Q :=
  match c with Pump _ _ a s _ => Some ((1 - a) * s) | PumpCut _ _ _ _ => Some 0 | Local _ _ _ => None end.
Fixpoint last_weight (w : Q) (cs : list fcall) : Q :=
  match cs with [] => w | c :: cs => last_weight (match weight_of c with Some v => v | None => w end) cs end.
Definition is_local (c : fcall) : bool := match c with Local _ _ _ => true | _ => false end.
