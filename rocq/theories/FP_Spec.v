(** Specification of the feasibility NLP, in terms of the data given by its user. *)
From Verif Require Import Base Arr Nlp LinObj_Spec FP_Model.
#[local] Open Scope Q_scope.

(** Setter contract: one value per index, indices of variables, norm 1 or 2. *)
Definition fp_ok (P : nlp) (F : fp) : Prop :=
  length (f_vals F) = length (f_inds F) /\
  Forall (fun i => (i < p_n P)%nat) (f_inds F) /\
  (f_norm F = 1%nat \/ f_norm F = 2%nat).
Definition at_ (x : list Q) (i : nat) : Q := nth i x 0.
(** Squared Euclidean distance, and the linear expression that is the l1
    distance to a binary point. *)
Definition sq_dist (inds : list nat) (vals x : list Q) : Q :=
  qsum (map (fun p => (at_ x (fst p) - snd p) * (at_ x (fst p) - snd p)) (combine inds vals)).
Definition lin_dist (inds : list nat) (vals x : list Q) : Q :=
  qsum (map (fun p => if Qle_bool (snd p) (1 # 10) then at_ x (fst p) else 1 - at_ x (fst p))
            (combine inds vals)).
Definition abs_dist (inds : list nat) (vals x : list Q) : Q :=
  qsum (map (fun p => Qabs (at_ x (fst p) - snd p)) (combine inds vals)).
Definition fdist (F : fp) (x : list Q) : Q :=
  if Nat.eqb (f_norm F) 2 then sq_dist (f_inds F) (f_vals F) x else lin_dist (f_inds F) (f_vals F) x.
(** Weight of the original objective, and the objective wanted. *)
Definition wt (F : fp) : Q := if f_use F then (1 - f_lam F) * f_sig F else 1.
Definition dw (F : fp) : Q := if f_use F then f_scale F * f_lam F else 0.
Definition fobj (P : nlp) (F : fp) (x : list Q) : Q := wt F * p_f P x + dw F * fdist F x.

(** The extra rows, in the order in which bounds and values give them. *)
Inductive xrow := XCut | XLb.
Definition xrows (F : fp) : list xrow := (if f_cut F then [XCut] else []) ++ (if f_lb F then [XLb] else []).
Definition xub (F : fp) (r : xrow) : ext := match r with XCut => f_cutoff F | XLb => f_rhs F end.
Definition xval (P : nlp) (F : fp) (x : list Q) (r : xrow) : Q :=
  match r with XCut => fobj P F x | XLb => lin_dist (f_inds F) (f_vals F) x end.
Definition xlin (r : xrow) : bool := match r with XCut => false | XLb => true end.

Definition ladds (x h : list Q) : list Q := map (fun p => fst p + snd p) (combine x h).
(** Second-order part of the distance. *)
Definition sq_part (F : fp) (h : list Q) : Q :=
  if Nat.eqb (f_norm F) 2 then qsum (map (fun i => at_ h i * at_ h i) (f_inds F)) else 0.

(** Hessian of the objective, given that Hf of the original one. *)
Definition dcount (inds : list nat) : mat := fun i j =>
  if Nat.eqb i j then inject_Z (Z.of_nat (count_occ Nat.eq_dec inds i)) else 0.
Definition fhess (F : fp) (Hf : mat) : mat := fun i j =>
  wt F * Hf i j + (if Nat.eqb (f_norm F) 2 then 2 * dw F * dcount (f_inds F) i j else 0).
Definition xhess (F : fp) (Hf : mat) (r : xrow) : mat :=
  match r with XCut => fhess F Hf | XLb => fun _ _ => 0 end.

(** Full statements. *)
Definition C12_order_full : Prop := forall P F, nlp_ok P -> fp_ok P F ->
  fp_lin P F (fresh (fp_m P F)) = Ok (map Some (p_lin P ++ map xlin (xrows F))).
Definition C13_hessian_full : Prop := forall P F x s lam Hf Hg,
  nlp_ok P -> fp_ok P F -> length x = p_n P -> length lam = fp_m P F -> length Hg = p_m P ->
  (forall s l i j, length l = p_m P -> dense (p_off P) (p_hst P) (p_hv P x s l) i j == lag s Hf l Hg i j) ->
  exists ir jc vs,
    fp_hess_struct P F (fresh (fp_nnz_h P F)) (fresh (fp_nnz_h P F)) = Ok (map Some ir, map Some jc) /\
    fp_hess_vals P F x s lam (fresh (fp_nnz_h P F)) = Ok (map Some vs) /\
    forall i j, dense (p_off P) (combine ir jc) vs i j ==
                lag s (fhess F Hf) lam (Hg ++ map (xhess F Hf) (xrows F)) i j.
Definition C14_full : Prop := forall P F x, nlp_ok P -> fp_ok P F -> length x = p_n P ->
  exists ir jc vs,
    fp_jac_struct P F (fresh (fp_nnz_jac P F)) (fresh (fp_nnz_jac P F)) = Ok (map Some ir, map Some jc) /\
    fp_jac_vals P F x (fresh (fp_nnz_jac P F)) = Ok (map Some vs).
Definition C50_full : Prop := forall P F x g, nlp_ok P -> fp_ok P F -> length x = p_n P -> f_cut F = true ->
  fp_eval_g P F x (fresh (fp_m P F)) = Ok (map Some g) ->
  nth (p_m P) g 0 == p_f P x.
(** Row of the Jacobian wanted for an extra row: [g] is the gradient of the objective. *)
Definition xjac (F : fp) (g : list Q) (r : xrow) (j : nat) : Q :=
  match r with
  | XCut => at_ g j
  | XLb => qsum (map (fun p => if Nat.eqb (fst p) j
                               then if Qle_bool (snd p) (1 # 10) then 1 else -(1) else 0)
                     (combine (f_inds F) (f_vals F)))
  end.
Definition full_jac (P : nlp) (F : fp) (x g : list Q) : mat := fun i j =>
  if Nat.ltb i (p_m P) then dense (p_off P) (p_jst P) (p_jv P x) i j
  else match nth_error (xrows F) (i - p_m P) with Some r => xjac F g r j | None => 0 end.
