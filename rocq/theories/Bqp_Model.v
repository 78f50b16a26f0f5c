(** The branching QP: src/Interfaces/BonBranchingTQP.cpp 22-333.
    [P] is the TMINLP2TNLP of the node.  Simplifications: callbacks succeed; doubles are
    exact rationals and infinite bounds stay infinite when shifted; DBG_ASSERT compiled out. *)
From Verif Require Import Base Arr Nlp FP_Model.
#[local] Open Scope Q_scope.

Definition eshift (e : ext) (q : Q) : ext := match e with Fin a => Fin (a - q) | _ => e end.
Record bqp := mkBqp {
  b_P : nlp; b_f : Q; b_grad : list Q;
  b_hst : list (nat * nat); b_hv : list Q;          (* indices from 0 *)
  b_g : list Q; b_jst : list (nat * nat); b_jv : list Q;
  b_x0 : list Q; b_dual : list Q
}.
Definition from0 (off : nat) (rc : nat * nat) : nat * nat := (fst rc - off, snd rc - off)%nat.     (* 61-66, 78-83 *)
Definition to_style (off : nat) (rc : nat * nat) : nat * nat := (fst rc + off, snd rc + off)%nat.  (* 254-257, 282-285 *)
(** Constructor 22-108: x_sol and duals_sol of the node problem; multipliers of the
    constraints are at positions 2n, 2n+1, ... *)
Definition bqp_make (P : nlp) (x_sol duals_sol : option (list Q)) : outcome bqp :=
  match x_sol, duals_sol with
  | Some x0, Some du =>
      Ok (mkBqp P (p_f P x0) (p_gf P x0)
            (map (from0 (p_off P)) (p_hst P)) (p_hv P x0 1 (skipn (2 * p_n P) du))
            (p_g P x0) (map (from0 (p_off P)) (p_jst P)) (p_jv P x0) x0 du)
  | _, _ => NullDeref
  end.
(** get_bounds_info 136-153 *)
Definition b_xl (B : bqp) : list ext := map (fun p => eshift (fst p) (snd p)) (combine (p_xl (b_P B)) (b_x0 B)).
Definition b_xu (B : bqp) : list ext := map (fun p => eshift (fst p) (snd p)) (combine (p_xu (b_P B)) (b_x0 B)).
Definition b_gl (B : bqp) : list ext := map (fun p => eshift (fst p) (snd p)) (combine (p_gl (b_P B)) (b_g B)).
Definition b_gu (B : bqp) : list ext := map (fun p => eshift (fst p) (snd p)) (combine (p_gu (b_P B)) (b_g B)).
(** get_starting_point 155-181: displacement 0; z_L, z_U and lambda from the duals. *)
Definition b_start (B : bqp) : list Q * list Q * list Q * list Q :=
  let n := p_n (b_P B) in
  (repeat 0 n, firstn n (b_dual B), firstn n (skipn n (b_dual B)), firstn (p_m (b_P B)) (skipn (2 * n) (b_dual B))).
(** eval_f 192-210 *)
Fixpoint hess_f (ts : list (nat * nat * Q)) (x : list Q) (acc : Q) : outcome Q :=
  match ts with
  | [] => Ok acc
  | (r, c, h) :: ts =>
      do xr <- rd r x; do xc <- rd c x;
      hess_f ts x (acc + (if Nat.eqb r c then (1 # 2) * h * xr * xr else h * xr * xc))
  end.
Definition b_eval_f (B : bqp) (x : list Q) : outcome Q := hess_f (combine (b_hst B) (b_hv B)) x (dot x (b_grad B)).
(** eval_grad_f 212-228 *)
Fixpoint hess_grad (ts : list (nat * nat * Q)) (x : list Q) (g : list Q) : outcome (list Q) :=
  match ts with
  | [] => Ok g
  | (r, c, h) :: ts =>
      do xc <- rd c x; do g <- ladd r (h * xc) g;
      do g <- (if Nat.eqb r c then Ok g else do xr <- rd r x; ladd c (h * xr) g);
      hess_grad ts x g
  end.
Definition b_eval_grad_f (B : bqp) (x : list Q) : outcome (list Q) := hess_grad (combine (b_hst B) (b_hv B)) x (b_grad B).
(** eval_g 230-244 *)
Fixpoint jac_g (ts : list (nat * nat * Q)) (x : list Q) (g : list Q) : outcome (list Q) :=
  match ts with
  | [] => Ok g
  | (r, c, a) :: ts => do xc <- rd c x; do g <- ladd r (a * xc) g; jac_g ts x g
  end.
Definition b_eval_g (B : bqp) (x : list Q) : outcome (list Q) := jac_g (combine (b_jst B) (b_jv B)) x (repeat 0 (p_m (b_P B))).
(** eval_jac_g 246-271 *)
Definition b_jac_struct (B : bqp) : list (nat * nat) := map (to_style (p_off (b_P B))) (b_jst B).
Definition b_jac_vals (B : bqp) (x : list Q) : list Q := b_jv B.
(** eval_h 273-310 *)
Definition b_h_struct (B : bqp) : list (nat * nat) := map (to_style (p_off (b_P B))) (b_hst B).
Definition b_h_vals (B : bqp) (x : list Q) (s : Q) (l : list Q) : list Q :=
  if Qeq_bool s 0 then map (fun _ => 0) (b_hv B)
  else if Qeq_bool s 1 then b_hv B else map (fun v => v * s) (b_hv B).
(** finalize_solution 312-333: what is passed to the node problem. *)
Record report := mkRep { r_x : list Q; r_g : list Q; r_obj : Q }.
Definition b_finalize (B : bqp) (local_infeasibility : bool) (x g : list Q) (obj_value : Q) : report :=
  mkRep (map (fun p => fst p + snd p) (combine (b_x0 B) x)) g
        (if local_infeasibility then obj_value else obj_value + b_f B).
