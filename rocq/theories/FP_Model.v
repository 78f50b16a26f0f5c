(** The feasibility NLP: distance objective, cutoff row, local branching row.
    src/Interfaces/BonTNLP2FPNLP.cpp and .hpp.
    Simplifications: the wrapped problem ignores the dimensions m and nele it is
    passed (TMINLP2TNLP passes them on; they are wrong in several calls, see
    DESIGN.md); DBG_ASSERT is compiled out. *)
From Verif Require Import Base Arr Nlp.
#[local] Open Scope Q_scope.

(** Members, BonTNLP2FPNLP.hpp 214-258. *)
Record fp := mkFp {
  f_inds : list nat; f_vals : list Q;
  f_lam : Q; f_sig : Q; f_norm : nat; f_scale : Q;
  f_use : bool;        (* use_feasibility_pump_objective_ *)
  f_cut : bool;        (* use_cutoff_constraint_ *)
  f_lb : bool;         (* use_local_branching_constraint_ *)
  f_cutoff : ext; f_rhs : ext }.

(** set_cutoff, BonTNLP2FPNLP.cpp 53-63. *)
Definition fp_cutoff (c : Q) : Q :=
  let eps := 1 # 1000000 in
  if Qltb (1 # 100000000) c then (1 - eps) * c
  else if Qltb c (-(1 # 100000000)) then (1 + eps) * c
  else - eps.

Fixpoint rd_all (inds : list nat) (x : list Q) : outcome (list Q) :=
  match inds with
  | [] => Ok []
  | i :: l => do v <- rd i x; do r <- rd_all l x; Ok (v :: r)
  end.
(** The sum over vals_ used both in dist_to_point with norm 1 (lines 85-94)
    and in the local branching row (lines 214-220). *)
Fixpoint l1_sum (ys vals : list Q) : Q :=
  match vals, ys with
  | v :: vs, y :: ys' => (if Qle_bool v (1 # 10) then y else 1 - y) + l1_sum ys' vs
  | _, _ => 0
  end.
Fixpoint l2_sum (ys vals : list Q) : Q :=
  match vals, ys with
  | v :: vs, y :: ys' => (y - v) * (y - v) + l2_sum ys' vs
  | _, _ => 0
  end.
Definition count_ok (F : fp) : bool := Nat.eqb (length (f_vals F)) (length (f_inds F)).
(** dist_to_point, lines 74-96. *)
Definition dist_to_point (F : fp) (x : list Q) : outcome Q :=
  if count_ok F then
    do ys <- rd_all (f_inds F) x;
    Ok (if Nat.eqb (f_norm F) 2 then l2_sum ys (f_vals F)
        else if Nat.eqb (f_norm F) 1 then l1_sum ys (f_vals F) else 0)
  else AssertFail.
(** eval_f, lines 157-169. *)
Definition fp_eval_f (P : nlp) (F : fp) (x : list Q) : outcome Q :=
  if f_use F then
    do d <- dist_to_point F x;
    Ok (p_f P x * ((1 - f_lam F) * f_sig F) + f_scale F * f_lam F * d)
  else Ok (p_f P x).
(** eval_grad_f, lines 171-197. *)
Fixpoint ladd (i : nat) (v : Q) (l : list Q) {struct l} : outcome (list Q) :=
  match l with
  | [] => OutOfBounds
  | c :: l' => match i with O => Ok ((c + v) :: l') | S i' => do r <- ladd i' v l'; Ok (c :: r) end
  end.
Fixpoint grad_l2 (F : fp) (x : list Q) (inds : list nat) (vals : list Q) (g : list Q) : outcome (list Q) :=
  match inds with
  | [] => Ok g
  | i :: inds' =>
      match vals with
      | [] => OutOfBounds
      | v :: vals' =>
          do xi <- rd i x;
          do g' <- ladd i (f_scale F * 2 * f_lam F * (xi - v)) g;
          grad_l2 F x inds' vals' g'
      end
  end.
Fixpoint grad_l1 (F : fp) (inds : list nat) (vals : list Q) (g : list Q) : outcome (list Q) :=
  match inds with
  | [] => Ok g
  | i :: inds' =>
      match vals with
      | [] => OutOfBounds
      | v :: vals' =>
          do g' <- ladd i (if Qle_bool v (1 # 10) then f_scale F * f_lam F else - (f_scale F * f_lam F)) g;
          grad_l1 F inds' vals' g'
      end
  end.
Definition fp_eval_grad_f (P : nlp) (F : fp) (x : list Q) : outcome (list Q) :=
  let g := p_gf P x in
  if f_use F then
    let g1 := map (fun v => v * ((1 - f_lam F) * f_sig F)) g in
    if Nat.eqb (f_norm F) 2 then grad_l2 F x (f_inds F) (f_vals F) g1
    else grad_l1 F (f_inds F) (f_vals F) g1
  else Ok g.

Definition b2n (b : bool) : nat := if b then 1 else 0.
(** get_nlp_info, lines 98-126. *)
Definition fp_m (P : nlp) (F : fp) : nat :=
  if f_cut F && f_lb F then p_m P + 2
  else if f_cut F then p_m P + 1
  else if f_lb F then p_m P + 1 else p_m P.
Definition fp_nnz_jac (P : nlp) (F : fp) : nat :=
  if f_cut F && f_lb F then length (p_jst P) + (p_n P + length (f_vals F))
  else if f_cut F then length (p_jst P) + p_n P
  else if f_lb F then length (p_jst P) + length (f_vals F) else length (p_jst P).
Definition fp_nnz_h (P : nlp) (F : fp) : nat :=
  if f_use F && Nat.eqb (f_norm F) 2 then length (p_hst P) + length (f_vals F) else length (p_hst P).

(** get_bounds_info, lines 128-155 (constraint part; the variable part is passed on). *)
Definition fp_bounds (P : nlp) (F : fp) (gl gu : arr ext) : outcome (arr ext * arr ext) :=
  let m := fp_m P F in
  do gl1 <- ablit 0 (p_gl P) gl;
  do gu1 <- ablit 0 (p_gu P) gu;
  if f_cut F && f_lb F then
    do gl2 <- aset (m - 2) MInf gl1; do gu2 <- aset (m - 2) (f_cutoff F) gu1;
    do gl3 <- aset (m - 1) MInf gl2; do gu3 <- aset (m - 1) (f_rhs F) gu2; Ok (gl3, gu3)
  else if f_cut F then
    do gl2 <- aset (m - 1) MInf gl1; do gu2 <- aset (m - 1) (f_cutoff F) gu1; Ok (gl2, gu2)
  else if f_lb F then
    do gl2 <- aset (m - 1) MInf gl1; do gu2 <- aset (m - 1) (f_rhs F) gu1; Ok (gl2, gu2)
  else Ok (gl1, gu1).
(** eval_g, lines 199-246. *)
Definition lb_value (F : fp) (x : list Q) : outcome Q :=
  do ys <- rd_all (firstn (length (f_vals F)) (f_inds F)) x; Ok (l1_sum ys (f_vals F)).
Definition fp_eval_g (P : nlp) (F : fp) (x : list Q) (a : arr Q) : outcome (arr Q) :=
  let m := fp_m P F in
  do a1 <- ablit 0 (p_g P x) a;
  if f_cut F && f_lb F then
    do o <- fp_eval_f P F x; do a2 <- aset (m - 2) o a1;
    do l <- lb_value F x; aset (m - 1) l a2
  else if f_cut F then do o <- fp_eval_f P F x; aset (m - 1) o a1
  else if f_lb F then do l <- lb_value F x; aset (m - 1) l a1
  else Ok a1.
(** get_constraints_linearity, BonTNLP2FPNLP.hpp 166-178. *)
Definition fp_lin (P : nlp) (F : fp) (a : arr bool) : outcome (arr bool) :=
  let m := fp_m P F in
  do ' (m2, a1) <- (if f_cut F then do a' <- aset (m - 1) false a; Ok ((m - 1)%nat, a') else Ok (m, a));
  do ' (m3, a2) <- (if f_lb F then do a' <- aset (m2 - 1) true a1; Ok ((m2 - 1)%nat, a') else Ok (m2, a1));
  ablit 0 (firstn m3 (p_lin P)) a2.
(** get_starting_point, .hpp 102-119, multiplier part. *)
Definition fp_start_lambda (P : nlp) (F : fp) (a : arr Q) : outcome (arr Q) :=
  let m := fp_m P F in
  do ' (m2, a1) <- (if f_cut F then do a' <- aset (m - 1) 0 a; Ok ((m - 1)%nat, a') else Ok (m, a));
  do ' (m3, a2) <- (if f_lb F then do a' <- aset (m2 - 1) 0 a1; Ok ((m2 - 1)%nat, a') else Ok (m2, a1));
  ablit 0 (firstn m3 (p_l0 P)) a2.

(** eval_jac_g, structure, lines 255-277, 311-320, 344-353.  In the case of two
    extra rows the pointers are advanced twice: the second advance is by
    nele_jac - n_integers counted from the already advanced pointer. *)
Definition lb_inds (F : fp) : outcome (list nat) :=
  if Nat.leb (length (f_vals F)) (length (f_inds F)) then Ok (firstn (length (f_vals F)) (f_inds F))
  else OutOfBounds.
Definition fp_jac_struct (P : nlp) (F : fp) (ir jc : arr nat) : outcome (arr nat * arr nat) :=
  let m := fp_m P F in let nele := fp_nnz_jac P F in let n := p_n P in
  let ni := length (f_vals F) in let ic := p_off P in
  do ir1 <- ablit 0 (map fst (p_jst P)) ir;
  do jc1 <- ablit 0 (map snd (p_jst P)) jc;
  if f_cut F && f_lb F then
    let k := (nele - n - ni)%nat in
    do ir2 <- ablit k (repeat (m - 2 + ic)%nat n) ir1;
    do jc2 <- ablit k (map (fun i => (i + ic)%nat) (seq 0 n)) jc1;
    let k2 := (k + (nele - ni))%nat in
    do is <- lb_inds F;
    do ir3 <- ablit k2 (repeat (m - 1 + ic)%nat ni) ir2;
    do jc3 <- ablit k2 (map (fun i => (i + ic)%nat) is) jc2;
    Ok (ir3, jc3)
  else if f_cut F then
    let k := (nele - n)%nat in
    do ir2 <- ablit k (repeat (m - 1 + ic)%nat n) ir1;
    do jc2 <- ablit k (map (fun i => (i + ic)%nat) (seq 0 n)) jc1; Ok (ir2, jc2)
  else if f_lb F then
    let k := (nele - ni)%nat in
    do is <- lb_inds F;
    do ir2 <- ablit k (repeat (m - 1 + ic)%nat ni) ir1;
    do jc2 <- ablit k (map (fun i => (i + ic)%nat) is) jc1; Ok (ir2, jc2)
  else Ok (ir1, jc1).
Definition lb_signs (F : fp) : list Q := map (fun v => if Qle_bool v (1 # 10) then 1 else -(1)) (f_vals F).
(** eval_jac_g, values, lines 279-302, 321-334, 354-363. *)
Definition fp_jac_vals (P : nlp) (F : fp) (x : list Q) (a : arr Q) : outcome (arr Q) :=
  let nele := fp_nnz_jac P F in let n := p_n P in let ni := length (f_vals F) in
  do a1 <- ablit 0 (p_jv P x) a;
  if f_cut F && f_lb F then
    let k := (nele - n - ni)%nat in
    do gf <- fp_eval_grad_f P F x;
    do a2 <- ablit k (firstn n gf) a1;
    ablit (k + (nele - ni))%nat (lb_signs F) a2
  else if f_cut F then
    do gf <- fp_eval_grad_f P F x; ablit (nele - n) (firstn n gf) a1
  else if f_lb F then ablit (nele - ni) (lb_signs F) a1
  else Ok a1.

(** eval_h, lines 375-440. *)
Definition fp_hess_struct (P : nlp) (F : fp) (ir jc : arr nat) : outcome (arr nat * arr nat) :=
  let k := (fp_nnz_h P F - length (f_inds F))%nat in
  do ir1 <- ablit 0 (map fst (p_hst P)) ir;
  do jc1 <- ablit 0 (map snd (p_hst P)) jc;
  if f_use F && Nat.eqb (f_norm F) 2 then
    do ir2 <- ablit k (map (fun i => (i + p_off P)%nat) (f_inds F)) ir1;
    do jc2 <- ablit k (map (fun i => (i + p_off P)%nat) (f_inds F)) jc1; Ok (ir2, jc2)
  else Ok (ir1, jc1).
Definition fp_hess_vals (P : nlp) (F : fp) (x : list Q) (s : Q) (lam : list Q) (a : arr Q) : outcome (arr Q) :=
  let m := fp_m P F in
  let k := (fp_nnz_h P F - length (f_inds F))%nat in
  do ' (s', ml) <-
     (if f_cut F && f_lb F then do c <- rd (m - 2) lam; Ok (s * (1 - f_lam F) * f_sig F + c, (m - 2)%nat)
      else if f_cut F then do c <- rd (m - 1) lam; Ok (s * (1 - f_lam F) * f_sig F + c, (m - 1)%nat)
      else if f_lb F then Ok (s * (1 - f_lam F) * f_sig F, (m - 1)%nat)
      else Ok (s * (1 - f_lam F) * f_sig F, m));
  do a1 <- ablit 0 (p_hv P x s' (firstn ml lam)) a;
  if f_use F && Nat.eqb (f_norm F) 2 then
    ablit k (map (fun _ => 2 * f_scale F * f_lam F * s) (f_inds F)) a1
  else Ok a1.
