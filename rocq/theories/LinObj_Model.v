(** The problem with its objective moved to a constraint.
    src/Algorithms/QuadCuts/BonTMINLPLinObj.cpp and .hpp.
    [P] is the wrapped problem tminlp_.  x is the point of the new problem, with
    the extra variable last.  Output arrays are passed in, as in C. *)
From Verif Require Import Base Arr Nlp.
#[local] Open Scope Q_scope.

(** setTminlp, BonTMINLPLinObj.cpp 31-41: n_, m_, nnz_jac_, offset_. *)
Definition lo_n (P : nlp) : nat := p_n P + 1.
Definition lo_m (P : nlp) : nat := p_m P + 1.
Definition lo_nnz_jac (P : nlp) : nat := length (p_jst P) + p_n P + 1.
(** The wrapped problem reads only the first n-1 entries of x. *)
Definition inner (P : nlp) (x : list Q) : list Q := firstn (p_n P) x.

(** eval_f, .hpp 96-100. *)
Definition lo_eval_f (P : nlp) (x : list Q) : outcome Q := rd (lo_n P - 1) x.
(** eval_grad_f, .hpp 104-112. *)
Definition lo_eval_grad_f (P : nlp) (a : arr Q) : outcome (arr Q) :=
  do a1 <- ablit 0 (repeat 0 (lo_n P - 1)) a; aset (lo_n P - 1) 1 a1.
(** eval_g, .cpp 127-136. *)
Definition lo_eval_g (P : nlp) (x : list Q) (a : arr Q) : outcome (arr Q) :=
  do a1 <- aset 0 (p_f P (inner P x)) a;
  do g0 <- aget 0 a1;
  do eta <- rd (lo_n P - 1) x;
  do a2 <- aset 0 (g0 - eta) a1;
  ablit 1 (p_g P (inner P x)) a2.
(** get_bounds_info, .cpp 94-107. *)
Definition lo_bounds (P : nlp) (xl xu gl gu : arr ext)
  : outcome (arr ext * arr ext * arr ext * arr ext) :=
  do xl1 <- aset (lo_n P - 1) MInf xl;
  do xu1 <- aset (lo_n P - 1) PInf xu;
  do gl1 <- aset 0 MInf gl;
  do gu1 <- aset 0 (Fin 0) gu;
  do xl2 <- ablit 0 (p_xl P) xl1;
  do xu2 <- ablit 0 (p_xu P) xu1;
  do gl2 <- ablit 1 (p_gl P) gl1;
  do gu2 <- ablit 1 (p_gu P) gu1;
  Ok (xl2, xu2, gl2, gu2).
(** get_constraints_linearity, .cpp 85-91. *)
Definition lo_lin (P : nlp) (a : arr bool) : outcome (arr bool) :=
  do a1 <- aset 0 false a; ablit 1 (p_lin P) a1.
(** get_variables_types, .hpp 68-73. *)
Definition lo_int (P : nlp) (a : arr bool) : outcome (arr bool) :=
  do a1 <- aset (lo_n P - 1) false a; ablit 0 (p_int P) a1.

(** eval_jac_g, structure, .cpp 147-155: n_ entries for row 0, then the wrapped
    structure at iRow + n_, then iRow[i]++ for i from n_ to nnz_jac_ - 1. *)
Fixpoint incr_rows (i k : nat) (a : arr nat) : outcome (arr nat) :=
  match k with
  | O => Ok a
  | S k' => do v <- aget i a; do a' <- aset i (S v) a; incr_rows (S i) k' a'
  end.
Definition lo_jac_struct (P : nlp) (ir jc : arr nat) : outcome (arr nat * arr nat) :=
  do ir1 <- ablit 0 (repeat (p_off P) (lo_n P)) ir;
  do jc1 <- ablit 0 (map (fun i => (i + p_off P)%nat) (seq 0 (lo_n P))) jc;
  do ir2 <- ablit (lo_n P) (map fst (p_jst P)) ir1;
  do jc2 <- ablit (lo_n P) (map snd (p_jst P)) jc1;
  do ir3 <- incr_rows (lo_n P) (lo_nnz_jac P - lo_n P) ir2;
  Ok (ir3, jc2).
(** eval_jac_g, values, .cpp 156-160. *)
Definition lo_jac_vals (P : nlp) (x : list Q) (a : arr Q) : outcome (arr Q) :=
  do a1 <- ablit 0 (p_gf P (inner P x)) a;
  do a2 <- aset (lo_n P - 1) (-(1)) a1;
  ablit (lo_n P) (p_jv P (inner P x)) a2.
(** eval_h, .cpp 165-174.  The multiplier of the first row becomes the
    objective factor; obj_factor is not used.  lambda is NULL when only the
    structure is asked. *)
Definition lo_hess_struct (P : nlp) : list (nat * nat) := p_hst P.
Definition lo_hess_vals (P : nlp) (x : list Q) (obj_factor : Q) (lam : option (list Q))
  : outcome (list Q) :=
  match lam with
  | Some (l0 :: lt) => Ok (p_hv P (inner P x) l0 lt)
  | Some [] => OutOfBounds
  | None => NullDeref   (* the wrapped problem needs multipliers to give values *)
  end.
(** eval_gi, .cpp 177-189. *)
Definition lo_eval_gi (P : nlp) (x : list Q) (i : nat) : outcome Q :=
  if Nat.ltb i (lo_m P) then
    match i with
    | O => do eta <- rd (lo_n P - 1) x; Ok (p_f P (inner P x) - eta)
    | S i' => rd i' (p_g P (inner P x))
    end
  else AssertFail.
(** eval_grad_gi for row 0, .cpp 198-204.  [jc] and [vals] are the arrays
    passed, None for NULL.  eval_grad_f and values[n-1] use values without
    testing it. *)
Definition lo_eval_grad_g0 (P : nlp) (x : list Q) (jc : option (arr nat)) (vals : option (arr Q))
  : outcome (option (arr nat) * option (arr Q)) :=
  do jc' <- match jc with
            | None => Ok None
            | Some a => do a' <- ablit 0 (map (fun i => (i + p_off P)%nat) (seq 0 (lo_n P))) a; Ok (Some a')
            end;
  match vals with
  | None => NullDeref
  | Some a => do a1 <- ablit 0 (p_gf P (inner P x)) a;
              do a2 <- aset (lo_n P - 1) (-(1)) a1;
              Ok (jc', Some a2)
  end.
(** get_starting_point, .cpp 109-123, with init_x and init_lambda set;
    the last entries of z_L and z_U are not written. *)
Definition lo_start (P : nlp) (zl zu : list Q) (x l zla zua : arr Q)
  : outcome (arr Q * arr Q * arr Q * arr Q) :=
  do x1 <- ablit 0 (p_x0 P) x;
  do zl1 <- ablit 0 zl zla;
  do zu1 <- ablit 0 zu zua;
  do l1 <- ablit 1 (p_l0 P) l;
  do x2 <- aset (lo_n P - 1) (p_f P (p_x0 P)) x1;
  do l2 <- aset 0 0 l1;
  Ok (x2, l2, zl1, zu1).
(** get_scaling_parameters, .cpp 58-79.  The flags use_x_scaling and
    use_g_scaling are outputs of the wrapped problem ([ux], [ug] with [xs],
    [gs] the scalings it writes and [os] its objective scaling), but are tested
    before the wrapped problem sets them; [ux0], [ug0] are their values on entry. *)
Definition lo_scaling (P : nlp) (ux0 ug0 ux ug : bool) (os : Q) (xs gs : list Q) (xa ga : arr Q)
  : outcome (arr Q * arr Q) :=
  do ga1 <- (if ug0 then aset 0 1 ga else Ok ga);
  do xa1 <- (if ux0 then aset (lo_n P - 1) 1 xa else Ok xa);
  do ga2 <- (if ug0 then aset 0 os ga1 else Ok ga1);
  do xa2 <- (if ux then ablit 0 xs xa1 else Ok xa1);
  do ga3 <- (if ug then ablit 1 gs ga2 else Ok ga2);
  Ok (xa2, ga3).
