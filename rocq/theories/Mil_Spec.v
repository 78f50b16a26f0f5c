(** What a user expects of the heuristics that solve a MILP, stated without the model's
    helpers. *)
From Verif Require Import Base Arr Nlp Oad_Model Nls_Model Nls_Spec Div_Model Div_Spec Mil_Model.
#[local] Open Scope Q_scope.

(** ** MilpRounding *)
(** Coefficient of variable j in row k of a matrix given by columns. *)
Definition in_row (k : nat) (e : nat * Q) : bool := Nat.eqb (fst e) k.
Definition coef (c : list (nat * Q)) (k : nat) : Q := qsum (map snd (filter (in_row k) c)).
(** Place of constraint i among the linear ones. *)
Definition rank (lin : list bool) (i : nat) : nat := count_occ Bool.bool_dec (firstn i lin) true.
(** The matrix is the linear part of the problem. *)
Definition linear_part (P : nlp) (x : list Q) (A : cmat) : Prop :=
  (forall i j, nth i (p_lin P) false = true -> (j < p_n P)%nat ->
     coef (column A j) (rank (p_lin P) i) == dense (p_off P) (p_jst P) (p_jv P x) i j) /\
  (forall j e, In e (column A j) -> (fst e < count_occ Bool.bool_dec (p_lin P) true)%nat).
Definition C42_matrix (pre : nlp -> Prop) : Prop :=
  forall sort P x, sort_ok sort -> nlp_ok P -> length x = p_n P -> pre P ->
  exists A, mr_matrix sort P x = Ok A /\ linear_part P x A.
(** A point satisfies a no-good cut. *)
Definition satisfies (z : list Q) (g : nogood) : Prop := ng_lb g <= - qsum (map (fun i => nth i z 0) (ng_vars g)).
(** An assignment of the integer variables, and the rounding of a point. *)
Definition assignment (ints : list bool) (z : list Q) : Prop :=
  length z = length ints /\ forall i, nth i ints false = true -> exists k : Z, nth i z 0 == inject_Z k.
Definition rounded (x : list Q) (i : nat) : Q := inject_Z (Qfloor (nth i x 0 + (1 # 2))).
Definition is_rounding (ints : list bool) (x z : list Q) : Prop := forall i, nth i ints false = true -> nth i z 0 == rounded x i.
(** The no-good cut of a MILP solution removes its rounding and nothing else. *)
Definition C42_nogood : Prop :=
  forall tol ints x b v lb b', length x = length ints -> length (k_lo b) = length ints -> length (k_up b) = length ints ->
  mr_fix 0 (length ints) tol ints x [] 1 b = Ok (true, v, lb, b') ->
  forall z, assignment ints z -> (satisfies z (mkNg v lb) <-> ~ is_rounding ints x z).
Definition C42_full : Prop := C42_matrix (fun _ => True) /\ C42_nogood.
(** The Jacobian lists its entries column by column, in each column by rows. *)
Definition before (a b : nat * nat) : Prop := (snd a < snd b \/ (snd a = snd b /\ fst a <= fst b))%nat.
Definition by_columns (st : list (nat * nat)) : Prop := ForallOrdPairs before st.
(** All integer variables are 0 or 1. *)
Definition binary (ints : list bool) (z : list Q) : Prop := forall i, nth i ints false = true -> nth i z 0 == 0 \/ nth i z 0 == 1.

(** C88.  A sequence of calls; each passes on the no-good cuts. *)
Record call := mkCall { a_M : milp -> option (list Q); a_N : cols -> bool * list Q; a_depth : nat; a_node : nat; a_pass : nat; a_x : list Q;
  a_colsol : list Q; a_lpbox : cols; a_b0 : cols; a_val : Q; a_old : list Q }.
Fixpoint mr_run (sort : sorter) (P : nlp) (tol : Q) (howOften : nat) (cs : list call) (cuts : list nogood) : outcome (list mresult) :=
  match cs with
  | [] => Ok []
  | c :: cs =>
      do r <- milp_rounding sort (a_M c) (a_N c) P tol (a_depth c) (a_node c) howOften (a_pass c) (a_x c) (a_colsol c) (a_lpbox c) (a_b0 c) cuts (a_val c) (a_old c);
      do rs <- mr_run sort P tol howOften cs (h_cuts r);
      Ok (r :: rs)
  end.
(** The MILP solver returns points that have all variables, lie within the bounds and
    satisfy the cuts. *)
Definition honest_milp (M : milp -> option (list Q)) : Prop :=
  forall m sol, M m = Some sol -> in_box (m_box m) sol /\ Forall (satisfies sol) (m_cuts m).
Definition sized (P : nlp) (c : call) : Prop :=
  length (a_x c) = p_n P /\ length (a_colsol c) = p_n P /\ length (k_lo (a_lpbox c)) = p_n P /\ length (k_up (a_lpbox c)) = p_n P /\
  length (k_lo (a_b0 c)) = p_n P /\ length (k_up (a_b0 c)) = p_n P.
(** Two boxes fix some integer variable at different values. *)
Definition fixed_at (b : cols) (i : nat) (q : Q) : Prop := nth i (k_lo b) MInf = Fin q /\ nth i (k_up b) PInf = Fin q.
Definition differ (ints : list bool) (b b' : cols) : Prop :=
  exists i q q', nth i ints false = true /\ fixed_at b i q /\ fixed_at b' i q' /\ ~ q == q'.

(** C89: what a call hands to the NLP solver, and what it reports. *)
Definition other_bounds (ints : list bool) (b0 b : cols) : Prop :=
  forall i, nth i ints false = false -> nth i (k_lo b) MInf = nth i (k_lo b0) MInf /\ nth i (k_up b) PInf = nth i (k_up b0) PInf.
Definition fixes_ints (ints : list bool) (b : cols) : Prop :=
  forall i, nth i ints false = true -> exists z : Z, fixed_at b i (inject_Z z).
Definition honest_nlp (N : cols -> bool * list Q) : Prop := forall b x, N b = (true, x) -> in_box b x.
Definition integer_point (ints : list bool) (x : list Q) : Prop := integral 0 ints x.
(** Values of integer variables allowed by [b] are allowed by [b0]. *)
Definition int_part (ints : list bool) (b0 b : cols) : Prop :=
  forall i v, nth i ints false = true -> lo_ok (nth i (k_lo b) MInf) v -> up_ok (nth i (k_up b) PInf) v ->
  lo_ok (nth i (k_lo b0) MInf) v /\ up_ok (nth i (k_up b0) PInf) v.

(** ** HeuristicDiveMIP *)
(** C90.  The linear variables, and a point with their values replaced. *)
Definition linear_cols (vlin : list bool) : list nat := filter (fun j => nth j vlin false) (seq 0 (length vlin)).
Fixpoint with_linear (vlin : list bool) (x y : list Q) : list Q :=
  match vlin, x with
  | true :: vlin, _ :: x => match y with v :: y => v :: with_linear vlin x y | [] => 0 :: with_linear vlin x [] end
  | false :: vlin, a :: x => a :: with_linear vlin x y
  | _, _ => x
  end.
(** The part of the problem with linear variables is affine in them, with the coefficients
    evaluated at [xs] and the gradient at [x] with linear variables 0. *)
Definition affine (P : nlp) (vlin : list bool) (xs x : list Q) : Prop :=
  let lc := linear_cols vlin in
  forall y, length y = length lc ->
  (forall i, (i < p_m P)%nat -> nth i (p_g P (with_linear vlin x y)) 0 ==
     nth i (p_g P (with_linear vlin x [])) 0 + dot (map (dense (p_off P) (p_jst P) (p_jv P xs) i) lc) y) /\
  p_f P (with_linear vlin x y) == p_f P (with_linear vlin x []) + dot (map (fun j => nth j (p_gf P (with_linear vlin x [])) 0) lc) y.
(** Constraint i contains a linear variable. *)
Definition touches (P : nlp) (vlin : list bool) (i : nat) : Prop :=
  exists rc j, In rc (p_jst P) /\ fst rc = (i + p_off P)%nat /\ snd rc = (j + p_off P)%nat /\ nth j vlin false = true.
(** Points of the MILP. *)
Definition lrow (m : lmilp) (y : list Q) (k : nat) : Q := dot (map (fun c => coef c k) (l_cols m)) y.
Definition lfeasible (m : lmilp) (y : list Q) : Prop :=
  length y = length (l_cols m) /\ in_bounds (l_lb m) (l_ub m) y /\
  forall k, (k < length (l_rl m))%nat -> lo_ok (nth k (l_rl m) MInf) (lrow m y k) /\ up_ok (nth k (l_ru m) PInf) (lrow m y k).
(** The MILP is the restriction of the problem to the linear variables. *)
Definition restriction (P : nlp) (vlin : list bool) (b : cols) (x : list Q) (m : lmilp) : Prop :=
  let lc := linear_cols vlin in
  l_ints m = map (fun j => nth j (p_int P) false) lc /\
  (forall y, lfeasible m y <->
     length y = length lc /\
     (forall k, (k < length lc)%nat -> lo_ok (nth (nth k lc 0%nat) (k_lo b) MInf) (nth k y 0) /\ up_ok (nth (nth k lc 0%nat) (k_up b) PInf) (nth k y 0)) /\
     (forall i, (i < p_m P)%nat -> touches P vlin i ->
        lo_ok (nth i (p_gl P) MInf) (nth i (p_g P (with_linear vlin x y)) 0) /\ up_ok (nth i (p_gu P) PInf) (nth i (p_g P (with_linear vlin x y)) 0))) /\
  (forall y y', length y = length lc -> length y' = length lc ->
     dot (l_obj m) y - dot (l_obj m) y' == p_f P (with_linear vlin x y) - p_f P (with_linear vlin x y')).
Definition C90_claim (pre : nlp -> list bool -> Prop) : Prop :=
  forall sort P vlin b xs x, sort_ok sort -> nlp_ok P -> length vlin = p_n P -> length xs = p_n P -> length x = p_n P ->
  length (k_lo b) = p_n P -> length (k_up b) = p_n P -> affine P vlin xs x -> pre P vlin ->
  exists m, dm_milp sort P vlin b xs x = Ok (with_linear vlin x [], m) /\ restriction P vlin b x m.
Definition C90_full : Prop := C90_claim (fun _ _ => True).
(** No entry is listed twice in a column of a linear variable. *)
Definition single_entries (P : nlp) (vlin : list bool) : Prop :=
  NoDup (filter (fun rc => nth (snd rc - p_off P) vlin false) (p_jst P)).

(** C91 *)
Definition honest_lmilp (M : lmilp -> option (list Q)) : Prop := forall m sol, M m = Some sol -> in_bounds (l_lb m) (l_ub m) sol.
(** The problem as the dive sees it: all integer variables, or only those that are not linear. *)
Definition all_ints (P : nlp) : dprob := mkDprob (p_int P) (p_gl P) (p_gu P) (p_f P) (p_g P).
Definition nl_ints (P : nlp) (vlin : list bool) : dprob :=
  mkDprob (map (fun p => (fst p && negb (snd p))%bool) (combine (p_int P) vlin)) (p_gl P) (p_gu P) (p_f P) (p_g P).
Definition answers_sized (n : nat) (S' : solver) : Prop := forall k b, length (snd (S' k b)) = n.
(** A point is reported only if the NLP solver accepted it on a part of the problem where
    all integer variables are fixed at integers. *)
Definition dive_mip_good (P : nlp) (S' : solver) (b0 : cols) (val : Q) (old : list Q) (r : bool * Q * list Q) : Prop :=
  let '(found, v, x) := r in
  if (found : bool) then v = p_f P x /\ v < val /\ in_box b0 x /\ integer_point (p_int P) x /\
    exists k b, S' k b = (true, x) /\ fixes_ints (p_int P) b /\ part_of b0 b
  else v = val /\ x = old.

(** ** C134: the MILP of MilpRounding *)
(** Squared distance to [c] over the integer variables. *)
Fixpoint distance (ints : list bool) (c z : list Q) : Q :=
  match ints, c, z with
  | b :: ints, p :: c, v :: z => (if (b : bool) then (v - p) * (v - p) else 0) + distance ints c z
  | _, _, _ => 0
  end.
(** Rows, columns, bounds and objective of the MILP: the linear constraints of the problem, the bounds
    and the point of the node. *)
Definition rounding_milp (P : nlp) (x colsol : list Q) (lpbox : cols) (cuts : list nogood) (m : milp) : Prop :=
  linear_part P x (m_A m) /\ m_box m = lpbox /\ m_ints m = p_int P /\ m_cuts m = cuts /\
  length (m_rl m) = count_occ Bool.bool_dec (p_lin P) true /\ length (m_ru m) = count_occ Bool.bool_dec (p_lin P) true /\
  (forall i, nth i (p_lin P) false = true -> nth (rank (p_lin P) i) (m_rl m) PInf = nth i (p_gl P) PInf /\ nth (rank (p_lin P) i) (m_ru m) MInf = nth i (p_gu P) MInf) /\
  (forall z z', length z = p_n P -> length z' = p_n P -> binary (p_int P) z -> binary (p_int P) z' ->
     dot (m_obj m) z - dot (m_obj m) z' == distance (p_int P) colsol z - distance (p_int P) colsol z').
