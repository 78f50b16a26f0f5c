(** What outer-approximation cuts and relaxations are supposed to satisfy,
    in terms of the problem's own functions. *)
From Verif Require Import Base Arr Nlp OA_Model.
#[local] Open Scope Q_scope.

(** Left-hand side of a sparse row at a point. *)
Definition lhs (p : pvec) (y : list Q) : Q := qsum (map (fun e => snd e * nth (fst e) y 0) p).
(** The row holds with tolerance s. *)
Definition holds (s : Q) (p : pvec) (lb ub : ext) (y : list Q) : Prop :=
  lo_ok lb (lhs p y + s) /\ up_ok ub (lhs p y - s).
Definition cut_holds (s : Q) (c : cutst) (y : list Q) : Prop := holds s (c_row c) (c_lb c) (c_ub c) y.

(** First-order change of constraint i from x to y. *)
Definition rowlin (P : nlp) (x : list Q) (i : nat) (y : list Q) : Q :=
  qsum (map (fun j => dense (p_off P) (p_jst P) (p_jv P x) i j * (nth j y 0 - nth j x 0)) (seq 0 (p_n P))).
Definition gi (P : nlp) (i : nat) (x : list Q) : Q := nth i (p_g P x) 0.
(** Subgradient inequalities: what convexity (concavity) of g_i gives. *)
Definition under (P : nlp) (x : list Q) (i : nat) (y : list Q) : Prop := gi P i x + rowlin P x i y <= gi P i y.
Definition over (P : nlp) (x : list Q) (i : nat) (y : list Q) : Prop := gi P i y <= gi P i x + rowlin P x i y.
Definition objlin (P : nlp) (x y : list Q) : Q :=
  qsum (map (fun j => nth j (p_gf P x) 0 * (nth j y 0 - nth j x 0)) (seq 0 (p_n P))).
Definition obj_under (P : nlp) (x y : list Q) : Prop := p_f P x + objlin P x y <= p_f P y.

Definition glow (P : nlp) i := nth i (p_gl P) MInf.
Definition gup (P : nlp) i := nth i (p_gu P) PInf.
Definition row_ok (P : nlp) (i : nat) (y : list Q) : Prop :=
  lo_ok (glow P i) (gi P i y) /\ up_ok (gup P i) (gi P i y).
(** Which side of a row the linearisation keeps: an inequality its only side, a
    two-sided row the side indicated by the sign of its multiplier. *)
Definition uses_up (P : nlp) (e : oaenv) (i : nat) : Prop :=
  gup P i <> PInf /\ (glow P i = MInf \/ 0 < nth i (e_duals e) 0).
Definition uses_lo (P : nlp) (e : oaenv) (i : nat) : Prop :=
  glow P i <> MInf /\ (gup P i = PInf \/ nth i (e_duals e) 0 < 0).
(** Convexity where the upper side is used, concavity where the lower one is. *)
Definition curved (P : nlp) (e : oaenv) (x : list Q) (i : nat) (y : list Q) : Prop :=
  (uses_up P e i -> under P x i y) /\ (uses_lo P e i -> over P x i y).
(** Total of the negligible coefficients of row i times the distance moved. *)
Definition negligible (P : nlp) (vtiny : Q) (x : list Q) (i : nat) (y : list Q) : Q :=
  qsum (map (fun p => if (Nat.eqb (fst (fst p)) (i + p_off P) && Qltb (Qabs (snd p)) vtiny)%bool
                      then Qabs (snd p) * Qabs (nth (snd (fst p) - p_off P) y 0 - nth (snd (fst p) - p_off P) x 0)
                      else 0) (combine (p_jst P) (p_jv P x))).
(** No coefficient of row i is below the threshold. *)
Definition no_small (P : nlp) (tiny : Q) (x : list Q) (i : nat) : Prop :=
  forall c v, In ((i + p_off P, c)%nat, v) (combine (p_jst P) (p_jv P x)) -> tiny <= Qabs v.
Definition nonlinear_rows (P : nlp) : list nat :=
  filter (fun i => negb (nth i (p_lin P) true)) (seq 0 (p_m P)).

Record env_ok (P : nlp) (e : oaenv) : Prop := {
  en_cl : length (e_cl e) = p_n P; en_cu : length (e_cu e) = p_n P;
  en_du : length (e_duals e) = p_m P; en_rel : 0 <= e_relax e
}.

(** C16.  Cut [c] is a valid linearisation of constraint [i] at [x] over the box
    given by the current column bounds. *)
Definition valid_oa (P : nlp) (e : oaenv) (x : list Q) (i : nat) (c : cutst) : Prop :=
  forall y, in_bounds (e_cl e) (e_cu e) y -> row_ok P i y -> curved P e x i y ->
            cut_holds (negligible P (e_vtiny e) x i y) c y.
(** Where it comes from: the side of the row that is used, linearised with some
    columns of small coefficient moved to a bound of the column and some columns of
    negligible coefficient left at x. *)
Definition moved (e : oaenv) (x y : list Q) (c : nat) (v w : Q) : Prop :=
  (e_tiny e <= Qabs v -> w == nth c y 0) /\
  (Qabs v < e_tiny e -> Qabs v < e_vtiny e -> w == nth c x 0) /\
  (w == nth c y 0 \/ w == nth c x 0 \/ nth c (e_cl e) MInf = Fin w \/ nth c (e_cu e) PInf = Fin w).
(** The entries (column, value) of row i. *)
Definition row_entries (P : nlp) (x : list Q) (i : nat) : list (nat * Q) :=
  map (fun p => ((snd (fst p) - p_off P)%nat, snd p))
      (filter (fun p => Nat.eqb (fst (fst p)) (i + p_off P)) (combine (p_jst P) (p_jv P x))).
Definition tight_oa (P : nlp) (e : oaenv) (x : list Q) (i : nat) (c : cutst) : Prop :=
  e_relax e == 0 -> forall y, length y = p_n P ->
  exists ws, Forall2 (fun en w => moved e x y (fst en) (snd en) w) (row_entries P x i) ws /\
    let lin := gi P i x + qsum (map (fun p => snd (fst p) * (snd p - nth (fst (fst p)) x 0))
                                    (combine (row_entries P x i) ws)) in
    (uses_up P e i -> (up_ok (c_ub c) (lhs (c_row c) y) <-> up_ok (gup P i) lin)) /\
    (uses_lo P e i -> (lo_ok (c_lb c) (lhs (c_row c) y) <-> lo_ok (glow P i) lin)).
(** Exactly the linearisation when no coefficient is small and no relaxation is asked. *)
Definition exact_oa (P : nlp) (e : oaenv) (x : list Q) (i : nat) (c : cutst) : Prop :=
  no_small P (e_tiny e) x i -> e_relax e == 0 ->
  forall y, length y = p_n P ->
    (uses_up P e i -> (up_ok (c_ub c) (lhs (c_row c) y) <-> up_ok (gup P i) (gi P i x + rowlin P x i y))) /\
    (uses_lo P e i -> (lo_ok (c_lb c) (lhs (c_row c) y) <-> lo_ok (glow P i) (gi P i x + rowlin P x i y))) /\
    (~ uses_up P e i -> c_ub c = PInf) /\
    (~ uses_lo P e i -> c_lb c = MInf).

(** C57.  The same, over the whole variable box of the problem, for a cut that is
    flagged as globally valid. *)
Definition valid_global (P : nlp) (e : oaenv) (x : list Q) (i : nat) (c : cutst) : Prop :=
  forall y, in_bounds (p_xl P) (p_xu P) y -> row_ok P i y -> curved P e x i y ->
            cut_holds (negligible P (e_vtiny e) x i y) c y.
Definition C57_full : Prop :=
  forall P e x cs, nlp_ok P -> env_ok P e -> length x = p_n P ->
    getOuterApproximation P e x 0 None 0 = Ok cs -> Forall2 (valid_global P e x) (nonlinear_rows P) cs.

(** C17.  Points of the extended space (x, alpha). *)
Definition obj_negligible (P : nlp) (vtiny : Q) (x y : list Q) : Q :=
  qsum (map (fun j => if Qltb (Qabs (nth j (p_gf P x) 0)) vtiny
                      then Qabs (nth j (p_gf P x) 0) * Qabs (nth j y 0 - nth j x 0) else 0) (seq 0 (p_n P))).
Definition C17_full : Prop :=
  forall P e x c, nlp_ok P -> env_ok P e -> length x = p_n P ->
    getOuterApproximation P e x 2 None 0 = Ok (c :: nil) -> p_m P = 0%nat ->
    (forall y, length y = p_n P -> obj_under P x y) ->
    (forall y alpha, length y = p_n P -> p_f P y <= alpha -> cut_holds 0 c (y ++ [alpha])) /\
    (forall alpha, cut_holds 0 c (x ++ [alpha]) -> p_f P x <= alpha).
(** Over the box, up to negligible coefficients. *)
Definition valid_obj (P : nlp) (e : oaenv) (vtiny : Q) (x : list Q) (row : pvec) (lb ub : ext) : Prop :=
  forall y alpha, in_bounds (e_cl e) (e_cu e) y -> obj_under P x y -> p_f P y <= alpha ->
    holds (obj_negligible P vtiny x y) row lb ub (y ++ [alpha]).
Definition obj_no_small (P : nlp) (tiny : Q) (x : list Q) : Prop :=
  forall j, (j < p_n P)%nat -> tiny <= Qabs (nth j (p_gf P x) 0).
Definition exact_obj (P : nlp) (tiny : Q) (x : list Q) (row : pvec) (lb ub : ext) : Prop :=
  lb = MInf /\
  (obj_no_small P tiny x -> forall y alpha, length y = p_n P ->
     (up_ok ub (lhs row (y ++ [alpha])) <-> p_f P x + objlin P x y <= alpha)).
(** In general at the linearisation point alpha may be below f(x) only by what the
    removed coefficients can contribute over the box. *)
Definition room (e : oaenv) (x : list Q) (j : nat) (v : Q) : Q :=
  match nth j (e_cl e) MInf, nth j (e_cu e) PInf with
  | Fin l, Fin u => Qabs v * (Qabs (nth j x 0 - l) + Qabs (u - nth j x 0))
  | Fin l, _ => Qabs v * Qabs (nth j x 0 - l)
  | _, Fin u => Qabs v * Qabs (u - nth j x 0)
  | _, _ => 0
  end.
Definition tight_obj (P : nlp) (e : oaenv) (tiny : Q) (x : list Q) (row : pvec) (ub : ext) : Prop :=
  forall alpha, up_ok ub (lhs row (x ++ [alpha])) ->
    p_f P x - qsum (map (fun j => if Qltb (Qabs (nth j (p_gf P x) 0)) tiny
                                  then room e x j (nth j (p_gf P x) 0) else 0) (seq 0 (p_n P))) <= alpha.

(** C18. *)
Definition at_level (e : oaenv) (k : nat) : oaenv :=
  mkOaenv (e_cl e) (e_cu e) (e_duals e) (e_tiny e) (e_vtiny e) (e_relax e) k (e_linobj e).
Definition C18_full : Prop :=
  forall P e x go x2 theta k1 k2,
    getOuterApproximation P (at_level e k1) x go x2 theta = getOuterApproximation P (at_level e k2) x go x2 theta.

(** C19.  One coefficient v of a row "rest + v (y - x)" is removed and the sides
    become lb', ub': no box point that satisfied the row may be lost.  [lb]/[ub] are
    infinite on the sides on which the row has no bound. *)
Definition removal_safe (v : Q) (cl cu : ext) (x : Q) (lb ub lb' ub' : ext) : Prop :=
  forall rest y, lo_ok cl y -> up_ok cu y ->
    lo_ok lb (rest + v * (y - x)) -> up_ok ub (rest + v * (y - x)) -> lo_ok lb' rest /\ up_ok ub' rest.
(** The same when the coefficient is left in the row. *)
Definition shift_safe (v : Q) (cl cu : ext) (x : Q) (lb ub lb' ub' : ext) : Prop :=
  forall rest y, lo_ok cl y -> up_ok cu y ->
    lo_ok lb (rest + v * (y - x)) -> up_ok ub (rest + v * (y - x)) -> lo_ok lb' (rest + v * y) /\ up_ok ub' (rest + v * y).
Definition sides_match (rl ru lb ub : ext) : Prop := (rl = MInf -> lb = MInf) /\ (ru = PInf -> ub = PInf).
Definition C19_full : Prop :=
  forall v cl cu rl ru x lb ub tiny vtiny v' lb' ub',
    vtiny <= Qabs v -> sides_match rl ru lb ub ->
    q_clean v cl cu rl ru x lb ub tiny vtiny = (false, v', lb', ub') ->
    removal_safe v cl cu x lb ub lb' ub'.

(** C20. *)
Definition bd_slop (P : nlp) (e : oaenv) (x y : list Q) : Q :=
  qsum (map (fun i => if Qltb bd_tol (Qabs (nth i (e_duals e) 0)) then
      qsum (map (fun en => let v := nth i (e_duals e) 0 * snd en in
                           if Qltb (Qabs v) (e_vtiny e) then Qabs v * Qabs (nth (fst en) y 0 - nth (fst en) x 0) else 0)
                (row_entries P x i)) else 0) (nonlinear_rows P))
  + bd_zero * qsum (map Qabs y) + obj_negligible P obj_vtiny x y.
Definition benders_valid (P : nlp) (e : oaenv) (x : list Q) (c : cutst) : Prop :=
  forall y alpha, in_bounds (e_cl e) (e_cu e) y ->
    (forall i, In i (nonlinear_rows P) -> row_ok P i y /\
       (0 < nth i (e_duals e) 0 -> under P x i y) /\ (nth i (e_duals e) 0 < 0 -> over P x i y)) ->
    obj_under P x y -> p_f P y <= alpha -> cut_holds (bd_slop P e x y) c (y ++ [alpha]).
(** Multipliers are only nonzero on bounded sides, as the code asserts. *)
Definition duals_sane (P : nlp) (e : oaenv) : Prop :=
  forall i, In i (nonlinear_rows P) -> bd_tol < Qabs (nth i (e_duals e) 0) ->
    (0 < nth i (e_duals e) 0 -> exists u, gup P i = Fin u /\ u < bd_big) /\
    (nth i (e_duals e) 0 < 0 -> exists l, glow P i = Fin l /\ - bd_big < l).
Definition C20_full : Prop :=
  forall P e x opt, nlp_ok P -> env_ok P e -> length x = p_n P -> duals_sane P e ->
    (forall i, 0 <= nth i (e_duals e) 0) ->
    exists c, getBendersCut P e x opt = Ok c /\ benders_valid P e x c.

(** C21.  The rows that are skipped, and those that stay, in order. *)
Definition skipped (P : nlp) (e : oaenv) (i : nat) : bool :=
  negb (nth i (p_lin P) true) && gtm (glow P i) && ltp (gup P i) && Qeq_bool (nth i (e_duals e) 0) 0.
Definition kept_rows (P : nlp) (e : oaenv) : list nat := filter (fun i => negb (skipped P e i)) (seq 0 (p_m P)).
Definition rowdot (P : nlp) (x : list Q) (i : nat) (y : list Q) : Q :=
  qsum (map (fun j => dense (p_off P) (p_jst P) (p_jv P x) i j * nth j y 0) (seq 0 (p_n P))).
(** Row [row] with bounds lo, up is the linearisation of constraint i with i's own bounds
    (nonlinear rows are relaxed by 1e-7). *)
Definition own_row (P : nlp) (x : list Q) (i : nat) (row : pvec) : Prop :=
  forall y, length y = p_n P -> lhs row y == rowdot P x i y.
Definition own_bounds (P : nlp) (e : oaenv) (x : list Q) (i : nat) (lo up : ext) : Prop :=
  if nth i (p_lin P) true then
    lo = glow P i /\ up = relax_ub (e_relax e) (gup P i)
  else
    no_small P (e_tiny e) x i -> e_relax e == 0 -> forall y, length y = p_n P ->
    (uses_up P e i -> (up_ok up (rowdot P x i y) <-> up_ok (eadd (gup P i) ex_eps) (gi P i x + rowlin P x i y))) /\
    (uses_lo P e i -> (lo_ok lo (rowdot P x i y) <-> lo_ok (eadd (glow P i) (- ex_eps)) (gi P i x + rowlin P x i y))) /\
    (~ uses_up P e i -> up = PInf) /\ (~ uses_lo P e i -> lo = MInf).
Definition C21_full : Prop :=
  forall P e x L, nlp_ok P -> env_ok P e -> length x = p_n P ->
    extractLinearRelaxation P e x false = Ok L ->
    length (l_rows L) = length (kept_rows P e) /\
    forall k, (k < length (kept_rows P e))%nat ->
      let i := nth k (kept_rows P e) 0%nat in
      own_row P x i (nth k (l_rows L) []) /\ own_bounds P e x i (nth k (l_lo L) MInf) (nth k (l_up L) PInf).

(** C58.  The relaxation contains every feasible point and its objective does not
    exceed the true one there. *)
Definition lp_value (L : lp) (z : list Q) : Q := dot (l_obj L) z + l_const L.
Definition lp_feasible (s : nat -> Q) (L : lp) (z : list Q) : Prop :=
  in_bounds (l_cl L) (l_cu L) z /\
  forall k, (k < length (l_rows L))%nat -> holds (s k) (nth k (l_rows L) []) (nth k (l_lo L) MInf) (nth k (l_up L) PInf) z.
(** A problem that the relaxation treats: linear rows are linear forms, nonlinear rows
    have the curvature of the side that is used, the objective is convex, and linear if
    declared so. *)
Definition relaxable (P : nlp) (e : oaenv) (x y : list Q) : Prop :=
  (forall i, (i < p_m P)%nat -> nth i (p_lin P) true = true -> gi P i y == rowdot P x i y) /\
  (forall i, (i < p_m P)%nat -> nth i (p_lin P) true = false -> curved P e x i y) /\
  (if e_linobj e then p_f P y == p_f P (repeat 0 (p_n P)) + dot (p_gf P x) y else obj_under P x y).
Definition relaxes (P : nlp) (e : oaenv) (x : list Q) (s : list Q -> nat -> Q) (L : lp) : Prop :=
  forall y, in_bounds (e_cl e) (e_cu e) y -> (forall i, (i < p_m P)%nat -> row_ok P i y) -> relaxable P e x y ->
    exists z, firstn (p_n P) z = y /\ lp_feasible (s y) L z /\ lp_value L z <= p_f P y.
Definition C58_full : Prop :=
  forall P e x L, nlp_ok P -> env_ok P e -> length x = p_n P ->
    extractLinearRelaxation P e x true = Ok L -> relaxes P e x (fun _ _ => 0) L.
(** The columns whose coefficient was cleaned contain 0 (so that leaving the
    coefficient in the row is harmless). *)
Definition zero_in_box (e : oaenv) : Prop :=
  Forall (fun l => lo_ok l 0) (e_cl e) /\ Forall (fun u => up_ok u 0) (e_cu e).
Definition lp_slop (P : nlp) (e : oaenv) (x y : list Q) (k : nat) : Q :=
  if Nat.ltb k (p_m P) then
    if nth k (p_lin P) true then 0
    else qsum (map (fun en => if Qltb (Qabs (snd en)) (e_vtiny e) then Qabs (snd en) * Qabs (nth (fst en) x 0) else 0)
                   (row_entries P x k))
  else obj_negligible P (if Nat.eqb (p_m P) 0 then un_vtiny else e_vtiny e) x y.

(** C19, nonlinear rows of the quadratic code's relaxation: exactly the linearisation
    relaxed by 1e-7, whatever the thresholds. *)
Definition q_exact (P : nlp) (x : list Q) (i : nat) (r : pvec * (ext * ext)) : Prop :=
  forall y, length y = p_n P ->
    lhs (fst r) y == rowdot P x i y /\
    (up_ok (snd (snd r)) (lhs (fst r) y) <-> up_ok (eadd (gup P i) ex_eps) (gi P i x + rowlin P x i y)) /\
    (lo_ok (fst (snd r)) (lhs (fst r) y) <-> lo_ok (eadd (glow P i) (- ex_eps)) (gi P i x + rowlin P x i y)).
(** C18: one list of cuts is obtained from another by leaving some out. *)
Inductive sublist {A} : list A -> list A -> Prop :=
| sub_nil : forall l, sublist [] l
| sub_keep : forall a l l', sublist l l' -> sublist (a :: l) (a :: l')
| sub_drop : forall a l l', sublist l l' -> sublist l (a :: l').
