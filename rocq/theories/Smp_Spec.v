(** What is claimed about the solver of MILP sub-problems. *)
From Verif Require Import Base Arr Smp_Model.
#[local] Open Scope Q_scope.

Definition obj_at (w : world) (i : nat) (s : sub) : Prop := nth i (subs w) None = Some s.
Definition alive (w : world) (h : nat) : Prop := c_prob (nth h (heap w) dcell) <> None.
Definition of_client (w : world) (h : nat) : Prop := c_client (nth h (heap w) dcell) = true.

(** *** C235: a copy works on its own: LPs that were given to other objects may go. *)
(** The LP given to object [i] by the client after the calls [pre], if it still has it. *)
Definition given (pre : list op) (i h : nat) : Prop :=
  exists a b, pre = a ++ OSet i (Some h) :: b /\ forall o, In o b -> o <> ODestroy i /\ forall lp, o <> OSet i lp.
Definition tidy (ops : list op) : Prop := forall pre h post, ops = pre ++ CDelete h :: post -> ~ exists i, given pre i h.
Definition C235_full : Prop := forall nd cbc cplex el ops, tidy ops -> run nd cbc cplex el ops start <> Dangling.
(** No LP is deleted that solver() of some object returns. *)
Section Careful.
Variable nd : bool.
Variable cbc : prob -> cbc_par -> cbc_ans.
Variable cplex : nat -> prob -> list row -> cpx_par -> cpx_ans.
Variable el : nat -> Q.
Fixpoint careful (ops : list op) (w : world) : Prop :=
  match ops with
  | [] => True
  | o :: r =>
      match o with CDelete h => forall i s, obj_at w i s -> s_clp s <> Some h | _ => True end /\
      forall w', step nd cbc cplex el w o = Ok w' -> careful r w'
  end.
(** *** C237: an LP gets no more columns while the solution of an object that uses it is kept. *)
Fixpoint steady (ops : list op) (w : world) : Prop :=
  match ops with
  | [] => True
  | o :: r =>
      match o with
      | CChange h p => forall i s q, obj_at w i s -> s_clp s = Some h -> s_sol s <> None -> c_prob (nth h (heap w) dcell) = Some q -> (ncols p <= ncols q)%nat
      | OLoad i p =>
          (forall j s t h q, obj_at w i t -> s_clp t = Some h -> obj_at w j s -> s_clp s = Some h -> s_sol s <> None -> c_prob (nth h (heap w) dcell) = Some q -> (ncols p <= ncols q)%nat) /\
          (forall s q par, obj_at w i s -> s_cpx s = Some (q, par) -> s_sol s <> None -> (ncols p <= ncols q)%nat)
      | _ => True
      end /\
      forall w', step nd cbc cplex el w o = Ok w' -> steady r w'
  end.
End Careful.
Definition C237_full : Prop := forall nd cbc cplex el ops, run nd cbc cplex el ops start <> OutOfBounds.

(** *** C236: each LP made by an object belongs to exactly one living object, which deletes it; LPs of clients are not deleted. *)
Definition C236_spec (w : world) : Prop :=
  (forall h, alive w h -> ~ of_client w h -> exists i s, obj_at w i s /\ s_own s = true /\ s_clp s = Some h) /\
  (forall i s, obj_at w i s -> s_own s = true -> exists h, s_clp s = Some h /\ alive w h /\ ~ of_client w h) /\
  (forall i j s t h, obj_at w i s -> obj_at w j t -> s_own s = true -> s_clp s = Some h -> s_clp t = Some h -> i = j).

(** ** Solutions *)
Definition lhs (co : list (nat * Q)) (x : list Q) : Q := qsum (map (fun e => snd e * nth (fst e) x 0) co).
Definition row_ok (x : list Q) (r : row) : Prop := lo_ok (w_lo r) (lhs (w_co r) x) /\ up_ok (w_up r) (lhs (w_co r) x).
Definition integral (q : Q) : Prop := exists z, q == inject_Z z.
Definition solution (p : prob) (x : list Q) : Prop :=
  length x = ncols p /\
  (forall i, (i < ncols p)%nat -> lo_ok (nth i (p_lo p) MInf) (nth i x 0) /\ up_ok (nth i (p_up p) PInf) (nth i x 0) /\ (nth i (p_int p) false = true -> integral (nth i x 0))) /\
  Forall (row_ok x) (p_rows p).
Definition value (p : prob) (x : list Q) : Q := qsum (map (fun e => fst e * snd e) (combine (p_obj p) x)).
Definition below (cutoff : ext) (v : Q) : Prop := match cutoff with PInf => True | Fin c => v < c | MInf => False end.
(** Solutions that the solver is asked for. *)
Definition wanted (p : prob) (cutoff : ext) (x : list Q) : Prop := solution p x /\ below cutoff (value p x).
(** [v] is not worse than [w] by more than the gap. *)
Definition near (gap v w : Q) : Prop := v - w <= gap * (Qabs v + (1 # 10000000000)).
Definition ext_le (a : ext) (v : Q) : Prop := lo_ok a v.
(** A correct Cbc, on problem [p]. *)
Record honest_cbc (cbc : prob -> cbc_par -> cbc_ans) (p : prob) : Prop := {
  hb_sol : forall g, a_sols (cbc p g) <> 0%nat -> wanted p (g_cutoff g) (a_best (cbc p g));
  hb_opt : forall g y, a_opt (cbc p g) = true -> wanted p (g_cutoff g) y ->
             a_sols (cbc p g) <> 0%nat /\ near (qmax 0 (match g_gap g with Some x => x | None => 0 end)) (value p (a_best (cbc p g))) (value p y);
  hb_inf : forall g y, a_inf (cbc p g) = true -> ~ wanted p (g_cutoff g) y;
  hb_bound : forall g y, wanted p (g_cutoff g) y -> ext_le (a_bound (cbc p g)) (value p y)
}.
(** A correct CPLEX, on problem [p] with lazy rows [lz]: the statuses with which there is a solution, and what they mean. *)
Definition has_solution (s : stat) : bool :=
  match s with
  | Optimal | OptimalTol | OptimalInfeas | SolLim | NodeLimFeas | TimeLimFeas | FailFeas | MemLimFeas | AbortFeas | DetTimeLimFeas => true
  | _ => false
  end.
Definition cut_of (par : cpx_par) : ext := match k_cutup par with Some c => c | None => PInf end.
Definition gap_of (par : cpx_par) : Q := match k_gap par with Some g => g | None => 1 # 10000 end.
Definition all_rows (p : prob) (lz : list row) : prob := with_rows p (p_rows p ++ lz).
Definition unbounded (p : prob) : Prop := forall b, exists y, solution p y /\ value p y < b.
Record honest_cpx (cplex : nat -> prob -> list row -> cpx_par -> cpx_ans) (p : prob) (lz : list row) : Prop := {
  hx_sol : forall k par, (exists x, x_x (cplex k p lz par) = Some x) <-> has_solution (x_stat (cplex k p lz par)) = true;
  hx_type : forall k par, x_type (cplex k p lz par) = has_solution (x_stat (cplex k p lz par));
  hx_wanted : forall k par x, x_x (cplex k p lz par) = Some x -> wanted (all_rows p lz) (cut_of par) x;
  hx_opt : forall k par y x, x_stat (cplex k p lz par) = Optimal \/ x_stat (cplex k p lz par) = OptimalTol -> wanted (all_rows p lz) (cut_of par) y ->
             x_x (cplex k p lz par) = Some x -> near (qmax 0 (gap_of par)) (value p x) (value p y);
  hx_inf : forall k par y, x_stat (cplex k p lz par) = Infeasible -> ~ wanted (all_rows p lz) (cut_of par) y;
  hx_unb : forall k par, x_stat (cplex k p lz par) = InfOrUnbd -> (forall y, ~ wanted (all_rows p lz) (cut_of par) y) \/ unbounded (all_rows p lz);
  hx_bound : forall k par y, wanted (all_rows p lz) (cut_of par) y -> ext_le (x_bound (cplex k p lz par)) (value p y)
}.
(** The problem an object solves. *)
Definition problem_of (s : sub) (m : list cell) (p : prob) : Prop :=
  match s_clp s with Some h => c_prob (nth h m dcell) = Some p | None => exists par, s_cpx s = Some (p, par) end.
(** A call that solves. *)
Definition solves nd cbc cplex el (cutoff : ext) (tmax : Q) (s : sub) (m : list cell) (s' : sub) : Prop :=
  (exists fuel, find_good_sol cbc cplex el fuel cutoff tmax s m = Ok s') \/ optimize nd cbc cplex cutoff tmax s m = Ok s'.
(** No solution array is there, or one of the size of the problem. *)
Definition fits (s : sub) (p : prob) : Prop := match s_sol s with None => True | Some a => length a = ncols p end.

(** *** C238: the solution returned is one of the problem, better than the cutoff. *)
Definition C238_full : Prop := forall nd cbc cplex el cutoff tmax s m p s' a,
  problem_of s m p -> honest_cbc cbc p -> honest_cpx cplex p [] -> fits s p ->
  solves nd cbc cplex el cutoff tmax s m s' -> s_sol s' = Some a -> exists x, a = map Some x /\ wanted p cutoff x.

(** *** C239: optimal() means that the solution is optimal within the gap or that there is none. *)
Definition proved (p : prob) (cutoff : ext) (gap : Q) (s : sub) : Prop :=
  match s_sol s with
  | None => forall y, ~ wanted p cutoff y
  | Some a => exists x, a = map Some x /\ wanted p cutoff x /\ forall y, wanted p cutoff y -> near gap (value p x) (value p y)
  end.
Definition C239_full : Prop := forall nd cbc cplex el cutoff tmax s m p s',
  problem_of s m p -> honest_cbc cbc p -> honest_cpx cplex p [] -> fits s p -> 0 <= s_gap s ->
  solves nd cbc cplex el cutoff tmax s m s' -> s_opt s' = true -> proved p cutoff (s_gap s) s'.

(** *** C242: the number of nodes reported. *)
Definition C242_full : Prop := forall nd cbc cplex el cutoff tmax s m p s',
  problem_of s m p -> honest_cpx cplex p [] -> solves nd cbc cplex el cutoff tmax s m s' ->
  exists n, s_nodes s' = Some n /\ ((exists g, n = a_nodes (cbc p g)) \/ (exists k par, n = x_nodes (cplex k p [] par))).

(** *** C243: cuts as lazy constraints do not change the problem. *)
Definition same_solutions (p q : prob) : Prop := forall x, solution p x <-> solution q x.
Definition C243_full : Prop := forall nd cbc cplex cutoff tmax cuts base s m p par s', s_clp s = None -> s_cpx s = Some (p, par) ->
  p_rows p = base ++ cuts -> honest_cpx cplex (with_rows p base) (map as_lazy cuts) ->
  optimize_lazy nd cbc cplex cutoff tmax cuts s m = Ok s' ->
  exists q par', s_cpx s' = Some (q, par') /\ same_solutions p q.

(** *** C244: a solve does not depend on the parameters set by earlier ones. *)
Definition forget (s : sub) : sub :=
  mkSub (s_clp s) (s_own s) (match s_cpx s with Some (p, _) => Some (p, no_par) | None => None end) (s_low s) (s_opt s) (s_sol s) (s_strat s)
    (s_nodes s) (s_iters s) (s_plan s) (s_gap s).
Definition same_results (s t : sub) : Prop :=
  s_low s = s_low t /\ s_opt s = s_opt t /\ s_sol s = s_sol t /\ s_nodes s = s_nodes t /\ s_iters s = s_iters t.
Definition alike (a b : outcome sub) : Prop := match a, b with Ok s, Ok t => same_results s t | Ok _, _ => False | _, Ok _ => False | _, _ => a = b end.
Definition C244_full : Prop := forall nd cbc cplex el ops w i s fuel cutoff tmax, run nd cbc cplex el ops start = Ok w -> obj_at w i s ->
  alike (find_good_sol cbc cplex el fuel cutoff tmax s (heap w)) (find_good_sol cbc cplex el fuel cutoff tmax (forget s) (heap w)) /\
  alike (optimize nd cbc cplex cutoff tmax s (heap w)) (optimize nd cbc cplex cutoff tmax (forget s) (heap w)).
Definition only_solves (ops : list op) : Prop := forall o, In o ops -> match o with OFind _ _ _ _ | OOpt _ _ _ => False | _ => True end.
