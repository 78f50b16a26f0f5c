(** The solver of MILP sub-problems, as an object with a life: src/Algorithms/BonSubMipSolver.{cpp,hpp}
    (constructor 44-104, copy 105-134, destructor 135-143, setLpSolver 146-177, solver 179-189, find_good_sol 191-326,
    optimize 328-440, optimize_with_lazy_constraints 442-547, solve BonSubMipSolver.hpp 60-69).
    Simplifications.  Doubles are exact rationals.  Cbc and CPLEX are oracles: a function of the problem and of the
    parameters set; a second run of CPLEX on the same problem is the next call of the oracle.  Addresses of LPs are
    positions in a heap; the LP passed in is an OsiClpSolverInterface or NULL.  Errors that CPLEX returns from anything but
    CPXgetmipx end in an exception and are left out.  Message levels, threads and messages are left out. *)
From Verif Require Import Base Arr.
#[local] Open Scope Q_scope.

(** ** Problems *)
Record row := mkRow { w_co : list (nat * Q); w_lo : ext; w_up : ext }.
Record prob := mkProb { p_obj : list Q; p_lo : list ext; p_up : list ext; p_int : list bool; p_rows : list row }.
Definition ncols (p : prob) : nat := length (p_obj p).
Definition empty_prob : prob := mkProb [] [] [] [] [].

(** ** Cbc: a fresh CbcModel for each solve, 201-222 and 339-362.  [g_one]: setMaximumSolutions(1); [g_gap]: the gap set, if any. *)
Record cbc_par := mkCbcPar { g_cutoff : ext; g_time : Q; g_one : bool; g_gap : option Q }.
Record cbc_ans := mkCbc { a_bound : ext; a_opt : bool; a_inf : bool; a_sols : nat; a_best : list Q; a_nodes : Z; a_iters : Z }.

(** ** CPLEX: the parameters that are set here, [None] while never set, and the answer of CPXmipopt *)
Record cpx_par := mkPar { k_time : option Q; k_epint : option Q; k_cutup : option ext; k_gap : option Q;
                          k_sols : option Z; k_nodes : option Z; k_primal : bool }.
Definition no_par : cpx_par := mkPar None None None None None None false.
Inductive stat := Optimal | OptimalTol | OptimalInfeas | Infeasible | InfOrUnbd | Unbounded | SolLim
  | NodeLimFeas | NodeLimInfeas | TimeLimFeas | TimeLimInfeas | FailFeas | FailInfeas | MemLimFeas | MemLimInfeas | AbortFeas | AbortInfeas
  | DetTimeLimFeas | DetTimeLimInfeas.
(** [x_type] false: CPX_NO_SOLN; [x_x]: what CPXgetmipx stores, [None] if it fails. *)
Record cpx_ans := mkCpx { x_stat : stat; x_bound : ext; x_type : bool; x_x : option (list Q); x_nodes : Z; x_iters : Z }.
Definition is_optimal (s : stat) : bool := match s with Infeasible | Optimal | OptimalTol | InfOrUnbd => true | _ => false end.
Definition is_infeasible (s : stat) : bool :=
  match s with Infeasible | AbortInfeas | TimeLimInfeas | NodeLimInfeas | FailInfeas | MemLimInfeas | InfOrUnbd => true | _ => false end.

(** ** The object *)
Inductive plan := FindGoodSolution | GetOptimum.
Record sub := mkSub {
  s_clp : option nat; s_own : bool;                 (* clp_, ownClp_ *)
  s_cpx : option (prob * cpx_par);                  (* cpx_ (owned) *)
  s_low : ext; s_opt : bool; s_sol : option (arr Q);  (* lowBound_, optimal_, integerSolution_ *)
  s_strat : bool;                                   (* strategy_ is there *)
  s_nodes : option Z; s_iters : option Z;           (* not initialised by the constructors *)
  s_plan : plan; s_gap : Q }.
(** The heap of LPs: [None] once deleted; whether a client made it. *)
Record cell := mkCell { c_prob : option prob; c_client : bool }.
Record world := mkWorld { heap : list cell; subs : list (option sub) }.
Definition start : world := mkWorld [] [].

Definition put {A} (i : nat) (v : A) (l : list A) : list A := if Nat.ltb i (length l) then firstn i l ++ v :: skipn (S i) l else l.
Definition dcell : cell := mkCell None true.
(** Reading and deleting an LP. *)
Definition look (h : nat) (m : list cell) : outcome prob :=
  match c_prob (nth h m dcell) with Some p => Ok p | None => Dangling end.
Definition free (h : nat) (m : list cell) : outcome (list cell) :=
  do _ <- look h m; Ok (put h (mkCell None (c_client (nth h m dcell))) m).

(** Constructor, 44-104.  [cpx]: milp_solver is CPLEX. *)
Definition construct (cpx : bool) (pl : plan) (gap : Q) (m : list cell) : list cell * sub :=
  if cpx then (m, mkSub None false (Some (empty_prob, no_par)) MInf false None false None None pl gap)
  else (m ++ [mkCell (Some empty_prob) false], mkSub (Some (length m)) true None MInf false None true None None pl gap).
(** Copy constructor, 105-134. *)
Definition copy (s : sub) (m : list cell) : outcome (list cell * sub) :=
  let cpx := match s_cpx s with Some (p, _) => Some (p, no_par) | None => None end in
  match s_clp s with
  | Some h =>
      if s_own s then do p <- look h m;
        Ok (m ++ [mkCell (Some p) false], mkSub (Some (length m)) true cpx MInf false None (s_strat s) None None (s_plan s) (s_gap s))
      else Ok (m, mkSub (Some h) false cpx MInf false None (s_strat s) None None (s_plan s) (s_gap s))
  | None => Ok (m, mkSub None (s_own s) cpx MInf false None (s_strat s) None None (s_plan s) (s_gap s))
  end.
(** Destructor, 135-143. *)
Definition destroy (s : sub) (m : list cell) : outcome (list cell) :=
  if s_own s then match s_clp s with Some h => free h m | None => Ok m end else Ok m.
Section Calls.
Variable ndebug : bool.
(** setLpSolver, 146-177: [lp] is a pointer to an LP of a client, or NULL. *)
Definition set_lp (lp : option nat) (s : sub) (m : list cell) : outcome (list cell * sub) :=
  match s_cpx s with
  | Some (_, par) =>
      match lp with
      | None => NullDeref
      | Some h => do p <- look h m; Ok (m, mkSub None (s_own s) (Some (p, par)) MInf false None (s_strat s) (s_nodes s) (s_iters s) (s_plan s) (s_gap s))
      end
  | None =>
      do m <- (if s_own s then match s_clp s with Some h => free h m | None => Ok m end else Ok m);
      match lp with
      | None => if ndebug then Ok (m, mkSub None false None MInf false None (s_strat s) (s_nodes s) (s_iters s) (s_plan s) (s_gap s)) else AssertFail
      | Some h => do _ <- look h m; Ok (m, mkSub (Some h) false None MInf false None (s_strat s) (s_nodes s) (s_iters s) (s_plan s) (s_gap s))
      end
  end.
(** integerSolution_ is allocated when it is not there; [n] values are stored. *)
Definition store (n : nat) (x : list Q) (old : option (arr Q)) : outcome (option (arr Q)) :=
  let a := match old with Some a => a | None => fresh n end in
  do a <- ablit 0 (firstn n x) a; Ok (Some a).
Variable cbc : prob -> cbc_par -> cbc_ans.
(** CPLEX: problem, rows that are lazy constraints, parameters, number of the run in this call. *)
Variable cplex : nat -> prob -> list row -> cpx_par -> cpx_ans.
(** CoinCpuTime() - start_time when it is looked at after the k-th run. *)
Variable elapsed : nat -> Q.
Definition after_cbc (n : nat) (a : cbc_ans) (s : sub) : outcome sub :=
  do sol <- (match a_sols a with O => Ok None | S _ => store n (a_best a) (s_sol s) end);
  Ok (mkSub (s_clp s) (s_own s) (s_cpx s) (a_bound a) (a_opt a || a_inf a) sol (s_strat s) (Some (a_nodes a)) (Some (a_iters a)) (s_plan s) (s_gap s)).
(** What CPXgetmipx leaves in integerSolution_: its return value is not looked at, 308-309, 422-423, 526-527. *)
Definition get_mipx (n : nat) (a : cpx_ans) (old : option (arr Q)) : outcome (option (arr Q)) :=
  match x_x a with
  | Some x => store n x old
  | None => Ok (Some (match old with Some b => b | None => fresh n end))
  end.
Definition after_cpx (n : nat) (a : cpx_ans) (p : prob) (par : cpx_par) (nodes : Z) (s : sub) : outcome sub :=
  do sol <- (if is_infeasible (x_stat a) then Ok None else get_mipx n a (s_sol s));
  Ok (mkSub (s_clp s) (s_own s) (Some (p, par)) (x_bound a) (is_optimal (x_stat a)) sol (s_strat s) (Some nodes) (Some (x_iters a)) (s_plan s) (s_gap s)).
(** The loop 275-290: further runs until there is a solution; [type] is that of the first run. *)
Fixpoint more (fuel : nat) (k : nat) (p : prob) (par : cpx_par) (tmax : Q) (type : bool) (a : cpx_ans) : outcome (cpx_ans * cpx_par) :=
  match fuel with
  | O => Diverges
  | S f =>
      if negb (is_optimal (x_stat a)) && negb type &&
         match x_stat a with SolLim | TimeLimInfeas | TimeLimFeas => false | _ => true end && Qle_bool (elapsed k) tmax
      then let par := mkPar (Some (tmax - elapsed k)) (k_epint par) (k_cutup par) (k_gap par) (Some 1%Z) (Some 2100000000%Z) (k_primal par) in
           more f (S k) p par tmax type (cplex (S k) p [] par)
      else Ok (a, par)
  end.
(** find_good_sol, 191-326. *)
Definition find_good_sol (fuel : nat) (cutoff : ext) (tmax : Q) (s : sub) (m : list cell) : outcome sub :=
  match s_clp s with
  | Some h =>
      do p <- look h m;
      after_cbc (ncols p) (cbc p (mkCbcPar cutoff tmax true None)) s
  | None =>
      match s_cpx s with
      | Some (p, par) =>
          let par := mkPar (Some tmax) (Some (1 # 100000000)) (Some cutoff) (Some (s_gap s)) (Some 10%Z) (Some 1000%Z) (k_primal par) in
          let a := cplex 0 p [] par in
          do ' (b, par) <- more fuel 0 p par tmax (x_type a) a;
          after_cpx (ncols p) b p par (if is_infeasible (x_stat b) then x_nodes b else x_nodes b + x_nodes b) s
      | None => Thrown
      end
  end.
(** optimize, 328-440 (SHIFT_CUTOFF is not defined). *)
Definition optimize (cutoff : ext) (tmax : Q) (s : sub) (m : list cell) : outcome sub :=
  match s_clp s with
  | Some h =>
      do _ <- (if s_strat s then Ok tt else if ndebug then NullDeref else AssertFail);
      do p <- look h m;
      after_cbc (ncols p) (cbc p (mkCbcPar cutoff tmax false (Some (s_gap s)))) s
  | None =>
      match s_cpx s with
      | Some (p, par) =>
          let par := mkPar (Some tmax) (k_epint par) (Some cutoff) (Some (qmax 0 (s_gap s - s_gap s * (1 # 10)))) (k_sols par) (k_nodes par) (k_primal par) in
          let a := cplex 0 p [] par in
          after_cpx (ncols p) a p par (x_nodes a) s
      | None => Thrown
      end
  end.
(** solve, BonSubMipSolver.hpp 60-69. *)
Definition solve (fuel : nat) (cutoff : ext) (tmax : Q) (s : sub) (m : list cell) : outcome sub :=
  match s_plan s with FindGoodSolution => find_good_sol fuel cutoff tmax s m | GetOptimum => optimize cutoff tmax s m end.
(** ** optimize_with_lazy_constraints, 442-547.  The sense and right side given for a cut, 470-488.
    getInfinity() is +infinity. *)
Inductive sense := SG | SL | SE.
Definition le_ext (a b : ext) : bool :=
  match a, b with MInf, _ => true | _, PInf => true | Fin x, Fin y => Qle_bool x y | _, _ => false end.
Definition lazy_row (r : row) : sense * ext :=
  if le_ext PInf (w_up r) then (SG, w_lo r)
  else if le_ext (w_lo r) PInf then (SL, w_up r)
  else (SE, w_up r).
Definition row_of (co : list (nat * Q)) (e : sense * ext) : row :=
  match e with (SG, b) => mkRow co b PInf | (SL, b) => mkRow co MInf b | (SE, b) => mkRow co b b end.
Definition as_lazy (r : row) : row := row_of (w_co r) (lazy_row r).
Definition with_rows (p : prob) (rs : list row) : prob := mkProb (p_obj p) (p_lo p) (p_up p) (p_int p) rs.
Definition optimize_lazy (cutoff : ext) (tmax : Q) (cuts : list row) (s : sub) (m : list cell) : outcome sub :=
  match s_clp s with
  | Some _ => optimize cutoff tmax s m
  | None =>
      match s_cpx s with
      | Some (p, par) =>
          let core := with_rows p (firstn (length (p_rows p) - length cuts) (p_rows p)) in
          let par := mkPar (Some tmax) (k_epint par) (Some cutoff) (Some (s_gap s)) (k_sols par) (k_nodes par) true in
          let a := cplex 0 core (map as_lazy cuts) par in
          after_cpx (ncols p) a (with_rows p (p_rows core ++ map as_lazy cuts)) par (x_nodes a) s
      | None => Thrown
      end
  end.

(** ** Calls in any order.  A client makes, changes (through its own pointer or through solver()) and deletes its LPs. *)
Inductive op :=
| CNew (p : prob) | CChange (h : nat) (p : prob) | CDelete (h : nat)
| ONew (cpx : bool) (pl : plan) (gap : Q) | OCopy (i : nat) | ODestroy (i : nat)
| OSet (i : nat) (lp : option nat)
| OLoad (i : nat) (p : prob)                      (* solver()->loadProblem *)
| OSolve (i : nat) (fuel : nat) (cutoff : ext) (tmax : Q)
| OFind (i : nat) (fuel : nat) (cutoff : ext) (tmax : Q)
| OOpt (i : nat) (cutoff : ext) (tmax : Q).
(** A call on an object that does not exist is no call. *)
Definition on (i : nat) (w : world) (f : sub -> outcome world) : outcome world :=
  match nth i (subs w) None with Some s => f s | None => Ok w end.
Definition step (w : world) (o : op) : outcome world :=
  match o with
  | CNew p => Ok (mkWorld (heap w ++ [mkCell (Some p) true]) (subs w))
  | CChange h p =>
      match nth h (heap w) dcell with
      | mkCell (Some _) true => Ok (mkWorld (put h (mkCell (Some p) true) (heap w)) (subs w))
      | _ => Ok w                                   (* not an LP of the client *)
      end
  | CDelete h =>
      match nth h (heap w) dcell with
      | mkCell (Some _) true => Ok (mkWorld (put h (mkCell None true) (heap w)) (subs w))
      | _ => Ok w
      end
  | ONew cpx pl gap => let '(m, s) := construct cpx pl gap (heap w) in Ok (mkWorld m (subs w ++ [Some s]))
  | OCopy i => on i w (fun s => do ' (m, s') <- copy s (heap w); Ok (mkWorld m (subs w ++ [Some s'])))
  | ODestroy i => on i w (fun s => do m <- destroy s (heap w); Ok (mkWorld m (put i None (subs w))))
  | OSet i lp =>
      match lp with
      | Some h => match nth h (heap w) dcell with
                  | mkCell (Some _) true => on i w (fun s => do ' (m, s') <- set_lp lp s (heap w); Ok (mkWorld m (put i (Some s') (subs w))))
                  | _ => Ok w                       (* the client has no such LP to give *)
                  end
      | None => on i w (fun s => do ' (m, s') <- set_lp lp s (heap w); Ok (mkWorld m (put i (Some s') (subs w))))
      end
  | OLoad i p =>
      on i w (fun s =>
        match s_clp s with
        | Some h => do _ <- look h (heap w); Ok (mkWorld (put h (mkCell (Some p) (c_client (nth h (heap w) dcell))) (heap w)) (subs w))
        | None => match s_cpx s with
                  | Some (_, par) => Ok (mkWorld (heap w) (put i (Some (mkSub None (s_own s) (Some (p, par)) (s_low s) (s_opt s) (s_sol s) (s_strat s) (s_nodes s) (s_iters s) (s_plan s) (s_gap s))) (subs w)))
                  | None => NullDeref
                  end
        end)
  | OSolve i fuel c t => on i w (fun s => do s' <- solve fuel c t s (heap w); Ok (mkWorld (heap w) (put i (Some s') (subs w))))
  | OFind i fuel c t => on i w (fun s => do s' <- find_good_sol fuel c t s (heap w); Ok (mkWorld (heap w) (put i (Some s') (subs w))))
  | OOpt i c t => on i w (fun s => do s' <- optimize c t s (heap w); Ok (mkWorld (heap w) (put i (Some s') (subs w))))
  end.
Fixpoint run (ops : list op) (w : world) : outcome world :=
  match ops with [] => Ok w | o :: r => do w <- step w o; run r w end.
End Calls.
