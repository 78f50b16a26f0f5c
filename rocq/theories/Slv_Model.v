(** The NLP solver objects over sequences of calls.
    src/Interfaces/Ipopt/BonIpoptSolver.cpp 25-299 and 418-500 (constructors, copies, Initialize, OptimizeTNLP, ReOptimizeTNLP, statistics,
    setMinlpDefaults, warm start switches, output level, error names), BonIpoptSolver.hpp 136-139;
    src/Interfaces/Filter/BonFilterSolver.cpp 38-49, 268-398, 402-568 (global data), 640-700, 721-746, BonFilterSolver.hpp 111-152.

    Simplified: Ipopt and filterSQP are oracles: the answer of a run is an argument of the call.  What Ipopt's OptionsList, its Initialize and
    ReOptimizeTNLP do is what their documentation says: an option set without allow_clobber stays as it is; options read from a file are of this
    kind; ReOptimizeTNLP refuses a TNLP that is not the one of the last OptimizeTNLP (INVALID_WARMSTART).  Problems are numbers, with the data
    zeroDimension looks at (Nls_Model.v).  Matrices, bounds and starting points of filterSQP are in Nls_Model.v. *)
From Verif Require Import Base Arr Itf_Model Nls_Model.
#[local] Open Scope Z_scope.

(** ** Option lists *)
Inductive oname := gamma_phi | gamma_theta | required_infeasibility_reduction | expect_infeasible_problem | mu_strategy | mu_oracle
  | honor_original_bounds | print_level | warm_start_init_point | warm_start | Other (n : nat).
Inductive oval := Num (q : Q) | Yes | No | Adaptive | Probing | Word (n : nat) | Int (k : Z).
Definition oname_eqb (a b : oname) : bool :=
  match a, b with
  | gamma_phi, gamma_phi | gamma_theta, gamma_theta | required_infeasibility_reduction, required_infeasibility_reduction
  | expect_infeasible_problem, expect_infeasible_problem | mu_strategy, mu_strategy | mu_oracle, mu_oracle
  | honor_original_bounds, honor_original_bounds | print_level, print_level | warm_start_init_point, warm_start_init_point
  | warm_start, warm_start => true
  | Other n, Other m => Nat.eqb n m
  | _, _ => false
  end.
(** Name, value, allow_clobber; the first entry counts. *)
Definition opts := list (oname * (oval * bool)).
Fixpoint lookup (o : oname) (l : opts) : option (oval * bool) :=
  match l with [] => None | (a, v) :: t => if oname_eqb o a then Some v else lookup o t end.
Definition get (o : oname) (l : opts) : option oval := match lookup o l with Some (v, _) => Some v | None => None end.
Definition set (o : oname) (v : oval) (clobber : bool) (l : opts) : opts :=
  match lookup o l with Some (_, false) => l | _ => (o, (v, clobber)) :: l end.
(** ReadFromStream. *)
Fixpoint read_file (f : list (oname * oval)) (l : opts) : opts :=
  match f with [] => l | (o, v) :: t => read_file t (set o v false l) end.

(** ** IpoptSolver *)
Record ipo := mkI { i_st : ipopt_code; i_zero : bool; i_strat : option oval; i_warm : bool; i_before : bool;
                    i_opts : opts; i_log : option Z;         (* default_log_level_; None: not set *)
                    i_app : option nat;                      (* the problem of the last OptimizeTNLP of the application *)
                    i_stats : option (nat * Q) }.            (* its SolveStatistics: iterations, time *)
(** 26-77. *)
Definition ipo_new (l : opts) : ipo := mkI Internal_Error false None false false l None None None.
(** 82-103: copy constructor and clone; the copy has an application of its own. *)
Definition ipo_clone (s : ipo) : ipo := mkI (i_st s) (i_zero s) (i_strat s) false false (i_opts s) (i_log s) None None.
Definition upd_opts (s : ipo) (l : opts) : ipo := mkI (i_st s) (i_zero s) (i_strat s) (i_warm s) (i_before s) l (i_log s) (i_app s) (i_stats s).
(** 261-297. *)
Definition default_if (o : oname) (v : oval) (l : opts) : opts := match get o l with Some _ => l | None => set o v true l end.
Definition int_of (v : oval) : Z := match v with Int k => k | _ => 0 end.
Definition setMinlpDefaults (s : ipo) : ipo :=
  let l := i_opts s in
  let l := default_if gamma_phi (Num (1 # 100000000)) l in
  let l := default_if gamma_theta (Num (1 # 10000)) l in
  let l := default_if required_infeasibility_reduction (Num (1 # 10)) l in
  let l := default_if expect_infeasible_problem Yes l in
  let l := default_if mu_strategy Adaptive l in
  let l := default_if mu_oracle Probing l in
  let l := default_if honor_original_bounds Yes l in
  match get print_level l with
  | Some v => mkI (i_st s) (i_zero s) (i_strat s) (i_warm s) (i_before s) l (Some (int_of v)) (i_app s) (i_stats s)
  | None => mkI (i_st s) (i_zero s) (i_strat s) (i_warm s) (i_before s) (set print_level (Int 1) true l) (Some 1) (i_app s) (i_stats s)
  end.
(** 106-132: [good] is whether Ipopt accepts the file. *)
Definition ipo_init (file : list (oname * oval)) (good : bool) (s : ipo) : ipo * bool :=
  let s := upd_opts s (read_file file (i_opts s)) in
  if good then
    let s := mkI (i_st s) (i_zero s) (get warm_start (i_opts s)) (i_warm s) (i_before s) (i_opts s) (i_log s) (i_app s) (i_stats s) in
    let s := setMinlpDefaults s in
    (mkI (i_st s) (i_zero s) (i_strat s) (i_warm s) false (i_opts s) (i_log s) (i_app s) (i_stats s), true)
  else (s, false).

(** A problem: which one, and its data now. *)
Record prob := mkPb { pb_id : nat; pb_z : zprob }.
(** What a run of Ipopt would give: code, iterations, time; and whether an interrupt has arrived by then (BonminAbortAll). *)
Record ans := mkA { a_code : ipopt_code; a_iter : nat; a_time : Q; a_abort : bool }.
(** A run of the application: [re]: ReOptimizeTNLP. *)
Definition app_run (re : bool) (p : prob) (a : ans) (s : ipo) : outcome ipo :=
  if (re && negb (match i_app s with Some q => Nat.eqb q (pb_id p) | None => false end))%bool then Thrown
  else Ok (mkI (a_code a) false (i_strat s) (i_warm s) true (i_opts s) (i_log s) (Some (pb_id p)) (Some (a_iter a, a_time a))).
(** 134-177 ([warm]: enable_warm_start_) and 180-222 (ReOptimizeTNLP: always). *)
Definition solve_with (warm : bool) (p : prob) (a : ans) (s : ipo) : outcome (ipo * rstatus) :=
  do z <- zeroDimension (pb_z p);
  do s <- match z with
          | None => app_run (warm && i_before s) p a s
          | Some (r, _) =>
              let st := match r with solvedOptimal => Solve_Succeeded | provenInfeasible => Infeasible_Problem_Detected | _ => i_st s end in
              Ok (mkI st true (i_strat s) (i_warm s) (i_before s) (i_opts s) (i_log s) (i_app s) (i_stats s))
          end;
  let s := if a_abort a then mkI Infeasible_Problem_Detected (i_zero s) (i_strat s) (i_warm s) (i_before s) (i_opts s) (i_log s) (i_app s) (i_stats s) else s in
  Ok (s, solverReturnStatus (i_st s)).
Definition OptimizeTNLP (p : prob) (a : ans) (s : ipo) : outcome (ipo * rstatus) := solve_with (i_warm s) p a s.
Definition ReOptimizeTNLP (p : prob) (a : ans) (s : ipo) : outcome (ipo * rstatus) := solve_with true p a s.
(** 224-257. *)
Definition IterationCount (s : ipo) : nat := if i_zero s then O else match i_stats s with Some (n, _) => n | None => O end.
Definition CPUTime (s : ipo) : Q := if i_zero s then 0%Q else match i_stats s with Some (_, t) => t | None => 0%Q end.
(** 418-430. *)
Definition enableWarmStart (b : bool) (s : ipo) : ipo :=
  mkI (i_st s) (i_zero s) (i_strat s) b (i_before s) (set warm_start_init_point (if b then Yes else No) true (i_opts s)) (i_log s) (i_app s) (i_stats s).
(** 433-444. *)
Definition setOutputToDefault (s : ipo) : outcome ipo :=
  match i_log s with None => Uninit | Some k => Ok (upd_opts s (set print_level (Int k) true (i_opts s))) end.
Definition forceSolverOutput (k : Z) (s : ipo) : ipo := upd_opts s (set print_level (Int k) true (i_opts s)).

(** Calls on one object; a clone takes the place of its original. *)
Inductive iop := IInit (file : list (oname * oval)) (good : bool) | ISolve (p : prob) (a : ans) | IResolve (p : prob) (a : ans)
  | IWarm (b : bool) | IClone | IForce (k : Z) | IDefault.
Definition istep (s : ipo) (o : iop) : outcome (ipo * option rstatus) :=
  match o with
  | IInit f g => Ok (fst (ipo_init f g s), None)
  | ISolve p a => do ' (s, r) <- OptimizeTNLP p a s; Ok (s, Some r)
  | IResolve p a => do ' (s, r) <- ReOptimizeTNLP p a s; Ok (s, Some r)
  | IWarm b => Ok (enableWarmStart b s, None)
  | IClone => Ok (ipo_clone s, None)
  | IForce k => Ok (forceSolverOutput k s, None)
  | IDefault => do s <- setOutputToDefault s; Ok (s, None)
  end.
Fixpoint iops (s : ipo) (l : list iop) : outcome ipo :=
  match l with [] => Ok s | o :: t => do ' (s, _) <- istep s o; iops s t end.

(** ** Names of Ipopt's codes, 451-490 *)
Definition errorNames : list ipopt_code :=   (* the texts, by the code they describe *)
  [Solve_Succeeded; Solved_To_Acceptable_Level; Infeasible_Problem_Detected; Search_Direction_Becomes_Too_Small; Diverging_Iterates;
   User_Requested_Stop; Maximum_Iterations_Exceeded; Restoration_Failed; Error_In_Step_Computation; Not_Enough_Degrees_Of_Freedom;
   Invalid_Problem_Definition; Invalid_Option; Invalid_Number_Detected; Unrecoverable_Exception; NonIpopt_Exception_Thrown;
   Insufficient_Memory; Internal_Error].
(** The numbers of ApplicationReturnStatus (Ipopt, IpReturnCodes_inc.h). *)
Definition errorNum (c : ipopt_code) : option Z :=
  match c with
  | Solve_Succeeded => Some 0 | Solved_To_Acceptable_Level => Some 1 | Infeasible_Problem_Detected => Some 2 | Search_Direction_Becomes_Too_Small => Some 3
  | Diverging_Iterates => Some 4 | User_Requested_Stop => Some 5 | Feasible_Point_Found => Some 6
  | Maximum_Iterations_Exceeded => Some (-1) | Restoration_Failed => Some (-2) | Error_In_Step_Computation => Some (-3)
  | Maximum_CpuTime_Exceeded => Some (-4) | Not_Enough_Degrees_Of_Freedom => Some (-10) | Invalid_Problem_Definition => Some (-11)
  | Invalid_Option => Some (-12) | Invalid_Number_Detected => Some (-13) | Unrecoverable_Exception => Some (-100)
  | NonIpopt_Exception_Thrown => Some (-101) | Insufficient_Memory => Some (-102) | Internal_Error => Some (-199)
  | Other_Code => None
  end.
Definition errorName (n : Z) : outcome ipopt_code :=
  if Z.leb 0 n then rd (Z.to_nat n) errorNames
  else if Z.eqb n (-1) then rd 6 errorNames
  else if Z.eqb n (-2) then rd 7 errorNames
  else if Z.eqb n (-3) then rd 8 errorNames
  else if Z.eqb n (-10) then rd 9 errorNames
  else if Z.eqb n (-11) then rd 10 errorNames
  else if Z.eqb n (-12) then rd 11 errorNames
  else if Z.eqb n (-13) then rd 12 errorNames
  else if Z.eqb n (-100) then rd 13 errorNames
  else if Z.eqb n (-101) then rd 14 errorNames
  else if Z.eqb n (-102) then rd 15 errorNames
  else if Z.eqb n (-199) then rd 16 errorNames
  else Thrown.

(** ** FilterSolver: several objects and the data they share *)
Record fopts := mkFO { fo_eps : Q; fo_infty : Q; fo_ubd : Q; fo_tt : Q; fo_rho : Q; fo_maxiter : Z; fo_iprint : Z; fo_level : option Z }.
(** cachedInfo: the problem, the structure it had (sizes, matrices) when the cache was made, what is read from the options,
    the flag, istat[1] (None: not set) and the time. *)
Record fcache := mkFC { fc_prob : nat; fc_struct : nat; fc_rho : Q; fc_maxiter : Z; fc_iprint : option Z; fc_use : bool;
                        fc_iter : option nat; fc_time : Q }.
Record fsol := mkF { f_opts : fopts; f_log : option Z; f_cache : option fcache; f_warm : option nat }.   (* a warm start: its istat[1] *)
(** Static variables and common blocks, 38-80. *)
Record glob := mkGl { g_prob : option nat; g_struct : nat; g_tol : Q * Q * Q * Q }.
Record proc := mkPr { p_sol : list fsol; p_glob : glob }.
(** What a run of filterSQP works with: the problem evaluated, its structure in the callbacks, the problem told the solution,
    the tolerances, the trust region, the limit and the print level. *)
Record frun := mkR { r_prob : option nat; r_struct : nat; r_arrays : nat; r_final : nat; r_tol : Q * Q * Q * Q; r_rho : Q; r_maxiter : Z; r_iprint : Z }.
Definition tols (o : fopts) : Q * Q * Q * Q := (fo_ubd o, fo_tt o, fo_eps o, fo_infty o).
(** 402-568. *)
Definition initialize (o : fopts) (p str : nat) : fcache * glob :=
  (mkFC p str (fo_rho o) (fo_maxiter o) (Some (fo_iprint o)) false None 0, mkGl (Some p) str (tols o)).
(** 640-655. *)
Definition load_ws (w : option nat) (c : fcache) : fcache :=
  match w with
  | None => c
  | Some n => mkFC (fc_prob c) (fc_struct c) (fc_rho c) (fc_maxiter c) (fc_iprint c) true (Some n) (fc_time c)
  end.
(** 657-707 and 574-580: the run; [n] iterations, [t] seconds. *)
Definition callOptimizer (c : fcache) (g : glob) (n : nat) (t : Q) : outcome (fcache * frun) :=
  match fc_iprint c with
  | None => Uninit
  | Some ip =>
      Ok (mkFC (fc_prob c) (fc_struct c) 10 (fc_maxiter c) (fc_iprint c) false (Some n) t,
          mkR (g_prob g) (g_struct g) (fc_struct c) (fc_prob c) (g_tol g) 10 (fc_maxiter c) ip)
  end.
(** One object, given the shared data. *)
Inductive fop := FInit | FOpt (p str n : nat) (t : Q) | FReopt (p str n : nat) (t : Q) | FWarm (w : option (option nat)) (p str : nat)
  | FDisable | FForce (k : Z) | FDefault.
Definition with_iprint (s : fsol) (k : option Z) : fsol :=
  match f_cache s with
  | None => s
  | Some c => mkF (f_opts s) (f_log s) (Some (mkFC (fc_prob c) (fc_struct c) (fc_rho c) (fc_maxiter c) k (fc_use c) (fc_iter c) (fc_time c))) (f_warm s)
  end.
Definition fstep (s : fsol) (g : glob) (o : fop) : outcome (fsol * glob * option frun) :=
  match o with
  | FInit =>                                                                       (* 311-341 *)
      Ok (mkF (f_opts s) (Some (match fo_level (f_opts s) with Some k => k | None => 1 end)) (f_cache s) (f_warm s), g, None)
  | FOpt p str n t =>                                                              (* 363-372 *)
      let '(c, g) := match f_cache s with
                     | Some c => if fc_use c then (c, g) else initialize (f_opts s) p str
                     | None => initialize (f_opts s) p str
                     end in
      do ' (c, r) <- callOptimizer (load_ws (f_warm s) c) g n t;
      Ok (mkF (f_opts s) (f_log s) (Some c) (f_warm s), g, Some r)
  | FReopt p str n t =>                                                            (* 375-398 *)
      match f_cache s with
      | None => NullDeref
      | Some c =>
          if negb (Nat.eqb p (fc_prob c)) then AssertFail
          else
            let g := mkGl (Some p) (fc_struct c) (g_tol g) in
            do ' (c, r) <- callOptimizer (load_ws (f_warm s) c) g n t;
            Ok (mkF (f_opts s) (f_log s) (Some c) (f_warm s), g, Some r)
      end
  | FWarm w p str =>                                                               (* 725-746; None: no warm start, Some None: an empty one *)
      let '(ca, g) := match w, f_cache s with
                      | None, _ | _, None => let '(c, g) := initialize (f_opts s) p str in (Some c, g)
                      | _, Some c => (Some c, g)
                      end in
      Ok (mkF (f_opts s) (f_log s) ca (match w with None => f_warm s | Some v => v end), g, None)
  | FDisable => Ok (mkF (f_opts s) (f_log s) (f_cache s) None, g, None)            (* hpp 111-115 *)
  | FForce k => Ok (with_iprint s (Some k), g, None)                               (* hpp 149-152 *)
  | FDefault => Ok (with_iprint s (f_log s), g, None)                              (* hpp 144-147 *)
  end.
(** The process: a new object, a copy, a call on an object. *)
Inductive pop := PNew (o : fopts) | PClone (i : nat) | PCall (i : nat) (o : fop).
(** 268-307: the default print level is not set by any constructor. *)
Definition f_new (o : fopts) : fsol := mkF o None None None.
Definition f_clone (s : fsol) : fsol := mkF (f_opts s) None None (f_warm s).
Definition pstep (s : proc) (o : pop) : outcome (proc * option frun) :=
  match o with
  | PNew o => Ok (mkPr (p_sol s ++ [f_new o]) (p_glob s), None)
  | PClone i => do f <- rd i (p_sol s); Ok (mkPr (p_sol s ++ [f_clone f]) (p_glob s), None)
  | PCall i o => do f <- rd i (p_sol s); do ' (f, g, r) <- fstep f (p_glob s) o; do l <- lset i f (p_sol s); Ok (mkPr l g, r)
  end.
Fixpoint pops (s : proc) (l : list pop) : outcome proc :=
  match l with [] => Ok s | o :: t => do ' (s, _) <- pstep s o; pops s t end.
Definition proc0 (t : Q * Q * Q * Q) : proc := mkPr [] (mkGl None 0 t).
(** hpp 133-142. *)
Definition f_iterations (s : fsol) : outcome nat :=
  match f_cache s with None => Ok O | Some c => match fc_iter c with None => Uninit | Some n => Ok n end end.
Definition f_cputime (s : fsol) : Q := match f_cache s with None => 0%Q | Some c => fc_time c end.
