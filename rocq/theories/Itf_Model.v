(** Solving an NLP through the solver interface.
    src/Interfaces/BonOsiTMINLPInterface.cpp 836-1093 (resolveForCost,
    resolveForRobustness), 1749-1795 (randomStartingPoint), 2608-2900
    (solveAndCheckErrors, initialSolve, resolve), 2907-2955 (status queries);
    src/Interfaces/BonTNLPSolver.hpp 29-44 and 202, BonTNLPSolver.cpp 252-255;
    src/Interfaces/Ipopt/BonIpoptSolver.cpp 304-343.
    Simplifications.  Doubles are exact rationals with explicit infinities (DBL_MAX is
    +infinity); not-a-number is an explicit value where the code can produce it.  The
    NLP solver is an oracle giving the answer of the k-th call.  No row-cut debugger,
    no debug solvers (debug_apps_ empty, testOthers_ off), no second objective, the
    statistics query succeeds, a stored warm start is valid.  Messages, times and the
    restoring of the used warm start are left out. *)
From Verif Require Import Base Arr Oad_Model.
#[local] Open Scope Q_scope.

(** ** Statuses *)
(** TNLPSolver::ReturnStatus, BonTNLPSolver.hpp 29-44. *)
Inductive rstatus := iterationLimit | timeLimit | doesNotConverge | computationError | notEnoughFreedom
  | illDefinedProblem | illegalOption | externalException | sException
  | solvedOptimal | solvedOptimalTol | provenInfeasible | sUnbounded.
(** The numeric codes. *)
Definition code (s : rstatus) : Z :=
  match s with
  | iterationLimit => -3 | timeLimit => 5 | doesNotConverge => -8 | computationError => -2 | notEnoughFreedom => -1
  | illDefinedProblem => -4 | illegalOption => -5 | externalException => -6 | sException => -7
  | solvedOptimal => 1 | solvedOptimalTol => 2 | provenInfeasible => 3 | sUnbounded => 4
  end%Z.
Definition st_eqb (a b : rstatus) : bool := Z.eqb (code a) (code b).
(** isError, BonTNLPSolver.hpp 202. *)
Definition isError (s : rstatus) : bool := Z.ltb (code s) 0.
(** isRecoverable, BonTNLPSolver.cpp 252-255. *)
Definition isRecoverable (r : rstatus) : bool :=
  (Z.leb 0 (code r) || (negb (st_eqb r illDefinedProblem) && negb (st_eqb r notEnoughFreedom) && negb (st_eqb r illegalOption) &&
     negb (st_eqb r computationError) && negb (st_eqb r timeLimit)))%bool.

(** Ipopt::ApplicationReturnStatus. *)
Inductive ipopt_code := Solve_Succeeded | Solved_To_Acceptable_Level | Infeasible_Problem_Detected | Search_Direction_Becomes_Too_Small
  | Diverging_Iterates | User_Requested_Stop | Feasible_Point_Found | Maximum_Iterations_Exceeded | Restoration_Failed
  | Error_In_Step_Computation | Maximum_CpuTime_Exceeded | Not_Enough_Degrees_Of_Freedom | Invalid_Problem_Definition
  | Invalid_Option | Invalid_Number_Detected | Unrecoverable_Exception | NonIpopt_Exception_Thrown | Insufficient_Memory | Internal_Error
  | Other_Code.
(** solverReturnStatus, BonIpoptSolver.cpp 304-343. *)
Definition solverReturnStatus (c : ipopt_code) : rstatus :=
  match c with
  | Maximum_Iterations_Exceeded | User_Requested_Stop | Restoration_Failed => iterationLimit
  | Error_In_Step_Computation | Unrecoverable_Exception | Insufficient_Memory => computationError
  | Not_Enough_Degrees_Of_Freedom => notEnoughFreedom
  | Invalid_Problem_Definition => illDefinedProblem
  | Invalid_Option | Invalid_Number_Detected => illegalOption
  | NonIpopt_Exception_Thrown => externalException
  | Internal_Error => sException
  | Solve_Succeeded | Feasible_Point_Found => solvedOptimal
  | Search_Direction_Becomes_Too_Small => doesNotConverge
  | Solved_To_Acceptable_Level => solvedOptimalTol
  | Infeasible_Problem_Detected => provenInfeasible
  | Diverging_Iterates => sUnbounded
  | Maximum_CpuTime_Exceeded => timeLimit
  | Other_Code => sException
  end.

(** ** Random starting points *)
Inductive rgtype := Uniform | Perturb | PerturbSuffix.
(** lower, upper and the draw give the coordinate; [None] when one of them is not finite
    (the C++ value is infinite or not a number). *)
Definition between (lower upper : ext) (r : Q) : option Q :=
  match lower, upper with
  | Fin l, Fin u => Some (r * (u - l) + l)
  | _, _ => None
  end.
(** One coordinate, 1766-1790: bounds, x_init_user, radius suffix, draw. *)
Definition random_coord (t : rgtype) (maxR pert : Q) (cl cu : ext) (x0 rad r : Q) : option Q :=
  if (match t with Uniform => true | _ => false end || ext_ltb (Fin x0) cl || ext_ltb cu (Fin x0))%bool then
    let lower := emin (Fin (- maxR)) (eplus cu (- maxR)) in
    let lower := emax cl lower in
    let upper := emax (Fin maxR) (eplus cl maxR) in
    let upper := emin cu upper in
    let lower := emin upper lower in
    let upper := emax upper lower in
    between lower upper r
  else
    let p := match t with PerturbSuffix => rad * pert | _ => pert end in
    let lower := emax (Fin (x0 - p)) cl in
    let upper := emin (Fin (x0 + p)) cu in
    between lower upper r.
(** randomStartingPoint, 1749-1795; [radii] is the suffix, if any. *)
Fixpoint random_coords (t : rgtype) (maxR pert : Q) (cl cu : list ext) (x0 radii draws : list Q) : list (option Q) :=
  match cl, cu, x0, radii, draws with
  | l :: cl, u :: cu, x :: x0, a :: radii, r :: draws =>
      random_coord t maxR pert l u x a r :: random_coords t maxR pert cl cu x0 radii draws
  | _, _, _, _, _ => []
  end.
Definition randomStartingPoint (t : rgtype) (maxR pert : Q) (cl cu : list ext) (x0 : list Q) (radii : option (list Q)) (draws : list Q) : outcome (list (option Q)) :=
  match t, radii with
  | PerturbSuffix, None => Thrown                                             (* 1758-1762 *)
  | PerturbSuffix, Some a => Ok (random_coords t maxR pert cl cu x0 a draws)
  | _, _ => Ok (random_coords t maxR pert cl cu x0 (repeat 0 (length cl)) draws)
  end.

(** ** The interface object *)
(** What one call of the NLP solver leaves: its status, the objective, primal and dual
    values stored in the problem, and whether an interrupt arrived during the call. *)
Record answer := mkAns { n_st : rstatus; n_obj : Q; n_x : list Q; n_du : list Q; n_abort : bool }.
(** newCutoffDecr: COIN_DBL_MAX, a number, or not a number. *)
Inductive decr := DecMax | DecNum (q : Q) | DecNaN.
Record itf := mkItf {
  o_st : rstatus;            (* optimizationStatus_ *)
  o_obj : ext;               (* problem_->obj_value() *)
  o_x : list Q; o_du : list Q;
  o_pret : bool;             (* pretendSucceededNext_ *)
  o_cont : bool;             (* hasContinuedAfterNlpFailure_ *)
  o_first : bool;            (* firstSolve_ *)
  o_retryInit : nat;         (* numRetryInitial_ *)
  o_warm : bool;             (* warmstart_ != NULL *)
  o_decr : decr;             (* newCutoffDecr *)
  o_calls : nat;             (* nCallOptimizeTNLP_ *)
  o_abort : bool }.          (* BonminAbortAll *)
(** Options. *)
Record prm := mkPrm {
  m_pfi : nat;               (* pretendFailIsInfeasible_ : 0 stop, 1 fathom, 2 ignore *)
  m_retryResolve : nat; m_retryUnsolved : nat; m_retryInfeas : nat;
  m_eps : Q;                 (* infeasibility_epsilon_ *)
  m_optimum : bool;          (* warmStartMode_ >= Optimum *)
  m_dyn : bool; m_perc1 : Q; m_perc2 : Q;
  m_rand : bool }.           (* randomStartingPoint does not throw *)

Section Solve.
Variable ans : nat -> answer.
Variable p : prm.

(** 2907-2955 *)
Definition abandoned_st (s : rstatus) : bool :=
  (st_eqb s iterationLimit || st_eqb s computationError || st_eqb s illDefinedProblem || st_eqb s illegalOption ||
   st_eqb s externalException || st_eqb s sException)%bool.
Definition isAbandoned (s : itf) : bool := if o_pret s then false else abandoned_st (o_st s).
Definition opt_st (s : rstatus) : bool := (st_eqb s solvedOptimal || st_eqb s solvedOptimalTol)%bool.
Definition isProvenOptimal (s : itf) : bool := opt_st (o_st s).
Definition isProvenPrimalInfeasible (s : itf) : bool := st_eqb (o_st s) provenInfeasible.
Definition isProvenDualInfeasible (s : itf) : bool := st_eqb (o_st s) sUnbounded.
Definition isIterationLimitReached (s : itf) : bool := st_eqb (o_st s) iterationLimit.

Definition set_warm (b : bool) (s : itf) : itf :=
  mkItf (o_st s) (o_obj s) (o_x s) (o_du s) (o_pret s) (o_cont s) (o_first s) (o_retryInit s) b (o_decr s) (o_calls s) (o_abort s).

(** solveAndCheckErrors, 2608-2766. *)
Definition solveAndCheckErrors (s : itf) : outcome itf :=
  if o_abort s then Ok s
  else
    let a := ans (o_calls s) in
    if negb (isRecoverable (n_st a)) then Thrown
    else Ok (mkItf (n_st a) (Fin (n_obj a)) (n_x a) (n_du a) (o_pret s) (o_cont s) (o_first s) (o_retryInit s) (o_warm s) (o_decr s)
                   (S (o_calls s)) (n_abort a)).

(** The loop of resolveForCost, 879-937. *)
Record cost := mkCost { c_s : itf; c_best : ext; c_x : list Q; c_du : list Q; c_st : rstatus; c_fail : nat; c_inf : nat; c_mean : Q; c_of : list Q }.
Fixpoint cost_loop (k : nat) (c : cost) : outcome cost :=
  match k with
  | O => Ok c
  | S k =>
      if negb (m_rand p) then Thrown else
      do s <- solveAndCheckErrors (c_s c);
      let better := (isProvenOptimal s && ext_ltb (o_obj s) (c_best c))%bool in
      let o := match o_obj s with Fin q => q | _ => 0 end in
      cost_loop k (mkCost s
        (if better then o_obj s else c_best c) (if better then o_x s else c_x c) (if better then o_du s else c_du c) (if better then o_st s else c_st c)
        (if isAbandoned s then S (c_fail c) else c_fail c)
        (if isAbandoned s then c_inf c else if isProvenPrimalInfeasible s then S (c_inf c) else c_inf c)
        (if isProvenOptimal s then c_mean c + o else c_mean c)
        (c_of c ++ [if isProvenOptimal s then o else 0]))
  end.
(** 941-969: the new cutoff decrement.  [d] is numsolve-num_failed-num_infeas.  The test
    var_coeff < 0.1 is written without the square root: std_dev/mean < 0.1 iff mean < 0 and
    std_dev is a number, or mean > 0 and variance < 0.01 mean^2; x/0 is infinite or not a number, and
    then the test is false. *)
Definition new_decr (sum : Q) (of : list Q) (d : nat) : decr :=
  match d with
  | O => DecNaN                                (* 0/0: mean is not a number *)
  | _ =>
      let dq := inject_Z (Z.of_nat d) in
      let mean := sum / dq in
      let var := qsum (map (fun v => if Qeq_bool v 0 then 0 else (v - mean) * (v - mean)) of) / dq in
      let small := (Qltb mean 0 || (Qltb 0 mean && Qltb var ((1 # 100) * (mean * mean))))%bool in
      DecNum (mean * (if small then m_perc1 p else m_perc2 p))
  end.
(** resolveForCost, 836-986.  keepWarmStart only governs the used warm start. *)
Definition resolveForCost (numsolve : nat) (s : itf) : outcome itf :=
  let s := set_warm false s in
  do c <- cost_loop numsolve (mkCost s (if isProvenOptimal s then o_obj s else PInf) (o_x s) (o_du s) (o_st s) 0 0 0 []);
  let s' := c_s c in
  let dec := match numsolve with
             | O => o_decr s'
             | _ => if m_dyn p then new_decr (c_mean c) (c_of c) (numsolve - c_fail c - c_inf c) else o_decr s'
             end in
  Ok (mkItf (c_st c) (c_best c) (c_x c) (c_du c) (o_pret s') (o_cont s') (o_first s') (o_retryInit s') (o_warm s') dec (o_calls s') (o_abort s')).

(** resolveForRobustness, 989-1093: the random restarts, then the end. *)
Definition give_up (s : itf) : outcome itf :=
  match m_pfi p with
  | O => Thrown
  | k => Ok (mkItf (o_st s) (o_obj s) (o_x s) (o_du s) true (if Nat.eqb k 1 then true else o_cont s) (o_first s) (o_retryInit s) (o_warm s) (o_decr s) (o_calls s) (o_abort s))
  end.
Fixpoint robust_loop (k : nat) (s : itf) : outcome itf :=
  match k with
  | O => give_up s
  | S k =>
      if negb (m_rand p) then Thrown else
      do s <- solveAndCheckErrors s;
      if negb (isAbandoned s) then Ok s else robust_loop k s
  end.
Definition resolveForRobustness (numsolve : nat) (s : itf) : outcome itf :=
  do s <- solveAndCheckErrors (set_warm false s);
  if negb (isAbandoned s) then Ok s else robust_loop numsolve s.

Definition end_solve (s : itf) : itf :=
  if (negb (o_warm s) && negb (isAbandoned s) && m_optimum p)%bool then set_warm true s else s.
(** initialSolve, 2778-2838. *)
Definition initialSolve (s : itf) : outcome itf :=
  if o_abort s then Ok s else
  do s <- solveAndCheckErrors (set_warm false s);
  if o_abort s then Ok s else
  let numRetry := if o_first s then o_retryInit s else m_retryResolve p in
  do s <-
    (if (isAbandoned s || (isProvenPrimalInfeasible s && ext_ltb (o_obj s) (Fin (m_eps p))))%bool then resolveForRobustness (m_retryUnsolved p) s
     else match numRetry with
          | O => Ok s
          | k => do s <- resolveForCost k s;
                 Ok (mkItf (o_st s) (o_obj s) (o_x s) (o_du s) (o_pret s) (o_cont s) (o_first s) 0 (o_warm s) (o_decr s) (o_calls s) (o_abort s))
          end);
  Ok (end_solve (mkItf (o_st s) (o_obj s) (o_x s) (o_du s) (o_pret s) (o_cont s) false (o_retryInit s) (o_warm s) (o_decr s) (o_calls s) (o_abort s))).
(** resolve, 2850-2900. *)
Definition resolve (s : itf) : outcome itf :=
  if o_abort s then Ok s else
  if negb (o_warm s) then initialSolve s else
  do s <- solveAndCheckErrors (set_warm false s);
  do s <-
    (if (isAbandoned s || (ext_ltb (o_obj s) (Fin (1 # 1000000)) && isProvenPrimalInfeasible s))%bool then resolveForRobustness (m_retryUnsolved p) s
     else if (negb (Nat.eqb (m_retryResolve p) 0) || (negb (Nat.eqb (m_retryInfeas p) 0) && isProvenPrimalInfeasible s))%bool
          then resolveForCost (Nat.max (m_retryResolve p) (m_retryInfeas p)) s
          else Ok s);
  Ok (end_solve s).

(** Histories of solves. *)
Inductive iop := InitialSolve | Resolve.
Definition istep (o : iop) (s : itf) : outcome itf := match o with InitialSolve => initialSolve s | Resolve => resolve s end.
Fixpoint irun (os : list iop) (s : itf) : outcome itf :=
  match os with [] => Ok s | o :: os => do s <- istep o s; irun os s end.
End Solve.

(** The state after construction, 372-430.  optimizationStatus_ is not in the
    initialiser list, so it has whatever value [junk] the memory had. *)
Definition itf_init (junk : rstatus) (retryInit : nat) : itf := mkItf junk PInf [] [] false false true retryInit false DecMax 0 false.

(** ** Copies *)
(** The object together with whether optimizationStatus_ was ever written. *)
Record obj := mkObj { j_itf : itf; j_st : bool }.
Inductive jop := JSolve (o : iop) | JClone (junk : rstatus).
(** Copy constructor, 536-640: optimizationStatus_ is not copied; firstSolve_ is set.
    The call counter restarts in the code; here it goes on, since it only numbers the
    answers of the oracle. *)
Definition clone_itf (junk : rstatus) (s : itf) : itf :=
  mkItf junk (o_obj s) (o_x s) (o_du s) (o_pret s) (o_cont s) true (o_retryInit s) (o_warm s) (o_decr s) (o_calls s) (o_abort s).
Definition jstep (ans : nat -> answer) (p : prm) (o : jop) (s : obj) : outcome obj :=
  match o with
  | JSolve o => do t <- istep ans p o (j_itf s); Ok (mkObj t (j_st s || negb (o_abort (j_itf s))))
  | JClone junk => Ok (mkObj (clone_itf junk (j_itf s)) false)
  end.
Fixpoint jrun (ans : nat -> answer) (p : prm) (os : list jop) (s : obj) : outcome obj :=
  match os with [] => Ok s | o :: os => do s <- jstep ans p o s; jrun ans p os s end.
(** isProvenOptimal, 2923-2927, read through the object. *)
Definition q_optimal (s : obj) : outcome bool := if j_st s then Ok (isProvenOptimal (j_itf s)) else Uninit.
