(** What branch-and-bound reports, and when it gives up a branch.
    src/CbcBonmin/BonCbc.cpp 64-75, 509-539 and 593-699 (Bab::branchAndBound, end),
    src/CbcBonmin/BonCbc.hpp 24-29, src/Interfaces/BonTMINLP.hpp 78-84,
    src/CbcBonmin/BonCbcNlpStrategy.cpp 74-155, src/CbcBonmin/BonCbcNode.cpp 29-141.
    Simplifications.  The tree search of Cbc is a record of what it ends with; 1e200 and
    DBL_MAX are +infinity, their negatives -infinity.  Messages, counters and the set-up of Cbc
    are left out.  The second-objective solution lives in the set-up object and survives from
    run to run on the same set-up. *)
From Verif Require Import Base Arr Oad_Model Itf_Model.
#[local] Open Scope Q_scope.

(** ** End of Bab::branchAndBound *)
Inductive ret := SUCCESS | INFEASIBLE | CONTINUOUS_UNBOUNDED | LIMIT_EXCEEDED | USER_INTERRUPT | MINLP_ERROR.
Inductive mip := FeasibleOptimal | ProvenInfeasible | Feasible | UnboundedOrInfeasible | NoSolutionKnown.
(** One run: the part decided outside this file. *)
Record run := mkRun {
  r_fresh : bool;                        (* the set-up has not been used before *)
  r_unsolved : bool;                     (* an UnsolvedError leaves the search *)
  r_abort : bool;                        (* BonminAbortAll *)
  r_nobj : nat;                          (* model_.numberObjects() *)
  r_ncols : nat;                         (* s.nonlinearSolver()->getNumCols() *)
  r_rst : rstatus; r_rx : list Q; r_robj : Q;   (* the relaxation's solver: status, point, objective *)
  r_new2 : option (list Q * Q);          (* best second-objective solution seen in this run *)
  r_sol : option (list Q);               (* model_.bestSolution() *)
  r_obj : ext; r_bound : ext;            (* model_.getObjValue(), getBestPossibleObjValue() *)
  r_timeout : bool;                      (* remaining_time <= 0 *)
  r_status : Z;                          (* model_.status() *)
  r_unbounded : bool }.                  (* model_.isContinuousUnbounded() *)
Record bab := mkBab { b_sol : option (list Q); b_mip : mip; b_obj : ext; b_bound : ext;
                      b_sol2 : list Q; b_obj2 : ext }.     (* the last two belong to the set-up *)
(** Constructor, 64-75: mipStatus_() is the first enumerator. *)
Definition bab_init : bab := mkBab None FeasibleOptimal PInf MInf [] PInf.
(** What finalize_solution receives. *)
Record report := mkRep { p_st : ret; p_sol : option (list Q); p_obj : ext }.

Definition is_opt (s : rstatus) : bool := (st_eqb s solvedOptimal || st_eqb s solvedOptimalTol)%bool.
(** The second-objective solution after the run: replaced if strictly better
    (BonOsiTMINLPInterface.cpp 2735-2739). *)
Definition second (r : run) (b : bab) : list Q * ext :=
  let '(x, o) := if r_fresh r then ([], PInf) else (b_sol2 b, b_obj2 b) in
  match r_new2 r with
  | Some (y, v) => if ext_ltb (Fin v) o then (y, Fin v) else (x, o)
  | None => (x, o)
  end.
(** 511-518 and 532-692.  The result also carries whether the exception is thrown on. *)
Definition bab_run (r : run) (b : bab) : outcome (bool * report * bab) :=
  let '(x2, o2) := second r b in
  if r_unsolved r then                                                     (* 511-519 *)
    Ok (true, mkRep MINLP_ERROR None PInf, mkBab (b_sol b) (b_mip b) (b_obj b) (b_bound b) x2 o2)
  else
  let st := if r_abort r then USER_INTERRUPT else MINLP_ERROR in           (* 593-595 *)
  if Nat.eqb (r_nobj r) 0 then                                             (* 596-630 *)
    if negb (is_opt (r_rst r)) then
      if st_eqb (r_rst r) provenInfeasible then
        Ok (false, mkRep INFEASIBLE None PInf, mkBab None ProvenInfeasible PInf PInf x2 o2)
      else if st_eqb (r_rst r) sUnbounded then
        Ok (false, mkRep CONTINUOUS_UNBOUNDED None MInf, mkBab None UnboundedOrInfeasible MInf MInf x2 o2)
      else Ok (false, mkRep st None PInf, mkBab None NoSolutionKnown PInf MInf x2 o2)
    else
      Ok (false, mkRep SUCCESS (Some (r_rx r)) (Fin (r_robj r)), mkBab (Some (r_rx r)) FeasibleOptimal (Fin (r_robj r)) (Fin (r_robj r)) x2 o2)
  else
    do so <-
      (match x2 with
       | _ :: _ => if Nat.eqb (length x2) (r_ncols r) then Ok (Some x2, o2) else AssertFail              (* 632-641 *)
       | [] => match r_sol r with
               | Some x => if Nat.ltb (length x) (r_ncols r) then OutOfBounds else Ok (Some (firstn (r_ncols r) x), r_obj r)   (* 643-648 *)
               | None => Ok (b_sol b, r_obj r)
               end
       end);
    let sol := fst so in
    let fin s m := Ok (false, mkRep s sol (snd so), mkBab sol m (snd so) (r_bound r) x2 o2) in
    let lim := match sol with Some _ => Feasible | None => NoSolutionKnown end in
    if r_timeout r then fin LIMIT_EXCEEDED lim                                                           (* 649-657 *)
    else if Z.eqb (r_status r) 0 then
      if r_unbounded r then fin CONTINUOUS_UNBOUNDED UnboundedOrInfeasible
      else match sol with Some _ => fin SUCCESS FeasibleOptimal | None => fin INFEASIBLE ProvenInfeasible end
    else if (Z.eqb (r_status r) 1 || Z.eqb (r_status r) 5)%bool then
      fin (if Z.eqb (r_status r) 1 then LIMIT_EXCEEDED else USER_INTERRUPT) lim
    else if Z.eqb (r_status r) 2 then fin MINLP_ERROR (b_mip b)
    else fin st (b_mip b).
(** bestBound(), 697-702. *)
Definition bestBound (b : bab) : ext := match b_mip b with ProvenInfeasible => PInf | _ => b_bound b end.
(** Runs one after the other on the same object; the last report. *)
Fixpoint bab_runs (rs : list run) (b : bab) : outcome (list report * bab) :=
  match rs with
  | [] => Ok ([], b)
  | r :: rs => do x <- bab_run r b; do y <- bab_runs rs (snd x); Ok (snd (fst x) :: fst y, snd y)
  end.

(** ** Failure counters *)
(** Node information: the root has a full one, whose counters are always 0
    (BonCbcNode.cpp 29-47); the others count. *)
Inductive ninfo := NRoot | NPart (inf uns : nat).
Definition n_inf (n : ninfo) : nat := match n with NRoot => 0%nat | NPart i _ => i end.
Definition n_uns (n : ninfo) : nat := match n with NRoot => 0%nat | NPart _ u => u end.
(** Constructor of BonCbcPartialNodeInfo, 106-141. *)
Definition part_make (parent : ninfo) (s : itf) : ninfo :=
  NPart (if isProvenPrimalInfeasible s then S (n_inf parent) else 0)
        (if (isAbandoned s || isIterationLimitReached s)%bool then S (n_uns parent) else 0).
(** Strategy settings, and what status() does: the code returned and the change made to the
    objective value of the problem. *)
Record strat := mkStrat { t_maxFail : nat; t_maxInf : nat; t_pretend : bool }.
Inductive verdict := NoEffect | TreatAsOptimal | TreatAsInfeasible.        (* -1, 0, 2 *)
Inductive forced := Unforced | Branchable | Infeasible.
(** CbcNlpStrategy::status, 80-155; the last component is hasFailed_ becoming true. *)
Definition strat_status (t : strat) (parent : ninfo) (s : itf) : outcome (verdict * forced * bool) :=
  match parent with
  | NRoot => Ok (NoEffect, Unforced, false)                                (* 88: not a partial node *)
  | NPart i u =>
      let solved := negb (isAbandoned s) in
      let u := if isAbandoned s then S u else u in
      let feasible := (isAbandoned s || negb (isProvenPrimalInfeasible s))%bool in
      let i := if (negb (isAbandoned s) && isProvenPrimalInfeasible s)%bool then S i else i in
      let r := (NoEffect, Unforced, false) in
      let r := if (Nat.ltb i (t_maxInf t) && solved && negb feasible)%bool then (TreatAsOptimal, Branchable, false) else r in
      let r := if (negb solved && Nat.leb u (t_maxFail t))%bool then (TreatAsOptimal, Branchable, false) else r in
      if (isAbandoned s && Nat.ltb (t_maxFail t) u)%bool then
        if t_pretend t then Ok (TreatAsInfeasible, Infeasible, true) else Thrown
      else Ok r
  end.
(** Node information along a path, from the root's child to the node. *)
Fixpoint path_info (parent : ninfo) (l : list itf) : ninfo :=
  match l with [] => parent | s :: l => path_info (part_make parent s) l end.
