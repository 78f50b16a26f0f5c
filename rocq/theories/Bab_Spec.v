(** Specifications for the reports of branch-and-bound. *)
From Verif Require Import Base Arr Oad_Model Itf_Model Bab_Model.
#[local] Open Scope Q_scope.

(** The solutions a run found, with their objective values. *)
Definition found (r : run) (x : list Q) (o : ext) : Prop :=
  (r_nobj r = 0%nat /\ (r_rst r = solvedOptimal \/ r_rst r = solvedOptimalTol) /\ x = r_rx r /\ o = Fin (r_robj r)) \/
  (r_nobj r <> 0%nat /\ ((exists v, r_new2 r = Some (x, v) /\ o = Fin v) \/ (exists y, r_sol r = Some y /\ x = firstn (r_ncols r) y /\ o = r_obj r))).
(** The search covered the whole tree. *)
Definition exhausted (r : run) : Prop :=
  r_unsolved r = false /\ r_abort r = false /\
  (if Nat.eqb (r_nobj r) 0 then r_rst r = provenInfeasible else r_timeout r = false /\ r_status r = 0%Z).
(** A sound report for run r. *)
Definition sound_report (r : run) (p : report) : Prop :=
  (forall x, p_sol p = Some x -> found r x (p_obj p)) /\
  (p_st p = SUCCESS -> p_sol p <> None) /\
  (p_st p = INFEASIBLE -> (forall x o, ~ found r x o) /\ exhausted r) /\
  (r_unsolved r = false -> r_nobj r <> 0%nat -> (r_timeout r = true \/ r_status r = 1%Z) -> p_st p = LIMIT_EXCEEDED) /\
  (r_unsolved r = false -> r_nobj r <> 0%nat -> r_timeout r = false -> r_status r = 5%Z -> p_st p = USER_INTERRUPT).
(** The data of a run are well formed: the solutions have the right size. *)
Definition run_ok (r : run) : Prop :=
  (forall x, r_sol r = Some x -> (r_ncols r <= length x)%nat) /\
  (forall x v, r_new2 r = Some (x, v) -> length x = r_ncols r) /\ (0 < r_ncols r)%nat.
(** C27 in full: each report of each sequence of runs is sound. *)
Definition C27_full : Prop := forall rs ps b, Forall run_ok rs -> bab_runs rs bab_init = Ok (ps, b) -> Forall2 sound_report rs ps.

(** The object's own status against the last report. *)
Definition agrees (m : mip) (p : report) : Prop :=
  match p_st p with
  | SUCCESS => m = FeasibleOptimal
  | INFEASIBLE => m = ProvenInfeasible
  | CONTINUOUS_UNBOUNDED => m = UnboundedOrInfeasible
  | LIMIT_EXCEEDED | USER_INTERRUPT | MINLP_ERROR => m = match p_sol p with Some _ => Feasible | None => NoSolutionKnown end
  end.
Definition C64_full : Prop := forall rs ps b p, Forall run_ok rs -> bab_runs rs bab_init = Ok (ps ++ [p], b) -> agrees (b_mip b) p.

(** Length of the run of nodes satisfying f at the end of a path. *)
Fixpoint leading {A} (f : A -> bool) (l : list A) : nat := match l with a :: l => if f a then S (leading f l) else 0 | [] => 0 end.
Definition trailing {A} (f : A -> bool) (l : list A) : nat := leading f (rev l).
Definition infeasible_node (s : itf) : bool := match o_st s with provenInfeasible => true | _ => false end.
(** C28 in full, as documented: an infeasible (failed) node is branched on exactly as long as fewer than the
    limit of consecutive nodes of its path, itself included, were infeasible (failed). *)
Definition C28_full : Prop := forall t l s, o_pret s = false -> Forall (fun s => o_pret s = false) l ->
  (infeasible_node s = true -> (exists f h, strat_status t (path_info NRoot l) s = Ok (TreatAsOptimal, f, h)) <-> (trailing infeasible_node (l ++ [s]) < t_maxInf t)%nat) /\
  (isAbandoned s = true -> (exists f h, strat_status t (path_info NRoot l) s = Ok (TreatAsOptimal, f, h)) <-> (trailing isAbandoned (l ++ [s]) < t_maxFail t)%nat).
