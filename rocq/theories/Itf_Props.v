(** Theorems: solving through the interface (C24, C29, C30, C62, C63). *)
From Verif Require Import Base Arr Oad_Model Itf_Model Itf_Spec Itf_Proofs.
#[local] Open Scope Q_scope.

(** ** C24 *)
(** False for a negative perturbation radius: the point leaves the bounds. *)
Theorem C24_refuted : ~ C24_full.
Proof.
  intros H. specialize (H PerturbSuffix 10 1 [Fin 0] [Fin 1] [1] (Some [- (3)]) [0] _
    ltac:(discriminate) ltac:(discriminate) ltac:(constructor; [discriminate|constructor]) eq_refl eq_refl eq_refl
    ltac:(constructor; [split; discriminate|constructor]) eq_refl).
  inversion H as [|l u c ls us cs (v & E & L & U) _]. subst. vm_compute in E. injection E as <-. vm_compute in U. apply U. reflexivity.
Qed.
Print Assumptions C24_refuted.
(** What holds: with radii that are not negative every coordinate is inside its bounds,
    finite or not, also when the user's starting point is outside them.
    Missing from C24_full: negative radii. *)
Theorem C24_start_in_bounds_partial : forall t maxR pert cl cu x0 radii draws sol,
  0 <= maxR -> 0 <= pert -> Forall2 box cl cu -> length x0 = length cl -> length draws = length cl ->
  match radii with Some a => length a = length cl /\ (t = PerturbSuffix -> Forall (fun a => 0 <= a) a) | None => True end ->
  Forall (fun r => 0 <= r <= 1) draws ->
  randomStartingPoint t maxR pert cl cu x0 radii draws = Ok sol -> all5 inside cl cu sol.
Proof. exact start_in. Qed.
Print Assumptions C24_start_in_bounds_partial.
(** It fails only when radii are asked for and there are none. *)
Theorem C24_throws_iff : forall t maxR pert cl cu x0 radii draws,
  (exists sol, randomStartingPoint t maxR pert cl cu x0 radii draws = Ok sol) <-> ~ (t = PerturbSuffix /\ radii = None).
Proof.
  intros. unfold randomStartingPoint. destruct t, radii; split; intros H; eauto; try (intros [? ?]; discriminate).
  - destruct H as (s & H). discriminate.
  - exfalso. apply H. auto.
Qed.
Print Assumptions C24_throws_iff.
Example C24_example : randomStartingPoint PerturbSuffix 10 2 [MInf; Fin 3; Fin 0] [Fin 1; PInf; Fin 4] [5; 4; 1] (Some [1; 1; 2]) [1 # 2; 1 # 4; 1 # 2]
  = Ok [Some (-9 # 2); Some (15 # 4); Some (4 # 2)] /\ Forall2 box [MInf; Fin 3; Fin 0] [Fin 1; PInf; Fin 4].
Proof. split; [vm_compute; reflexivity|repeat constructor; discriminate]. Qed.

(** ** C29 *)
Definition aFail (st : rstatus) : answer := mkAns st 1 [] [] false.
Definition pTol (pfi : nat) : prm := mkPrm pfi 0 0 0 0 false false 0 0 true.
(** False: after one tolerated failure every later failure is hidden. *)
Theorem C29_refuted : ~ C29_full.
Proof.
  intros H. specialize (H (fun _ => aFail iterationLimit) (pTol 1) [InitialSolve] _ _ InitialSolve notEnoughFreedom 0%nat
    ltac:(vm_compute; reflexivity) ltac:(vm_compute; reflexivity) ltac:(vm_compute; reflexivity) ltac:(vm_compute; reflexivity)).
  vm_compute in H. discriminate.
Qed.
Print Assumptions C29_refuted.
(** Nor is the very first failure reported when the solver stalls (the stop option is on here). *)
Theorem C29_stalled_refuted : ~ (forall ans p s' junk r, m_pfi p = 0%nat -> istep ans p InitialSolve (itf_init junk r) = Ok s' ->
  failure (n_st (ans 0%nat)) -> o_calls s' = 1%nat -> isAbandoned s' = true).
Proof.
  intros H. specialize (H (fun _ => aFail doesNotConverge) (pTol 0) _ notEnoughFreedom 0%nat eq_refl ltac:(vm_compute; reflexivity) ltac:(vm_compute; reflexivity) ltac:(vm_compute; reflexivity)).
  vm_compute in H. discriminate.
Qed.
Print Assumptions C29_stalled_refuted.
(** What holds.  An operation that returns, not interrupted, and does not start to pretend did not
    end in one of the failure statuses; it starts to pretend only if the option allows and all
    1 + (number of restarts) further calls failed. *)
Theorem C29_return_partial : forall ans p o s s', istep ans p o s = Ok s' -> o_abort s' = false -> o_pret s = false ->
  (o_pret s' = false -> ~ In (o_st s') [iterationLimit; computationError; illDefinedProblem; illegalOption; externalException; sException]) /\
  (o_pret s' = true -> m_pfi p <> 0%nat /\ o_calls s' = (o_calls s + (2 + m_retryUnsolved p))%nat /\
     forall i, (0 < i < 2 + m_retryUnsolved p)%nat -> In (n_st (ans (o_calls s + i)%nat)) [iterationLimit; computationError; illDefinedProblem; illegalOption; externalException; sException]).
Proof.
  intros ans p o s s' H A P.
  assert (X : forall st, abandoned_st st = true <-> In st [iterationLimit; computationError; illDefinedProblem; illegalOption; externalException; sException]).
  { intros st. destruct st; cbv; intuition congruence. }
  destruct (istep_spec _ _ _ _ _ H A) as [[E N]|(M & E & C & F)].
  - split; [intros P'; rewrite <- X, (N P); discriminate|intros P'; congruence].
  - split; [intros P'; congruence|]. intros _. split; [exact M|]. split; [exact C|]. intros i Hi. apply X. exact (F i Hi).
Qed.
Print Assumptions C29_return_partial.
(** With the default option nothing is ever pretended, in any history, and a solve whose
    calls all fail throws. *)
Theorem C29_stop_option_partial : forall ans p os junk r s, m_pfi p = 0%nat -> irun ans p os (itf_init junk r) = Ok s ->
  o_pret s = false /\
  forall o, o_abort s = false -> (forall i, (i < 2 + m_retryUnsolved p)%nat ->
     In (n_st (ans (o_calls s + i)%nat)) [iterationLimit; computationError; illDefinedProblem; illegalOption; externalException; sException] /\ n_abort (ans (o_calls s + i)%nat) = false) ->
  istep ans p o s = Thrown.
Proof.
  intros ans p os junk r s M H. destruct (irun_pret _ _ _ _ _ H) as [I _]. specialize (I M). split; [exact I|].
  intros o A F. apply istep_thrown; auto. intros i Hi. destruct (F i Hi) as [F1 F2]. split; [|exact F2]. unfold afail. destruct (n_st _); cbv in *; intuition congruence.
Qed.
Print Assumptions C29_stop_option_partial.
(** The exact defect: once pretended, always pretended. *)
Theorem C29_sticky : forall ans p os s s', o_pret s = true -> irun ans p os s = Ok s' -> isAbandoned s' = false.
Proof. intros ans p os s s' P H. destruct (irun_pret _ _ _ _ _ H) as [_ I]. unfold isAbandoned. rewrite (I P). reflexivity. Qed.
Print Assumptions C29_sticky.
Example C29_example : (do s <- irun (fun i => aFail (if Nat.eqb i 1 then solvedOptimal else iterationLimit)) (pTol 0) [InitialSolve] (itf_init notEnoughFreedom 0);
  Ok (o_st s, o_calls s, isAbandoned s)) = Ok (solvedOptimal, 2%nat, false).
Proof. vm_compute. reflexivity. Qed.
Example C29_example_throws : istep (fun _ => aFail iterationLimit) (pTol 0) InitialSolve (itf_init notEnoughFreedom 0) = Thrown.
Proof. vm_compute. reflexivity. Qed.

(** ** C30 *)
Definition pDyn : prm := mkPrm 0 0 0 0 0 false true (-1 # 50) (-1 # 20) true.
Definition sOpt : itf := mkItf solvedOptimal (Fin 5) [1] [0] false false false 0 false DecMax 1 false.
(** False: when every restart fails the mean is 0/0, and the cutoff decrement is not a number. *)
Theorem C30_refuted : ~ C30_full.
Proof.
  intros H. destruct (H (fun _ => aFail iterationLimit) pDyn 1%nat sOpt 5 eq_refl) as (s' & E & D & _).
  vm_compute in E. injection E as <-. apply D. reflexivity.
Qed.
Print Assumptions C30_refuted.
(** An unrecoverable error in a restart loses the solution already found. *)
Theorem C30_throw_refuted : ~ (forall ans p k s q, o_obj s = Fin q -> m_rand p = true -> success (o_st s) -> exists s', resolveForCost ans p k s = Ok s').
Proof.
  intros H. destruct (H (fun _ => aFail computationError) pDyn 1%nat sOpt 5 eq_refl eq_refl ltac:(left; reflexivity)) as (s' & E). vm_compute in E. discriminate.
Qed.
Print Assumptions C30_throw_refuted.
(** What holds: when it returns, the object holds the best success among the first solve and
    the restarts that were made (all of them unless interrupted); if there is none, the status
    and point of the first solve, with infinite objective. *)
Theorem C30_best_partial : forall ans p k s s' q, o_obj s = Fin q -> resolveForCost ans p k s = Ok s' ->
  exists j, (j <= k)%nat /\ (j = k \/ o_abort s' = true) /\ o_calls s' = (o_calls s + j)%nat /\
  let l := cand s q :: calls ans (o_calls s) j in
  ((exists a, best_among l a /\ holds_answer a s') \/
   (forall b, In b l -> ~ success (n_st b)) /\ o_st s' = o_st s /\ o_x s' = o_x s /\ o_du s' = o_du s /\ o_obj s' = PInf).
Proof.
  intros ans p k s s' q Q H. destruct (resolveForCost_spec _ _ _ _ _ _ Q H) as (j & J1 & J2 & J3 & J4 & _). exists j. auto.
Qed.
Print Assumptions C30_best_partial.
(** It returns whenever random points can be made and every restart's error is recoverable. *)
Theorem C30_returns_partial : forall ans p k s, m_rand p = true ->
  (forall i, (o_calls s <= i < o_calls s + k)%nat -> ~ In (n_st (ans i)) [illDefinedProblem; notEnoughFreedom; illegalOption; computationError]) ->
  exists s', resolveForCost ans p k s = Ok s'.
Proof.
  intros ans p k s M R. unfold resolveForCost. cbv zeta.
  match goal with |- context [cost_loop ans p k ?c] => destruct (cost_loop_ok ans p M k c) as (c' & E) end.
  - cbn [c_s set_warm o_calls]. intros i Hi. specialize (R i Hi). destruct (n_st (ans i)); try reflexivity; exfalso; apply R; cbn; tauto.
  - rewrite E. cbn [bind]. eauto.
Qed.
Print Assumptions C30_returns_partial.
(** The cutoff decrement, exactly, when not interrupted and nothing was pretended: a percentage of the sum
    of the successful objectives over the number of restarts that neither failed nor were infeasible; not a number
    exactly when there are none of these. *)
Theorem C30_decrement_partial : forall ans p k s s', resolveForCost ans p k s = Ok s' -> o_pret s = false -> o_abort s' = false -> m_dyn p = true -> (0 < k)%nat ->
  let l := calls ans (o_calls s) k in
  let counted := filter (fun a => negb (abandoned_st (n_st a)) && negb (st_eqb (n_st a) provenInfeasible))%bool l in
  (o_decr s' = DecNaN <-> counted = []) /\
  (counted <> [] -> exists d, o_decr s' = DecNum d /\
     let mean := qsum (map n_obj (filter (fun a => opt_st (n_st a)) l)) / inject_Z (Z.of_nat (length counted)) in
     (d == mean * m_perc1 p \/ d == mean * m_perc2 p)).
Proof.
  intros ans p k s s' H P A D K. pose proof (resolveForCost_decr _ _ _ _ _ H P A) as X. destruct k as [|k]; [lia|]. rewrite D in X.
  cbv zeta in X |- *. set (l := calls ans (o_calls s) (S k)) in *. set (counted := filter _ l).
  assert (L : length counted = (S k - nfail l - ninf l)%nat).
  { assert (LL : length l = S k) by (unfold l, calls; rewrite map_length, seq_length; reflexivity). rewrite <- LL. unfold counted, nfail, ninf. clear.
    assert (Y : (length (filter (fun a => abandoned_st (n_st a)) l) + length (filter (fun a => st_eqb (n_st a) provenInfeasible) l) +
                 length (filter (fun a => negb (abandoned_st (n_st a)) && negb (st_eqb (n_st a) provenInfeasible))%bool l) = length l)%nat).
    { induction l as [|a l IH]; [reflexivity|]. cbn [filter]. pose proof (abandoned_not_inf (n_st a)) as N. destruct (abandoned_st (n_st a)); [rewrite (N eq_refl)|destruct (st_eqb _ _)]; cbn [negb andb length]; lia. }
    lia. }
  assert (SS : osum l == qsum (map n_obj (filter (fun a => opt_st (n_st a)) l))).
  { unfold osum. clear. induction l as [|a l IH]; [reflexivity|]. cbn [map filter]. destruct (opt_st _); cbn; rewrite IH; lra. }
  rewrite <- L in X. unfold new_decr in X. destruct counted as [|a0 cnt] eqn:CE; cbn [length] in X.
  - destruct (o_decr s'); [contradiction|contradiction|]. split; [split; auto|]. intros N. contradiction.
  - destruct (o_decr s') as [|d|]; [contradiction| |contradiction]. split; [split; [discriminate|discriminate]|]. intros _. exists d. split; [reflexivity|]. cbn [length].
    destruct (_ || _)%bool; [left|right]; rewrite X, SS; reflexivity.
Qed.
Print Assumptions C30_decrement_partial.
Example C30_example : (do s <- resolveForCost (fun i => mkAns (if Nat.eqb i 2 then provenInfeasible else solvedOptimal) (inject_Z (Z.of_nat (7 - i))) [inject_Z (Z.of_nat i)] [] false) pDyn 3 sOpt;
  Ok (o_st s, o_obj s, o_x s, o_decr s)) = Ok (solvedOptimal, Fin 4, [3], DecNum (-10 # 40)).
Proof. vm_compute. reflexivity. Qed.

(** ** C62 *)
(** False: a copy does not know the status of the solve. *)
Theorem C62_refuted : ~ C62_full.
Proof.
  intros H. destruct (H (fun _ => aFail solvedOptimal) (pTol 0) [JSolve InitialSolve; JClone notEnoughFreedom] notEnoughFreedom 0%nat _
    ltac:(vm_compute; reflexivity) ltac:(eexists; left; reflexivity)) as (b & E). discriminate.
Qed.
Print Assumptions C62_refuted.
(** Exactly: without interrupts the status can be asked iff the last operation was a solve,
    and the answer is that of the solve. *)
Theorem C62_status_partial : forall ans p os junk r s, jrun ans p os (mkObj (itf_init junk r) false) = Ok s -> o_abort (j_itf s) = false ->
  ((exists b, q_optimal s = Ok b) <-> exists os' o, os = os' ++ [JSolve o]) /\
  (forall b, q_optimal s = Ok b -> b = true <-> success (o_st (j_itf s))).
Proof.
  intros ans p os junk r s H A. split; [exact (query_iff _ _ _ _ _ H A)|]. intros b. unfold q_optimal. destruct (j_st s); [|discriminate]. intros E. injection E as <-. apply opt_success.
Qed.
Print Assumptions C62_status_partial.
Example C62_example : (do s <- jrun (fun _ => aFail solvedOptimal) (pTol 0) [JClone notEnoughFreedom; JSolve InitialSolve] (mkObj (itf_init notEnoughFreedom 0) false); q_optimal s) = Ok true.
Proof. vm_compute. reflexivity. Qed.

(** ** C63 *)
(** False: stalling and running out of time are none of the four. *)
Theorem C63_refuted : ~ C63_full.
Proof.
  intros H. specialize (H (fun _ => aFail doesNotConverge) (itf_init notEnoughFreedom 0) _ Search_Direction_Becomes_Too_Small eq_refl eq_refl eq_refl ltac:(vm_compute; reflexivity)).
  vm_compute in H. discriminate.
Qed.
Print Assumptions C63_refuted.
(** What holds: every other code that does not throw is exactly one of the four; those two are none;
    the codes that throw are the unrecoverable ones. *)
Theorem C63_classified_partial : forall ans s c, n_st (ans (o_calls s)) = solverReturnStatus c -> o_abort s = false -> o_pret s = false ->
  let l := [Error_In_Step_Computation; Unrecoverable_Exception; Insufficient_Memory; Not_Enough_Degrees_Of_Freedom; Invalid_Problem_Definition; Invalid_Option; Invalid_Number_Detected] in
  (In c l -> solveAndCheckErrors ans s = Thrown) /\
  (~ In c l -> exists s', solveAndCheckErrors ans s = Ok s' /\
     (exactly_one (answers_of s') <-> c <> Search_Direction_Becomes_Too_Small /\ c <> Maximum_CpuTime_Exceeded) /\
     (isProvenOptimal s' = true <-> In c [Solve_Succeeded; Solved_To_Acceptable_Level; Feasible_Point_Found]) /\
     (isProvenPrimalInfeasible s' = true <-> c = Infeasible_Problem_Detected) /\
     (isProvenDualInfeasible s' = true <-> c = Diverging_Iterates)).
Proof.
  intros ans s c E A P l. unfold l, solveAndCheckErrors. rewrite A, E. split.
  - intros I. destruct c; try reflexivity; cbv in I; intuition discriminate.
  - intros N. assert (R : isRecoverable (solverReturnStatus c) = true) by (destruct c; try reflexivity; exfalso; apply N; cbn; tauto).
    rewrite R. cbn [negb]. eexists. split; [reflexivity|].
    unfold exactly_one, answers_of, isProvenOptimal, isProvenPrimalInfeasible, isProvenDualInfeasible, isAbandoned. cbn [o_pret o_st]. rewrite P.
    destruct c; try (exfalso; apply N; cbn; tauto); cbn; intuition congruence.
Qed.
Print Assumptions C63_classified_partial.
Example C63_example : solveAndCheckErrors (fun _ => aFail (solverReturnStatus Diverging_Iterates)) (itf_init notEnoughFreedom 0)
  = Ok (mkItf sUnbounded (Fin 1) [] [] false false true 0 false DecMax 1 false).
Proof. vm_compute. reflexivity. Qed.
