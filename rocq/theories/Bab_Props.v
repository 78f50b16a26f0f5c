(** Theorems: reports of branch-and-bound (C27, C64) and failure rules (C28). *)
From Verif Require Import Base Arr Oad_Model Itf_Model Itf_Spec Itf_Proofs Bab_Model Bab_Spec Bab_Proofs.
#[local] Open Scope Q_scope.

(** ** C27 *)
Definition rFound : run := mkRun true false false 1 1 solvedOptimal [1 # 2] 0 None (Some [1]) (Fin 3) (Fin 3) false 0 false.
Definition rNone : run := mkRun true false false 1 1 solvedOptimal [1 # 2] 0 None None PInf (Fin 3) false 0 false.
Definition rStop : run := mkRun true false true 0 1 provenInfeasible [1 # 2] 0 None None PInf PInf false (-1) false.
Example run_ok_ex : run_ok rFound /\ run_ok rNone /\ run_ok rStop.
Proof. repeat split; cbn; intros; try discriminate; try lia; injection H as <-; cbn; lia. Qed.
(** False: the second run of an object reports the first run's solution as its own success. *)
Theorem C27_refuted : ~ C27_full.
Proof.
  intros H. destruct run_ok_ex as (R1 & R2 & _).
  specialize (H [rFound; rNone] _ _ ltac:(repeat constructor; try exact (proj1 R1); try exact (proj1 R2); cbn; try lia; intros; discriminate) ltac:(vm_compute; reflexivity)).
  inversion H as [|? ? ? ? _ H1]; subst. inversion H1 as [|? ? ? ? (S & _) _]; subst.
  specialize (S [1] eq_refl). destruct S as [(N & _)|(_ & [(v & E & _)|(y & E & _)])]; cbn in *; discriminate.
Qed.
Print Assumptions C27_refuted.
(** Nor is a single run sound when interrupted: without integer objects the interrupt is reported
    as infeasibility (the NLP solver answers infeasible after an interrupt). *)
Theorem C27_interrupt_refuted : ~ (forall r p t b, run_ok r -> r_fresh r = true -> bab_run r bab_init = Ok (t, p, b) -> r_abort r = true -> p_st p <> INFEASIBLE).
Proof. intros H. exact (H rStop _ _ _ (proj2 (proj2 run_ok_ex)) eq_refl ltac:(vm_compute; reflexivity) eq_refl eq_refl). Qed.
Print Assumptions C27_interrupt_refuted.
(** What holds: a run on an object that holds no solution (in particular the first), with a fresh
    set-up and no interrupt, ends with a sound report. *)
Theorem C27_first_run_partial : forall r b, run_ok r -> r_fresh r = true ->
  exists t p b', bab_run r b = Ok (t, p, b') /\ (r_abort r = false -> b_sol b = None \/ r_nobj r = 0%nat -> sound_report r p).
Proof.
  intros r b R F. destruct (bab_run_ok r b R F) as ([[t p] b'] & E). exists t, p, b'. split; [exact E|]. intros A B. exact (first_sound _ _ _ _ _ R F B A E).
Qed.
Print Assumptions C27_first_run_partial.
(** The exact defect: after any sequence of runs with objects, the solution reported is that of the last
    run which found one. *)
Theorem C27_last_found_partial : forall rs ps p b, Forall (fun r => run_ok r /\ r_fresh r = true /\ r_unsolved r = false /\ r_nobj r <> 0%nat) rs ->
  bab_runs rs bab_init = Ok (ps ++ [p], b) -> p_sol p = last_found rs None.
Proof. intros rs ps p b F H. rewrite (runs_report _ _ _ _ _ F H). exact (runs_last _ _ _ _ F H). Qed.
Print Assumptions C27_last_found_partial.
(** The solution for a second objective, kept from run to run in the same set-up: the best
    value seen so far, with a point that was reported with it. *)
Lemma run_second r b t p b' : bab_run r b = Ok (t, p, b') -> (b_sol2 b', b_obj2 b') = second r b.
Proof.
  unfold bab_run. destruct (second r b) as [x2 o2]. intros H.
  repeat match type of H with
  | (if ?c then _ else _) = _ => destruct c
  | bind _ _ = _ => apply bind_ok in H as (? & _ & H)
  | (let _ := _ in _) = _ => cbv zeta in H
  | (match ?c with _ => _ end) = _ => destruct c
  end; try discriminate H; try (injection H as <- <- <-; reflexivity).
Qed.
Theorem C27_second_partial : forall rs b ps b', Forall (fun r => r_fresh r = false) rs -> bab_runs rs b = Ok (ps, b') ->
  ext_ltb (b_obj2 b) (b_obj2 b') = false /\
  (forall r y v, In r rs -> r_new2 r = Some (y, v) -> ext_ltb (Fin v) (b_obj2 b') = false) /\
  ((b_sol2 b', b_obj2 b') = (b_sol2 b, b_obj2 b) \/ exists r y v, In r rs /\ r_new2 r = Some (y, v) /\ (b_sol2 b', b_obj2 b') = (y, Fin v)).
Proof.
  assert (REFL : forall e, ext_ltb e e = false) by (intros [|q|]; cbn; auto; apply Qltb_ge; apply Qle_refl).
  assert (TR : forall a m c, ext_ltb a m = false -> ext_ltb m c = false -> ext_ltb a c = false).
  { intros [|a|] [|m|] [|c|]; cbn; auto; try discriminate. rewrite !Qltb_ge. lra. }
  induction rs as [|r rs IH]; intros b ps b' F H.
  - injection H as <- <-. split; [apply REFL|]. split; [intros r y v []|left; reflexivity].
  - cbn [bab_runs] in H. apply bind_ok in H as ([[t p] b1] & E & H). apply bind_ok in H as ([qs b2] & E' & H). injection H as _ <-. cbn [snd fst] in *.
    destruct (IH _ _ _ (Forall_inv_tail F) E') as (A & B & C). pose proof (Forall_inv F) as FR. cbv beta in FR.
    apply run_second in E. unfold second in E. rewrite FR in E.
    assert (S1 : ext_ltb (b_obj2 b) (b_obj2 b1) = false /\ (forall y v, r_new2 r = Some (y, v) -> ext_ltb (Fin v) (b_obj2 b1) = false) /\
                 ((b_sol2 b1, b_obj2 b1) = (b_sol2 b, b_obj2 b) \/ exists y v, r_new2 r = Some (y, v) /\ (b_sol2 b1, b_obj2 b1) = (y, Fin v))).
    { destruct (r_new2 r) as [[y v]|].
      - destruct (ext_ltb (Fin v) (b_obj2 b)) eqn:LT; injection E as E1 E2; rewrite E1, E2.
        + split; [destruct (b_obj2 b) as [|q|]; cbn in *; auto; try discriminate; apply Qltb_ge; apply Qltb_lt in LT; lra|].
          split; [intros y' v' X; injection X as <- <-; apply REFL|]. right. exists y, v. auto.
        + split; [apply REFL|]. split; [intros y' v' X; injection X as <- <-; exact LT|left; reflexivity].
      - injection E as E1 E2. rewrite E1, E2. split; [apply REFL|]. split; [discriminate|left; reflexivity]. }
    destruct S1 as (S1 & S2 & S3). split; [exact (TR _ _ _ S1 A)|]. split.
    + intros r' y v [<-|I] X; [exact (TR _ _ _ (S2 y v X) A)|exact (B r' y v I X)].
    + destruct C as [C|(r' & y & v & I & X & C)].
      * rewrite C. destruct S3 as [S3|(y & v & X & S3)]; [left; exact S3|]. right. exists r, y, v. split; [left; reflexivity|auto].
      * right. exists r', y, v. split; [right; exact I|auto].
Qed.
Print Assumptions C27_second_partial.
Example C27_second_example : (do x <- bab_runs [mkRun false false false 1 1 solvedOptimal [1 # 2] 0 (Some ([1], 5)) (Some [1]) (Fin 3) (Fin 3) false 0 false;
    mkRun false false false 1 1 solvedOptimal [1 # 2] 0 (Some ([0], 7)) (Some [1]) (Fin 3) (Fin 3) false 0 false] bab_init; Ok (b_sol2 (snd x), b_obj2 (snd x))) = Ok ([1], Fin 5).
Proof. vm_compute. reflexivity. Qed.
Example C27_example : (do x <- bab_runs [rFound; rNone] bab_init; Ok (map p_st (fst x), map p_sol (fst x))) = Ok ([SUCCESS; SUCCESS], [Some [1]; Some [1]]).
Proof. vm_compute. reflexivity. Qed.
Example C27_example_fresh : (do x <- bab_run rNone bab_init; Ok (p_st (snd (fst x)))) = Ok INFEASIBLE.
Proof. vm_compute. reflexivity. Qed.

(** ** C64 *)
Definition rError : run := mkRun true false false 1 1 solvedOptimal [1 # 2] 0 None None PInf MInf false 2 false.
(** False: after a run that ends in an error the object says optimal. *)
Theorem C64_refuted : ~ C64_full.
Proof.
  intros H. specialize (H [rError] [] _ _ ltac:(repeat constructor; cbn; intros; try discriminate; lia) ltac:(vm_compute; reflexivity)). vm_compute in H. discriminate.
Qed.
Print Assumptions C64_refuted.
(** What holds: the two agree after every run that did not throw and whose search ended with status 0, 1 or 5
    or ran out of time; after the others the object keeps its old status. *)
Theorem C64_agree_partial : forall r b p b' t, run_ok r -> r_fresh r = true -> bab_run r b = Ok (t, p, b') ->
  (r_unsolved r = false -> r_nobj r = 0%nat \/ r_timeout r = true \/ In (r_status r) [0; 1; 5]%Z -> agrees (b_mip b') p) /\
  (r_unsolved r = true \/ (r_nobj r <> 0%nat /\ r_timeout r = false /\ ~ In (r_status r) [0; 1; 5]%Z) -> b_mip b' = b_mip b).
Proof.
  intros r b p b' t R F H. split.
  - intros U C. destruct (Nat.eq_dec (r_nobj r) 0) as [N|N].
    + unfold bab_run in H. rewrite U in H. destruct (second r b). rewrite N in H. cbn [Nat.eqb] in H.
      destruct (is_opt _); cbn [negb] in H; [injection H as <- <- <-; reflexivity|]. destruct (st_eqb _ _); [injection H as <- <- <-; reflexivity|].
      destruct (st_eqb _ _); injection H as <- <- <-; [reflexivity|]. destruct (r_abort r); reflexivity.
    + destruct (bab_run_objs _ _ _ _ _ R F U N H) as (_ & E1 & E2 & E3 & E4 & E5).
      assert (X : (r_timeout r || (r_status r =? 0)%Z || (r_status r =? 1)%Z || (r_status r =? 5)%Z)%bool = true).
      { destruct C as [C|[C|C]]; [contradiction|rewrite C; reflexivity|]. cbn in C. destruct (r_timeout r); [reflexivity|]. destruct C as [C|[C|[C|[]]]]; rewrite <- C; reflexivity. }
      rewrite X in E5. unfold agrees. rewrite E5. destruct (p_st p); reflexivity.
  - intros [U|(N & T & S)]; [unfold bab_run in H; rewrite U in H; destruct (second r b); injection H as <- <- <-; reflexivity|].
    destruct (r_unsolved r) eqn:U; [unfold bab_run in H; rewrite U in H; destruct (second r b); injection H as <- <- <-; reflexivity|].
    destruct (bab_run_objs _ _ _ _ _ R F U N H) as (_ & _ & _ & _ & _ & E5). rewrite T in E5. cbn [orb] in E5.
    destruct (Z.eqb_spec (r_status r) 0); [exfalso; apply S; cbn; auto|]. destruct (Z.eqb_spec (r_status r) 1); [exfalso; apply S; cbn; auto|].
    destruct (Z.eqb_spec (r_status r) 5); [exfalso; apply S; cbn; auto|]. exact E5.
Qed.
Print Assumptions C64_agree_partial.
Example C64_example : (do x <- bab_run rNone bab_init; Ok (b_mip (snd x), bestBound (snd x))) = Ok (ProvenInfeasible, PInf).
Proof. vm_compute. reflexivity. Qed.

(** ** C28 *)
Definition sInf : itf := mkItf provenInfeasible (Fin 0) [] [] false false false 0 false DecMax 1 false.
Definition sFail : itf := mkItf iterationLimit (Fin 0) [] [] false false false 0 false DecMax 1 false.
Definition sOk : itf := mkItf solvedOptimal (Fin 0) [] [] false false false 0 false DecMax 1 false.
(** False for the children of the root: they are never branched on when infeasible or failed. *)
Theorem C28_refuted : ~ C28_full.
Proof.
  intros H. destruct (H (mkStrat 10 10 true) [] sInf eq_refl ltac:(constructor)) as [H1 _]. destruct (proj2 (H1 eq_refl)) as (f & h & E); [vm_compute; lia|]. vm_compute in E. discriminate.
Qed.
Print Assumptions C28_refuted.
(** False too at the limit: one failure more than documented is tolerated. *)
Theorem C28_failures_refuted : ~ (forall t l s, l <> [] -> isAbandoned s = true ->
  (exists f h, strat_status t (path_info NRoot l) s = Ok (TreatAsOptimal, f, h)) -> (trailing isAbandoned (l ++ [s]) < t_maxFail t)%nat).
Proof.
  intros H. assert (X : (1 < 1)%nat) by (apply (H (mkStrat 1 0 true) [sOk] sFail ltac:(discriminate) eq_refl); eexists; eexists; vm_compute; reflexivity). lia.
Qed.
Print Assumptions C28_failures_refuted.
(** The counters of a node are the lengths of the runs of infeasible (failed) nodes that end at it,
    the root excluded, for every path. *)
Theorem C28_counters : forall l, Forall (fun s => o_pret s = false) l ->
  n_inf (path_info NRoot l) = trailing infeasible_node l /\ n_uns (path_info NRoot l) = trailing isAbandoned l.
Proof.
  intros l F. destruct (counters l) as [C1 C2]. split; [exact C1|]. rewrite C2. unfold trailing.
  assert (X : Forall (fun s => o_pret s = false) (rev l)) by (apply Forall_rev; exact F). induction X as [|s r P X IH]; [reflexivity|]. cbn. rewrite IH.
  unfold unsolved_node, isAbandoned, isIterationLimitReached. rewrite P. destruct (o_st s); reflexivity.
Qed.
Print Assumptions C28_counters.
(** Below the children of the root the rule for infeasible nodes is the documented one; failed nodes
    are branched on up to the limit included, and beyond it are cut or stop the search as the option says;
    every other node is left alone. *)
Theorem C28_rule_partial : forall t l s, l <> [] -> o_pret s = false -> Forall (fun s => o_pret s = false) l ->
  (infeasible_node s = true -> (exists f h, strat_status t (path_info NRoot l) s = Ok (TreatAsOptimal, f, h)) <-> (trailing infeasible_node (l ++ [s]) < t_maxInf t)%nat) /\
  (isAbandoned s = true ->
     ((trailing isAbandoned (l ++ [s]) <= t_maxFail t)%nat -> strat_status t (path_info NRoot l) s = Ok (TreatAsOptimal, Branchable, false)) /\
     ((t_maxFail t < trailing isAbandoned (l ++ [s]))%nat -> strat_status t (path_info NRoot l) s = if t_pretend t then Ok (TreatAsInfeasible, Infeasible, true) else Thrown)) /\
  (isAbandoned s = false -> infeasible_node s = false -> strat_status t (path_info NRoot l) s = Ok (NoEffect, Unforced, false)).
Proof.
  intros t l s N P F. rewrite (verdict_exact t l s N), !trailing_snoc.
  assert (U : trailing unsolved_node l = trailing isAbandoned l) by (rewrite <- (proj2 (C28_counters l F)); symmetry; exact (proj2 (counters l))). rewrite U.
  split; [|split].
  - intros I. assert (A : isAbandoned s = false) by (destruct (isAbandoned s) eqn:A; [rewrite inf_node, (ab_inf _ A) in I; discriminate|reflexivity]). rewrite A, I.
    destruct (Nat.ltb_spec (S (trailing infeasible_node l)) (t_maxInf t)); split; intros; eauto; try lia. destruct H0 as (f & h & E). discriminate.
  - intros A. rewrite A. split; intros L; destruct (Nat.leb_spec (S (trailing isAbandoned l)) (t_maxFail t)); try reflexivity; lia.
  - intros A I. rewrite A, I. reflexivity.
Qed.
Print Assumptions C28_rule_partial.
(** The rule for failures never comes into play: after any solve that returns uninterrupted, the node does not
    count as failed (it was pretended solved, or the exception was thrown by the solve). *)
Theorem C28_failure_rule_idle : forall ans p o s s' t l, istep ans p o s = Ok s' -> o_abort s' = false ->
  forall v f h, strat_status t (path_info NRoot l) s' = Ok (v, f, h) -> v <> TreatAsInfeasible /\ h = false.
Proof.
  intros ans p o s s' t l H A v f h E. pose proof (never_abandoned _ _ _ _ _ H A) as NA. destruct l as [|a l].
  - cbn in E. injection E as <- <- <-. split; [discriminate|reflexivity].
  - rewrite (verdict_exact t (a :: l) s') in E by discriminate. rewrite NA in E. destruct (infeasible_node s'); [destruct (Nat.ltb _ _)|]; injection E as <- <- <-; split; try discriminate; reflexivity.
Qed.
Print Assumptions C28_failure_rule_idle.
Example C28_example : strat_status (mkStrat 1 3 true) (path_info NRoot [sOk; sInf]) sInf = Ok (TreatAsOptimal, Branchable, false)
  /\ strat_status (mkStrat 1 3 true) (path_info NRoot [sInf; sInf]) sInf = Ok (NoEffect, Unforced, false)
  /\ strat_status (mkStrat 1 3 false) (path_info NRoot [sOk; sFail]) sFail = Thrown.
Proof. vm_compute. repeat split; reflexivity. Qed.
