(** C277-C286. *)
From Verif Require Import Base Arr Itf_Model Nls_Model Nls_Spec Nls_Proofs Slv_Model Slv_Spec Slv_Proofs.
#[local] Open Scope Z_scope.

(** Test problems: number 1 has a free variable, number 2 too, number 3 is fixed and infeasible. *)
Definition P1 : prob := mkPb 1 (mkZprob [0%Q] [1%Q] [] [] (fun _ => Some 0%Q) (fun _ => Some [])).
Definition P2 : prob := mkPb 2 (mkZprob [0%Q] [1%Q] [] [] (fun _ => Some 0%Q) (fun _ => Some [])).
Definition P3 : prob := mkPb 3 (mkZprob [1%Q] [1%Q] [2%Q] [3%Q] (fun _ => Some 0%Q) (fun x => Some x)).
Definition A0 : ans := mkA Solve_Succeeded 5 2 false.
Definition O1 : fopts := mkFO (1 # 1000) 1000 100 1 7 500 2 None.
Definition O2 : fopts := mkFO (1 # 10) 1000 100 1 7 500 2 None.
Lemma P1_moves : moves P1.
Proof. exists 0%nat, 0%Q, 1%Q. repeat split. Qed.
Lemma P3_fixed : ~ moves P3.
Proof. intros M. apply movable_iff in M. discriminate M. Qed.

(** ** C277: a solve that is not interrupted reports the status of its own run. *)
Theorem C277 : forall l0 l s p a o s' r, iops (ipo_new l0) l = Ok s -> solves p a o -> istep s o = Ok (s', Some r) -> a_abort a = false -> own_answer p a r.
Proof.
  intros l0 l s p a o s' r _ So H A. destruct (istep_solve s p a o s' _ So H) as (w & r' & E & _ & R). injection E as <-.
  destruct R as (_ & _ & _ & _ & _ & _ & R). exact (R A).
Qed.
Print Assumptions C277.
Example C277_example :
  (do s1 <- iops (ipo_new []) [IInit [] true; ISolve P1 (mkA Infeasible_Problem_Detected 9 1 false)];
   do x <- istep s1 (ISolve P1 A0); do y <- istep (fst x) (IResolve P3 A0); Ok (snd x, snd y)) = Ok (Some solvedOptimal, Some provenInfeasible).
Proof. vm_compute. reflexivity. Qed.

(** ** C278: iterations and time are those of the last solve. *)
Theorem C278_refuted : ~ C278_full.
Proof.
  intros [_ H]. specialize (H (0, 0, 0, 0)%Q [PNew O1; PCall 0 (FWarm None 1 1)]). cbn in H.
  destruct (H _ 0%nat _ eq_refl eq_refl) as [H1 _]. cbn in H1. discriminate H1.
Qed.
Print Assumptions C278_refuted.
(** Ipopt: always.  filterSQP: [counted] exactly, that is unset memory from setting up a new warm start until the next solve. *)
Theorem C278_partial :
  (forall l0 l s, iops (ipo_new l0) l = Ok s ->
     match last_solve l with
     | None => IterationCount s = O /\ CPUTime s = 0%Q
     | Some (p, a) => (moves p -> IterationCount s = a_iter a /\ CPUTime s = a_time a) /\ (~ moves p -> IterationCount s = O /\ CPUTime s = 0%Q)
     end) /\
  (forall t0 l s i f, pops (proc0 t0) l = Ok s -> nth_error (p_sol s) i = Some f ->
     match counted (calls i l) with
     | None => f_iterations f = Ok O /\ f_cputime f = 0%Q
     | Some None => f_iterations f = Uninit /\ f_cputime f = 0%Q
     | Some (Some (n, t)) => f_iterations f = Ok n /\ f_cputime f = t
     end).
Proof.
  split.
  - intros l0 l s H. destruct (iinv_ok l0 l s H) as (I & _). unfold IterationCount, CPUTime. destruct (last_solve l) as [[p a]|].
    + destruct I as [I1 I2]. split; intros M; [destruct (I1 M) as [-> ->]; auto|rewrite (I2 M); auto].
    + destruct I as [-> | ->]; [auto|]. destruct (i_zero s); auto.
  - intros t0 l s i f H N. destruct (pinv_ok t0 l s H) as (_ & _ & P & _). destruct (P i f N) as [F _]. unfold f_iterations, f_cputime.
    destruct (f_cache f) as [c|].
    + destruct F as (_ & _ & (d & -> & D) & _). destruct d as [[n t]|]; destruct D as [-> ->]; auto.
    + destruct F as [_ ->]. auto.
Qed.
Print Assumptions C278_partial.
Example C278_example :
  (do s1 <- iops (ipo_new []) [ISolve P1 A0; IInit [] true]; do s2 <- iops s1 [ISolve P3 A0]; Ok (IterationCount s1, IterationCount s2)) = Ok (5%nat, 0%nat) /\
  (do s <- pops (proc0 (0, 0, 0, 0)%Q) [PNew O1; PCall 0 (FOpt 1 1 6 3); PClone 0; PCall 1 (FOpt 2 2 8 3); PCall 0 (FReopt 1 1 4 2)];
   do f <- rd 0 (p_sol s); f_iterations f) = Ok 4%nat.
Proof. split; vm_compute; reflexivity. Qed.

(** ** C279: an interrupted solve is not reported infeasible. *)
Theorem C279_refuted : ~ C279_full.
Proof.
  intros H. specialize (H [] [] (ipo_new []) P1 (mkA Solve_Succeeded 5 2 true) (ISolve P1 (mkA Solve_Succeeded 5 2 true))).
  assert (E : exists s', istep (ipo_new []) (ISolve P1 (mkA Solve_Succeeded 5 2 true)) = Ok (s', Some provenInfeasible)) by (eexists; vm_compute; reflexivity).
  destruct E as [s' E]. destruct (H s' provenInfeasible eq_refl (or_introl eq_refl) E eq_refl) as [O _].
  destruct (O P1_moves) as (_ & _ & [I _] & _). discriminate (I eq_refl).
Qed.
Print Assumptions C279_refuted.
(** After an interrupt every solve is reported infeasible, whatever the problem and whatever Ipopt found. *)
Theorem C279_partial : forall l0 l s p a o s' r, iops (ipo_new l0) l = Ok s -> solves p a o -> istep s o = Ok (s', Some r) ->
  (a_abort a = true -> r = provenInfeasible) /\ (a_abort a = false -> own_answer p a r).
Proof.
  intros l0 l s p a o s' r _ So H. destruct (istep_solve s p a o s' _ So H) as (w & r' & E & _ & R). injection E as <-.
  destruct R as (_ & _ & _ & _ & _ & R). exact R.
Qed.
Print Assumptions C279_partial.

(** ** C280: one object solves different problems one after the other. *)
Theorem C280_refuted : ~ C280_full.
Proof.
  intros H. specialize (H [] [IInit [] true; ISolve P1 A0; IWarm true]). 
  destruct (iops (ipo_new []) [IInit [] true; ISolve P1 A0; IWarm true]) as [s| | | | | | |] eqn:E; try (vm_compute in E; discriminate E).
  assert (EV : evaluates P2) by (split; eexists; reflexivity). destruct (H s P2 A0 eq_refl EV) as (s' & r & K).
  assert (T : (do s <- iops (ipo_new []) [IInit [] true; ISolve P1 A0; IWarm true]; istep s (ISolve P2 A0)) = Thrown) by (vm_compute; reflexivity).
  rewrite E in T. cbn [bind] in T. rewrite T in K. discriminate K.
Qed.
Print Assumptions C280_refuted.
(** A solve fails exactly when the warm start switch is on and the last run was on another problem; a re-solve, whatever the switch. *)
Theorem C280_partial : forall l0 l s p a, iops (ipo_new l0) l = Ok s ->
  (istep s (ISolve p a) = Thrown <-> moves p /\ warm_on l /\ exists q, last_run q l /\ q <> pb_id p) /\
  (istep s (IResolve p a) = Thrown <-> moves p /\ exists q, last_run q l /\ q <> pb_id p) /\
  (forall o, solves p a o -> istep s o = Uninit <-> ~ moves p /\ ~ evaluates p) /\
  (forall o, solves p a o -> (exists s' r, istep s o = Ok (s', Some r)) \/ istep s o = Thrown \/ istep s o = Uninit).
Proof.
  intros l0 l s p a H. destruct (iinv_ok l0 l s H) as (_ & I2 & I3 & I4).
  assert (Q : i_before s = true -> i_app s <> Some (pb_id p) -> exists q, last_run q l /\ q <> pb_id p).
  { intros B A. destruct (I2 B) as [q [E L]]. exists q. split; [exact L|congruence]. }
  assert (Q' : forall q, last_run q l -> q <> pb_id p -> i_before s = true /\ i_app s <> Some (pb_id p)).
  { intros q L D. destruct (I3 q L) as [B A]. split; [exact B|congruence]. }
  assert (S1 : forall o w, solves p a o -> (o = ISolve p a -> w = i_warm s) -> (o = IResolve p a -> w = true) ->
     istep s o = (do ' (s, r) <- solve_with w p a s; Ok (s, Some r))).
  { intros o w [-> | ->] E1 E2; [rewrite (E1 eq_refl)|rewrite (E2 eq_refl)]; reflexivity. }
  assert (T : forall w, (do ' (s, r) <- solve_with w p a s; Ok (s, Some r)) = Thrown <-> moves p /\ w = true /\ exists q, last_run q l /\ q <> pb_id p).
  { intros w. destruct (solve_cases w p a s) as [(s' & r & -> & _ & _ & K) | [(-> & M & W & B & A) | (-> & M & _)]]; cbn [bind].
    - split; [discriminate|]. intros (M & W & q & L & D). destruct (Q' q L D) as [B A]. destruct (A (K M W B)).
    - split; [intros _; split; [exact M|]; split; [exact W|]; exact (Q B A)|reflexivity].
    - split; [discriminate|]. intros (M' & _). contradiction. }
  assert (U : forall w, (do ' (s, r) <- solve_with w p a s; Ok (s, Some r)) = Uninit <-> ~ moves p /\ ~ evaluates p).
  { intros w. destruct (solve_cases w p a s) as [(s' & r & -> & _ & ME & K) | [(-> & M & W & B & A) | (-> & M & EV)]]; cbn [bind].
    - split; [discriminate|]. intros [N1 N2]. destruct ME; contradiction.
    - split; [discriminate|]. intros [N1 N2]. contradiction.
    - split; auto. }
  split; [|split; [|split]].
  - rewrite (S1 (ISolve p a) (i_warm s)); [|left; reflexivity|auto|discriminate]. rewrite T, I4. reflexivity.
  - rewrite (S1 (IResolve p a) true); [|right; reflexivity|discriminate|auto]. rewrite T. split; [intros (M & _ & X); auto|intros (M & X); auto].
  - intros o So. destruct So as [-> | ->]; [rewrite (S1 (ISolve p a) (i_warm s)); [apply U|left; reflexivity|auto|discriminate]|rewrite (S1 (IResolve p a) true); [apply U|right; reflexivity|discriminate|auto]].
  - assert (R : forall w, (exists s' r, (do ' (s, r) <- solve_with w p a s; Ok (s, Some r)) = Ok (s', Some r)) \/ (do ' (s, r) <- solve_with w p a s; Ok (s, Some r)) = Thrown \/ (do ' (s, r) <- solve_with w p a s; Ok (s, Some r)) = Uninit).
    { intros w. destruct (solve_cases w p a s) as [(s' & r & -> & _) | [(-> & _) | (-> & _)]]; cbn [bind]; eauto. }
    intros o So. destruct So as [-> | ->]; [rewrite (S1 (ISolve p a) (i_warm s)); [apply R|left; reflexivity|auto|discriminate]|rewrite (S1 (IResolve p a) true); [apply R|right; reflexivity|discriminate|auto]].
Qed.
Print Assumptions C280_partial.
Example C280_example :
  (do s <- iops (ipo_new []) [IInit [] true; ISolve P1 A0; IWarm true; ISolve P3 A0]; istep s (ISolve P2 A0)) = Thrown /\
  (do s <- iops (ipo_new []) [IInit [] true; ISolve P1 A0; IWarm true; ISolve P3 A0]; do x <- istep s (IResolve P1 A0); Ok (snd x)) = Ok (Some solvedOptimal) /\
  (do s <- iops (ipo_new []) [IInit [] true; ISolve P1 A0; IWarm true; ISolve P3 A0; IClone; IWarm true]; do x <- istep s (ISolve P2 A0); Ok (snd x)) = Ok (Some solvedOptimal).
Proof. split; [|split]; vm_compute; reflexivity. Qed.

(** ** C281: error objects carry the name of the error. *)
Theorem C281_refuted : ~ C281_full.
Proof. intros H. discriminate (H Feasible_Point_Found 6 eq_refl). Qed.
Print Assumptions C281_refuted.
(** Wrong for one code, an exception for another, right for all the others, in particular for every code that makes the interface throw. *)
Theorem C281_partial : forall c n, errorNum c = Some n ->
  (errorName n = Ok c <-> c <> Feasible_Point_Found /\ c <> Maximum_CpuTime_Exceeded) /\
  (c = Feasible_Point_Found -> errorName n = Ok Maximum_Iterations_Exceeded) /\ (c = Maximum_CpuTime_Exceeded -> errorName n = Thrown) /\
  (isRecoverable (solverReturnStatus c) = false \/ abandoned_st (solverReturnStatus c) = true -> errorName n = Ok c).
Proof.
  intros c n H. destruct c; cbn in H; try discriminate; injection H as <-; cbn.
  all: split; [split; [try (intros _; split; discriminate); discriminate|try (intros [N1 N2]; destruct (N1 eq_refl)); try (intros [N1 N2]; destruct (N2 eq_refl)); reflexivity]|].
  all: split; [try discriminate; reflexivity|]. all: split; [try discriminate; reflexivity|]. all: intros [E | E]; try discriminate E; reflexivity.
Qed.
Print Assumptions C281_partial.
(** Any other negative number, such as the codes of later versions of Ipopt, makes asking for the name an exception. *)
Theorem C281_unknown : forall n, n < 0 -> (forall c, errorNum c <> Some n) -> errorName n = Thrown.
Proof.
  intros n N H. unfold errorName. destruct (Z.leb_spec 0 n); [lia|].
  repeat match goal with |- (if Z.eqb n ?k then _ else _) = _ => destruct (Z.eqb_spec n k) as [->|]; [exfalso|] end; [..|reflexivity].
  all: match goal with |- False => first [exact (H Maximum_Iterations_Exceeded eq_refl)|exact (H Restoration_Failed eq_refl)|exact (H Error_In_Step_Computation eq_refl)
    |exact (H Not_Enough_Degrees_Of_Freedom eq_refl)|exact (H Invalid_Problem_Definition eq_refl)|exact (H Invalid_Option eq_refl)|exact (H Invalid_Number_Detected eq_refl)
    |exact (H Unrecoverable_Exception eq_refl)|exact (H NonIpopt_Exception_Thrown eq_refl)|exact (H Insufficient_Memory eq_refl)|exact (H Internal_Error eq_refl)] end.
Qed.
Print Assumptions C281_unknown.
Example C281_example : errorName (-13) = Ok Invalid_Number_Detected /\ errorName (-5) = Thrown /\ abandoned_st (solverReturnStatus Restoration_Failed) = true.
Proof. repeat split. Qed.

(** ** C282: the options the user sets are the ones used, and the defaults for MINLPs otherwise. *)
Theorem C282 : forall l0 f l s, iops (fst (ipo_init f true (ipo_new l0))) l = Ok s ->
  (Forall no_init l -> forall o, o <> warm_start_init_point -> o <> print_level -> get o (i_opts s) = wanted l0 f o) /\
  (forall o v, protected o l0 = Some v \/ protected o l0 = None /\ first_in o f = Some v -> get o (i_opts s) = Some v).
Proof.
  intros l0 f l s H. destruct (init_opts f (ipo_new l0)) as (G & P & _). split.
  - intros N o D1 D2. destruct (iops_opts _ _ _ H N) as (_ & _ & K & _). rewrite K by assumption. apply G.
  - intros o v W. apply protected_get. apply (iops_protected _ _ _ o v H). apply P. cbn [i_opts ipo_new]. destruct W as [W | [W F]].
    + apply protected_read, W.
    + unfold protected in *. rewrite lookup_read. destruct (lookup o l0) as [[w [|]]|]; try discriminate; rewrite F; reflexivity.
Qed.
Print Assumptions C282.
Example C282_example :
  (do s <- iops (fst (ipo_init [(print_level, Int 3); (mu_oracle, Word 4); (mu_oracle, Word 5)] true (ipo_new [(gamma_phi, (Num 1, true))]))) [IForce 7; IClone; IWarm true; IDefault; ISolve P1 A0];
   Ok (map (fun o => get o (i_opts s)) [print_level; mu_oracle; gamma_phi; mu_strategy])) = Ok [Some (Int 3); Some (Word 4); Some (Num 1); Some Adaptive].
Proof. vm_compute. reflexivity. Qed.

(** ** C283: a forced output level is used, and the default is restored. *)
Theorem C283_refuted : ~ C283_full.
Proof.
  intros [_ H]. specialize (H (0, 0, 0, 0)%Q [PNew O1]). cbn in H.
  specialize (H _ 0%nat _ 9 1%nat 1%nat 1%nat 0%Q _ _ eq_refl eq_refl eq_refl). discriminate H.
Qed.
Print Assumptions C283_refuted.
(** Ipopt: forced unless the user protected the level; the default is what was wanted at the set-up.
    filterSQP: a solve uses its option, whatever was forced; a re-solve the forced level; the default is unset memory
    unless this very object was initialised. *)
Theorem C283_partial :
  (forall l0 f l s k, iops (fst (ipo_init f true (ipo_new l0))) l = Ok s -> Forall no_init l ->
     (protected print_level l0 = None -> first_in print_level f = None -> get print_level (i_opts (forceSolverOutput k s)) = Some (Int k)) /\
     (exists s', setOutputToDefault s = Ok s' /\ (forall v, wanted l0 f print_level = Some (Int v) -> get print_level (i_opts s') = Some (Int v)))) /\
  (forall t0 l s i p str n t s' r w, pops (proc0 t0) l = Ok s -> pstep s (PCall i (FOpt p str n t)) = Ok (s', Some r) -> nth_error (opts_of l) i = Some w -> r_iprint r = fo_iprint w) /\
  (forall t0 l s i k p str n t s' r, pops (proc0 t0) (l ++ [PCall i (FForce k)]) = Ok s -> pstep s (PCall i (FReopt p str n t)) = Ok (s', Some r) -> r_iprint r = k) /\
  (forall t0 l s i p st str n t w, pops (proc0 t0) (l ++ [PCall i FDefault]) = Ok s -> made (calls i l) = Some (p, st) -> nth_error (opts_of l) i = Some w ->
     if existsb (fun o => match o with FInit => true | _ => false end) (calls i l)
     then exists s' r, pstep s (PCall i (FReopt p str n t)) = Ok (s', Some r) /\ r_iprint r = match fo_level w with Some k => k | None => 1 end
     else pstep s (PCall i (FReopt p str n t)) = Uninit).
Proof.
  split; [|split; [|split]].
  - intros l0 f l s k H N. destruct (init_opts f (ipo_new l0)) as (G & P & L). destruct (iops_opts _ _ _ H N) as (K1 & K2 & K3 & K4).
    assert (NP : protected print_level l0 = None -> first_in print_level f = None -> protected print_level (i_opts s) = None).
    { intros P0 F0. destruct (protected print_level (i_opts s)) as [v|] eqn:E; [|reflexivity]. specialize (K4 v eq_refl). exfalso.
      revert K4. unfold ipo_init. cbn [fst]. unfold setMinlpDefaults. cbn [i_opts upd_opts ipo_new].
      set (x := read_file f l0). assert (X : protected print_level x = None).
      { unfold x, protected in *. rewrite lookup_read, F0. destruct (lookup print_level l0) as [[w [|]]|]; congruence. }
      assert (D : forall a v y, protected print_level y = None -> protected print_level (default_if a v y) = None).
      { intros a u y Y. unfold default_if. destruct (get a y); [exact Y|]. unfold protected in *. rewrite lookup_set. destruct (oname_eqb print_level a) eqn:E1; [|exact Y].
        apply oname_eqb_eq in E1. subst a. destruct (lookup print_level y) as [[w [|]]|]; congruence. }
      set (d := default_if honor_original_bounds _ _). assert (DD : protected print_level d = None) by (unfold d; repeat apply D; exact X).
      destruct (get print_level d); cbn [i_opts]; [congruence|]. unfold protected in *. rewrite lookup_set, oname_eqb_refl. destruct (lookup print_level d) as [[w [|]]|]; congruence. }
    split.
    + intros P0 F0. cbn [forceSolverOutput upd_opts i_opts]. rewrite get_set, oname_eqb_refl, (NP P0 F0). reflexivity.
    + unfold setOutputToDefault. rewrite K1, L. eexists. split; [reflexivity|]. intros v W. cbn [upd_opts i_opts ipo_new]. cbn [i_opts ipo_new] in W. rewrite W. cbn [int_of].
      rewrite get_set, oname_eqb_refl. destruct (protected print_level (i_opts s)) as [u|] eqn:E; [|reflexivity]. cbn [or_else].
      specialize (K4 u eq_refl). apply protected_get in K4. rewrite G in K4. cbn [i_opts ipo_new] in K4. congruence.
  - intros t0 l s i p str n t s' r w H E W. destruct (pcall_inv _ _ _ _ _ _ _ H E) as (f & f' & g' & N & F & I & O & _). rewrite W in O. injection O as ->.
    destruct (fstep_inv _ _ _ _ _ _ _ I F) as (_ & _ & _ & ru & R1 & R2). injection R1 as <-. apply R2.
  - intros t0 l s i k p str n t s' r H E. apply pops_snoc in H. destruct H as (s0 & r0 & H0 & E0).
    destruct (pcall_inv _ _ _ _ _ _ _ H0 E0) as (f & f' & g' & N & F & I & O & N'). cbn [fstep] in F. injection F as <- _ _.
    cbn [pstep] in E. unfold rd in E. rewrite N' in E. cbn [bind] in E. unfold with_iprint in E. cbn [fstep] in E.
    destruct (f_cache f) as [c|] eqn:C; [|rewrite C in E; discriminate]. cbn [f_cache f_warm f_opts f_log] in E.
    destruct (negb _); [discriminate|]. destruct (f_warm f); cbn [load_ws callOptimizer fc_iprint bind] in E; unfold callOptimizer in E; cbn [fc_iprint bind] in E;
      (destruct (lset i _ (p_sol s)); cbn [bind] in E; try discriminate; injection E as _ <-; reflexivity).
  - intros t0 l s i p st str n t w H M W. apply pops_snoc in H. destruct H as (s0 & r0 & H0 & E0).
    destruct (pcall_inv _ _ _ _ _ _ _ H0 E0) as (f & f' & g' & N & F & I & O & N'). cbn [fstep] in F. injection F as <- _ _.
    rewrite W in O. injection O as ->. destruct I as [I1 I2]. destruct (f_cache f) as [c|] eqn:C; [|destruct I1; congruence]. destruct I1 as (A1 & _). rewrite M in A1. injection A1 as -> ->.
    assert (Hi : (i < length (p_sol s))%nat) by (apply nth_error_Some; congruence).
    cbn [pstep]. unfold rd. rewrite N'. cbn [bind]. unfold with_iprint. rewrite C. cbn [fstep f_cache fc_prob fc_struct f_warm f_opts f_log]. rewrite Nat.eqb_refl. cbn [negb].
    rewrite I2. destruct (existsb _ (calls i l)).
    + destruct (f_warm f); cbn [load_ws]; unfold callOptimizer; cbn [fc_iprint bind]; rewrite lset_ok by exact Hi; cbn [bind]; do 2 eexists; (split; [reflexivity|reflexivity]).
    + destruct (f_warm f); cbn [load_ws]; unfold callOptimizer; cbn [fc_iprint bind]; reflexivity.
Qed.
Print Assumptions C283_partial.
Example C283_example :
  (do s <- pops (proc0 (0, 0, 0, 0)%Q) [PNew O1; PCall 0 FInit; PCall 0 (FOpt 1 1 2 0); PCall 0 (FForce 8)]; do x <- pstep s (PCall 0 (FReopt 1 1 2 0)); Ok (option_map r_iprint (snd x))) = Ok (Some 8) /\
  (do s <- pops (proc0 (0, 0, 0, 0)%Q) [PNew O1; PCall 0 FInit; PClone 0; PCall 1 (FOpt 1 1 2 0); PCall 1 FDefault]; pstep s (PCall 1 (FReopt 1 1 2 0))) = Uninit /\
  (do s <- iops (fst (ipo_init [] true (ipo_new []))) [ISolve P1 A0; IForce 5]; do s' <- setOutputToDefault s; Ok (get print_level (i_opts s), get print_level (i_opts s'))) = Ok (Some (Int 5), Some (Int 1)).
Proof. split; [|split]; vm_compute; reflexivity. Qed.

(** ** C284: with any number of SQP objects in use, a run works on the problem it is given. *)
Theorem C284 : forall t0 l s i p str, pops (proc0 t0) l = Ok s -> (i < length (p_sol s))%nat ->
  (forall n t, exists s' r, pstep s (PCall i (FOpt p str n t)) = Ok (s', Some r) /\ r_prob r = Some p /\ r_final r = p /\ r_struct r = str /\ r_arrays r = str) /\
  (forall n t s' r, pstep s (PCall i (FReopt p str n t)) = Ok (s', r) ->
     exists ru st, r = Some ru /\ made (calls i l) = Some (p, st) /\ r_prob ru = Some p /\ r_final ru = p /\ r_struct ru = st /\ r_arrays ru = st) /\
  (forall n t, pstep s (PCall i (FReopt p str n t)) = NullDeref <-> made (calls i l) = None) /\
  (forall n t, pstep s (PCall i (FReopt p str n t)) = AssertFail <-> exists q st, made (calls i l) = Some (q, st) /\ q <> p) /\
  (forall n t st, made (calls i l) = Some (p, st) -> ~ In FDefault (calls i l) -> exists s' r, pstep s (PCall i (FReopt p str n t)) = Ok (s', Some r)).
Proof.
  intros t0 l s i p str H Hi. destruct (pinv_ok t0 l s H) as (P1 & _ & P3 & _).
  destruct (nth_error (p_sol s) i) as [f|] eqn:N; [|apply nth_error_None in N; lia]. pose proof (P3 i f N) as I.
  assert (ST : forall c, pstep s (PCall i c) = (do ' (f, g, r) <- fstep f (p_glob s) c; do l <- lset i f (p_sol s); Ok (mkPr l g, r))) by (intros c; cbn [pstep]; unfold rd; rewrite N; reflexivity).
  split; [|split; [|split; [|split]]].
  - intros n t. rewrite ST.
    assert (E : exists f' g' r, fstep f (p_glob s) (FOpt p str n t) = Ok (f', g', r)).
    { cbn [fstep]. destruct I as [I1 _]. assert (NU : match f_cache f with Some c => if fc_use c then (c, p_glob s) else initialize (f_opts f) p str | None => initialize (f_opts f) p str end = initialize (f_opts f) p str).
      { destruct (f_cache f) as [c|]; [|reflexivity]. destruct I1 as (_ & -> & _). reflexivity. }
      rewrite NU. unfold initialize. cbv iota beta. destruct (f_warm f); cbn; eauto. }
    destruct E as (f' & g' & r & E). rewrite E. cbn [bind]. rewrite lset_ok by exact Hi. cbn [bind].
    destruct (fstep_inv _ _ _ _ _ _ _ I E) as (_ & _ & _ & ru & -> & R1 & R2 & R3 & R4 & _). do 2 eexists. split; [reflexivity|]. auto.
  - intros n t s' r E. destruct (pcall_inv _ _ _ _ _ _ _ H E) as (f1 & f' & g' & N1 & F & _). rewrite N in N1. injection N1 as <-.
    destruct (fstep_inv _ _ _ _ _ _ _ I F) as (_ & _ & _ & ru & st & -> & R1 & R2 & R3 & R4 & R5 & _). exists ru, st. auto 8.
  - intros n t. rewrite ST. cbn [fstep]. destruct I as [I1 _]. destruct (f_cache f) as [c|].
    + destruct I1 as (-> & _). split; [|discriminate]. destruct (negb _); [discriminate|]. unfold callOptimizer. destruct (fc_iprint _); cbn [bind]; [|discriminate]. rewrite lset_ok by exact Hi. discriminate.
    + destruct I1 as [-> _]. split; reflexivity.
  - intros n t. rewrite ST. cbn [fstep]. destruct I as [I1 _]. destruct (f_cache f) as [c|].
    + destruct I1 as (-> & _). destruct (Nat.eqb_spec p (fc_prob c)) as [->|D]; cbn [negb].
      * split; [|intros (q & st & [= <- <-] & D); destruct (D eq_refl)]. unfold callOptimizer. destruct (fc_iprint _); cbn [bind]; [|discriminate]. rewrite lset_ok by exact Hi. discriminate.
      * split; [|reflexivity]. intros _. exists (fc_prob c), (fc_struct c). split; [reflexivity|congruence].
    + destruct I1 as [-> _]. split; [discriminate|]. intros (q & st & E & _). discriminate.
  - intros n t st M ND. rewrite ST. cbn [fstep]. destruct I as [I1 _]. destruct (f_cache f) as [c|]; [|destruct I1; congruence].
    destruct I1 as (A1 & _ & _ & A4). rewrite M in A1. injection A1 as -> ->. rewrite Nat.eqb_refl. cbn [negb]. unfold callOptimizer.
    assert (LW : fc_iprint (load_ws (f_warm f) c) = fc_iprint c) by (destruct (f_warm f); reflexivity). rewrite LW.
    destruct (fc_iprint c); [|destruct (ND (A4 eq_refl))]. cbn [bind]. rewrite lset_ok by exact Hi. cbn [bind]. eauto.
Qed.
Print Assumptions C284.
Definition L84 : list pop := [PNew O1; PCall 0 (FOpt 1 11 2 0); PClone 0; PCall 1 (FOpt 2 22 2 0); PCall 1 (FWarm (Some (Some 3%nat)) 2 22)].
Example C284_example :
  (do s <- pops (proc0 (0, 0, 0, 0)%Q) L84; do x <- pstep s (PCall 0 (FReopt 1 11 2 0)); Ok (option_map (fun r => (r_prob r, r_struct r)) (snd x))) = Ok (Some (Some 1%nat, 11%nat)) /\
  (do s <- pops (proc0 (0, 0, 0, 0)%Q) L84; pstep s (PCall 1 (FReopt 1 11 2 0))) = AssertFail /\
  (do s <- pops (proc0 (0, 0, 0, 0)%Q) L84; do s <- pstep s (PClone 0); pstep (fst s) (PCall 2 (FReopt 1 11 2 0))) = NullDeref.
Proof. split; [|split]; vm_compute; reflexivity. Qed.

(** ** C285: every object runs with its own tolerances. *)
Theorem C285_refuted : ~ C285_full.
Proof.
  intros H.
  assert (E : exists s s' r, pops (proc0 (0, 0, 0, 0)%Q) [PNew O1; PNew O2; PCall 0 (FOpt 1 1 2 0); PCall 1 (FOpt 2 2 2 0)] = Ok s /\
     pstep s (PCall 0 (FReopt 1 1 2 0)) = Ok (s', Some r) /\ r_tol r = (100, 1, 1 # 10, 1000)%Q).
  { do 3 eexists. split; [vm_compute; reflexivity|]. split; [vm_compute; reflexivity|]. reflexivity. }
  destruct E as (s & s' & r & E1 & E2 & E3).
  pose proof (H _ _ s 0%nat 1%nat 1%nat _ s' r O1 E1 (ex_intro _ 2%nat (ex_intro _ 0%Q (or_intror eq_refl))) E2 eq_refl) as K. rewrite E3 in K. discriminate K.
Qed.
Print Assumptions C285_refuted.
(** A solve does; a re-solve runs with the tolerances of the object that made a cache last, whichever it is. *)
Theorem C285_partial : forall t0 l s i p str n t s' r w, pops (proc0 t0) l = Ok s -> nth_error (opts_of l) i = Some w ->
  (pstep s (PCall i (FOpt p str n t)) = Ok (s', Some r) -> r_tol r = (fo_ubd w, fo_tt w, fo_eps w, fo_infty w)) /\
  (pstep s (PCall i (FReopt p str n t)) = Ok (s', Some r) -> exists j v, maker j l /\ nth_error (opts_of l) j = Some v /\ r_tol r = (fo_ubd v, fo_tt v, fo_eps v, fo_infty v)).
Proof.
  intros t0 l s i p str n t s' r w H W. split; intros E.
  - destruct (pcall_inv _ _ _ _ _ _ _ H E) as (f & f' & g' & N & F & I & O & _). rewrite W in O. injection O as ->.
    destruct (fstep_inv _ _ _ _ _ _ _ I F) as (_ & _ & _ & ru & R1 & R2). injection R1 as <-. apply R2.
  - destruct (pcall_inv _ _ _ _ _ _ _ H E) as (f & f' & g' & N & F & I & O & _). rewrite W in O. injection O as ->.
    destruct (fstep_inv _ _ _ _ _ _ _ I F) as (_ & _ & _ & ru & st & R1 & M & _ & _ & _ & _ & T & _). injection R1 as <-.
    destruct (pinv_ok t0 l s H) as (_ & _ & _ & [[_ NM] | (j & v & MK & V & TT)]); [rewrite NM in M; discriminate|].
    exists j, v. split; [exact MK|]. split; [exact V|]. rewrite T. exact TT.
Qed.
Print Assumptions C285_partial.
(** At most one object makes a cache last. *)
Theorem C285_maker : forall l j k, maker j l -> maker k l -> j = k.
Proof.
  intros l j k (l1 & o & l2 & E1 & M1 & N1) (l3 & o' & l4 & E2 & M2 & N2). subst l.
  assert (C : (length l1 < length l3 \/ length l1 = length l3 \/ length l3 < length l1)%nat) by lia.
  assert (SP : forall (a b c d : list pop) x y, (length a < length c)%nat -> a ++ x :: b = c ++ y :: d -> exists e, b = e ++ y :: d /\ c = a ++ x :: e).
  { induction a as [|z a IH]; intros b c d x y L E.
    - destruct c as [|z c]; [cbn in L; lia|]. cbn in E. injection E as <- ->. exists c. auto.
    - destruct c as [|z' c]; [cbn in L; lia|]. cbn in E. injection E as <- E. cbn in L. destruct (IH b c d x y ltac:(lia) E) as (e & -> & ->). exists e. auto. }
  destruct C as [C | [C | C]].
  - destruct (SP _ _ _ _ _ _ C E2) as (e & -> & ->). destruct (N1 e k o' l4 eq_refl M2).
  - assert (X : forall (a b c d : list pop), length a = length c -> a ++ b = c ++ d -> a = c /\ b = d).
    { induction a as [|z a IH]; intros b [|z' c] d L E; cbn in *; try lia; [auto|]. injection E as <- E. destruct (IH b c d ltac:(lia) E) as [-> ->]. auto. }
    destruct (X _ _ _ _ C E2) as [_ X2]. congruence.
  - destruct (SP _ _ _ _ _ _ C (eq_sym E2)) as (e & -> & ->). destruct (N2 e j o l2 eq_refl M1).
Qed.
Print Assumptions C285_maker.

(** ** C286: the initial trust region is the user's. *)
Theorem C286_refuted : ~ C286_full.
Proof.
  intros H.
  assert (E : exists s s' r, pops (proc0 (0, 0, 0, 0)%Q) [PNew O1] = Ok s /\ pstep s (PCall 0 (FOpt 1 1 2 0)) = Ok (s', Some r) /\ r_rho r = 10%Q).
  { do 3 eexists. split; [vm_compute; reflexivity|]. split; [vm_compute; reflexivity|]. reflexivity. }
  destruct E as (s & s' & r & E1 & E2 & E3).
  pose proof (H _ _ s 0%nat 1%nat 1%nat _ s' r O1 E1 (ex_intro _ 2%nat (ex_intro _ 0%Q (or_introl eq_refl))) E2 eq_refl) as K. rewrite E3 in K. discriminate K.
Qed.
Print Assumptions C286_refuted.
(** It is 10 in every run. *)
Theorem C286_partial : forall t0 l s i p str o s' r, pops (proc0 t0) l = Ok s -> fsolves p str o -> pstep s (PCall i o) = Ok (s', Some r) -> r_rho r = 10%Q.
Proof.
  intros t0 l s i p str o s' r H (n & t & [-> | ->]) E; destruct (pcall_inv _ _ _ _ _ _ _ H E) as (f & f' & g' & N & F & I & O & _).
  - destruct (fstep_inv _ _ _ _ _ _ _ I F) as (_ & _ & _ & ru & R1 & R2). injection R1 as <-. apply R2.
  - destruct (fstep_inv _ _ _ _ _ _ _ I F) as (_ & _ & _ & ru & st & R1 & R2). injection R1 as <-. apply R2.
Qed.
Print Assumptions C286_partial.
