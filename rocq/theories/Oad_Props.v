(** Theorems: outer-approximation decomposition (C22, C25, C26, C59, C60). *)
From Verif Require Import Base Arr Oad_Model Oad_Spec Oad_Proofs Oad_Proofs2.
#[local] Open Scope Q_scope.

(** ** C22 *)
(** The cutoff is not below an upper bound that is zero, and the assertion fails. *)
Theorem C22_refuted : ~ C22_full.
Proof. intros H. pose proof (H 0 (1 # 100000) eq_refl ltac:(discriminate)) as C. vm_compute in C. discriminate C. Qed.
Print Assumptions C22_refuted.
(** The new cutoff is strictly below the upper bound exactly when the decrement is
    positive and the upper bound is not zero. *)
Theorem C22_cutoff_partial : forall ub decr, new_cutoff ub decr < ub <-> 0 < decr /\ ~ ub == 0.
Proof. exact new_cutoff_lt. Qed.
Print Assumptions C22_cutoff_partial.
(** In a whole run no assertion fails if the decrement is positive, every point yields a
    cut and no value is zero. *)
Theorem C22_run_partial : forall val O q c0 fuel sols local, sound val O -> 0 < q_decr q -> (forall vis, o_cuts O vis <> 0%nat) ->
  (forall p f, val p = Some f -> ~ f == 0) -> performOa fuel O q c0 sols local <> AssertFail.
Proof. intros val O q c0 fuel sols local S D. exact (run_no_assert val O q c0 S fuel sols local D). Qed.
Print Assumptions C22_run_partial.

(** ** C25 *)
Definition exS := mkCols [Fin 0; Fin 0; MInf] [Fin 5; Fin 5; PInf].
(** Relaxing after fixing does not restore the bounds, re-fixing widens them again, and an
    exception leaves the columns fixed before it. *)
Theorem C25_refuted : ~ C25_full.
Proof.
  intros H.
  destruct (H 2%nat [true; true] [3; 1 # 2] (1 # 10) (mkCols [Fin 0; Fin 0] [Fin 5; Fin 5]) ltac:(repeat split) ltac:(discriminate)) as [A _].
  destruct (A true (mkCols [Fin 3; Fin 0] [Fin 3; Fin 5]) ltac:(vm_compute; reflexivity)) as [_ B].
  destruct (B eq_refl 0%nat ltac:(lia)) as [C _]. discriminate C.
Qed.
Print Assumptions C25_refuted.
Theorem C25_relax_refuted : ~ (forall n ints sol tol s s1 s2, cols_ok n ints sol s -> 0 <= tol ->
  fixIntegers n 0 ints sol tol s = Ok (false, s1) -> relaxIntegers n 0 ints tol s1 = Ok s2 -> forall j, (j < n)%nat -> same_bounds s s2 j).
Proof.
  intros H. pose proof (H 1%nat [true] [3] (1 # 10) (mkCols [Fin 0] [Fin 5]) (mkCols [Fin 3] [Fin 3])
     (mkCols [Fin (29 # 10)] [Fin (31 # 10)]) ltac:(repeat split) ltac:(discriminate) ltac:(vm_compute; reflexivity) ltac:(vm_compute; reflexivity) 0%nat ltac:(lia)) as [C _].
  discriminate C.
Qed.
Print Assumptions C25_relax_refuted.
(** What fixing does: it works through the columns up to the first integer column whose
    value is not integral up to the tolerance or is too large.  The integer columns
    before it get both bounds at the nearest integer; nothing else changes. *)
Theorem C25_fix_partial : forall n ints sol tol s, cols_ok n ints sol s ->
  exists th s' t, fixIntegers n 0 ints sol tol s = Ok (th, s') /\ (t <= n)%nat /\
    (th = false -> t = n) /\ (th = true -> (t < n)%nat /\ is_int ints t /\ ~ exists z, fixable sol tol t z) /\
    (forall j, (j < t)%nat -> is_int ints j -> exists z, fixable sol tol j z /\ bounds_are s' j (Fin (inject_Z z)) (Fin (inject_Z z))) /\
    (forall j, (t <= j)%nat \/ ~ is_int ints j -> same_bounds s s' j).
Proof.
  intros n ints sol tol s OK. destruct (fix_spec n ints sol tol n 0 s OK eq_refl) as (th & s' & t & E & T & _ & _ & F1 & F2 & F3 & F4).
  exists th, s', t. split; [exact E|]. split; [lia|]. split; [exact F1|]. split; [exact F2|]. split.
  - intros j J. apply F3. lia.
  - intros j J. apply F4. right. exact J.
Qed.
Print Assumptions C25_fix_partial.
(** What relaxing and re-fixing do: both move the bounds of the integer columns out by
    the tolerance; re-fixing does so only if the last solve was optimal. *)
Theorem C25_relax_partial : forall n ints sol tol s, cols_ok n ints sol s ->
  exists s', relaxIntegers n 0 ints tol s = Ok s' /\
    (forall j, (j < n)%nat -> is_int ints j -> widened tol s s' j) /\ (forall j, ~ is_int ints j -> same_bounds s s' j) /\
    refixIntegers true n ints tol s = Ok (true, s') /\ refixIntegers false n ints tol s = Ok (false, s).
Proof.
  intros n ints sol tol s (O1 & O2 & O3 & O4). destruct (relax_spec n ints tol O1 n 0 s O3 O4 eq_refl) as (s' & E & _ & _ & F1 & F2).
  exists s'. split; [exact E|]. split; [intros j J; apply F1; lia|]. split; [intros j J; apply F2; right; right; exact J|].
  unfold refixIntegers. rewrite E. split; reflexivity.
Qed.
Print Assumptions C25_relax_partial.
(** With branching objects (simple integers), each named column is fixed at the integer
    nearest to its value projected on the recorded bounds. *)
Theorem C25_objects_partial : forall n lo up sol cs s, length lo = n -> length up = n -> length sol = n -> length (k_lo s) = n -> length (k_up s) = n ->
  NoDup cs -> Forall (fun c => (c < n)%nat) cs ->
  exists s', fixObjects (map OInt cs) lo up sol s = Ok s' /\
    (forall c, In c cs -> exists v l u z, nth_error sol c = Some v /\ nth_error lo c = Some l /\ nth_error up c = Some u /\
       is_nearest (proj l u v) z /\ bounds_are s' c (Fin (inject_Z z)) (Fin (inject_Z z))) /\
    (forall c, ~ In c cs -> same_bounds s s' c).
Proof.
  intros n lo up sol cs s L1 L2 L3 L4 L5 ND F. destruct (fix_obj_spec n lo up sol L1 L2 L3 cs s ND F L4 L5) as (s' & E & _ & _ & G1 & G2).
  exists s'. split; [exact E|]. split; [|exact G2]. intros c I. destruct (G1 c I) as (v & l & u & A & B & C & D).
  exists v, l, u, (nearest (proj l u v)). split; [exact A|]. split; [exact B|]. split; [exact C|]. split; [apply nearest_spec|exact D].
Qed.
Print Assumptions C25_objects_partial.
(** Relaxing with an SOS among the objects never returns. *)
Theorem C25_objects_sos : forall os tol s m s', In (OSos m) os -> relaxObjects os tol s <> Ok s'.
Proof. intros os tol s m s' I. exact (relax_obj_sos os tol s m I s'). Qed.
Print Assumptions C25_objects_sos.
(** Two solutions are told apart exactly when some integer column differs by more than
    the tolerance. *)
Theorem C25_differ : forall n ints tol a b, length ints = n -> length a = n -> length b = n ->
  exists r, isDifferentOnIntegers 0 ints tol a b = Ok r /\
    (r = true <-> exists j va vb, is_int ints j /\ nth_error a j = Some va /\ nth_error b j = Some vb /\ tol < Qabs (vb - va)).
Proof. intros n ints tol a b LI LA LB. exact (differ_spec n ints tol a b 0 LA LB ltac:(lia)). Qed.
Print Assumptions C25_differ.
Theorem C25_differ_objects : forall n tol a b os, length a = n -> length b = n ->
  Forall (fun o => Forall (fun c => (c < n)%nat) (match o with OInt c => [c] | OSos m => m end)) os ->
  exists r, isDifferentOnObjects os tol a b = Ok r /\
    (r = true <-> exists o c va vb, In o os /\ In c (match o with OInt c => [c] | OSos m => m end) /\
        nth_error a c = Some va /\ nth_error b c = Some vb /\ tol < Qabs (vb - va)).
Proof. intros n tol a b os LA LB F. exact (differ_obj_spec n tol a b LA LB os F). Qed.
Print Assumptions C25_differ_objects.
(** Integer feasibility: every integer column is within the tolerance of its nearest integer. *)
Theorem C25_integer_feasible : forall n ints sol tol, length ints = n -> length sol = n ->
  exists r, integerFeasible 0 ints sol tol = Ok r /\
    (r = true <-> forall j v z, is_int ints j -> nth_error sol j = Some v -> is_nearest v z -> Qabs (v - inject_Z z) <= tol).
Proof.
  intros n ints sol tol LI LS. destruct (intfeas_spec n ints tol sol 0 LS ltac:(lia)) as (r & E & H). exists r. split; [exact E|].
  rewrite H. split.
  - intros G j v z IJ EV NZ. rewrite (nearest_unique _ _ _ NZ (nearest_spec v)). exact (G j v IJ EV).
  - intros G j v IJ EV. exact (G j v _ IJ EV (nearest_spec v)).
Qed.
Print Assumptions C25_integer_feasible.
Example C25_example : fixIntegers 3 0 [true; false; true] [29 # 10; 1 # 2; -2] (1 # 5) exS =
    Ok (false, mkCols [Fin 3; Fin 0; Fin (-2)] [Fin 3; Fin 5; Fin (-2)]) /\
  cols_ok 3 [true; false; true] [29 # 10; 1 # 2; -2] exS.
Proof. split; [vm_compute; reflexivity|repeat split]. Qed.

(** ** C26 *)
(** An infinite cutoff is not restored. *)
Theorem C26_refuted : ~ C26_full.
Proof.
  intros H. destruct (H nat unit (mkLpst [] (mkCols [] []) PInf tt) [SetCut (Fin 1)] (mkLpst [] (mkCols [] []) (Fin 1) tt) eq_refl) as (_ & _ & C).
  discriminate C.
Qed.
Print Assumptions C26_refuted.
(** Rows, bounds and warm start are restored after any sequence of changes, and so is a
    finite cutoff; an infinite cutoff keeps the last value set. *)
Theorem C26_restore_partial : forall (R W : Type) (s : lpst R W) ops,
  exists s', restore (manip true true true true s) (lp_run ops s) = Ok s' /\
    p_rows s' = p_rows s /\ p_cols s' = p_cols s /\ p_warm s' = p_warm s /\
    (p_cut s <> PInf -> p_cut s' = p_cut s) /\ (p_cut s = PInf -> p_cut s' = p_cut (lp_run ops s)).
Proof.
  intros R W s ops. destruct (restore_spec true true true s ops) as (s' & E & A & B & C & D & F & _).
  exists s'. split; [exact E|]. split; [exact A|]. split; [exact (B eq_refl)|]. split; [exact (C eq_refl)|]. split; [exact (D eq_refl)|]. intros G. apply F. right. exact G.
Qed.
Print Assumptions C26_restore_partial.
Example C26_example :
  let s := mkLpst [10%nat; 11%nat] (mkCols [Fin 0] [Fin 5]) (Fin 7) tt in
  let m := lp_run [Install [12%nat]; SetCols (mkCols [Fin 2] [Fin 2]); SetCut (Fin 3); Install [13%nat]; Resolve tt] s in
  p_rows m = [10; 11; 12; 13]%nat /\ restore (manip true true true true s) m = Ok s.
Proof. split; reflexivity. Qed.

(** ** C59 *)
(** A run of the decomposition that returns is right about what it says. *)
Theorem C59_fathom : forall val O q c0 fuel sols local s, sound val O ->
  performOa fuel O q c0 sols local = Ok s -> oa_right val q c0 s.
Proof. intros val O q c0 fuel sols local s SO. exact (run_right val O q c0 SO fuel sols local s). Qed.
Print Assumptions C59_fathom.
(** It never dereferences a missing solution. *)
Theorem C59_no_null : forall val O q c0 fuel sols local, sound val O ->
  performOa fuel O q c0 sols local = AssertFail \/ performOa fuel O q c0 sols local = Diverges \/
  exists s, performOa fuel O q c0 sols local = Ok s.
Proof. intros val O q c0 fuel sols local SO. exact (loop_fail val O q c0 SO fuel _ (start_inv val O q c0 SO sols local)). Qed.
Print Assumptions C59_no_null.

(** An example: values 4 at 0, 2 at 1, infeasible elsewhere.  The sub-MIP and the LP
    return the first open point. *)
Definition exVal : problem := fun p => if pt_eqb p [0%Z] then Some 4 else if pt_eqb p [1%Z] then Some 2 else None.
Definition mem (p : point) (vis : list point) := existsb (pt_eqb p) vis.
Definition pick (vis : list point) : option point :=
  if mem [0%Z] vis then if mem [1%Z] vis then None else Some [1%Z] else Some [0%Z].
Lemma mem_in p vis : mem p vis = true <-> In p vis.
Proof.
  unfold mem. rewrite existsb_exists. split; [intros (x & I & E); apply pt_eqb_eq in E; subst x; exact I|].
  intros I. exists p. split; [exact I|apply pt_eqb_refl].
Qed.
Lemma pick_new vis p : pick vis = Some p -> ~ In p vis.
Proof.
  unfold pick. destruct (mem [0%Z] vis) eqn:A; [destruct (mem [1%Z] vis) eqn:B; [discriminate|]|]; intros E; injection E as <-;
    intros I; apply mem_in in I; congruence.
Qed.
Definition exOr2 : oracle := mkOracle
  (fun vis c => match pick vis with Some p => mkSub (Fin 1) (Some p) | None => mkSub (Fin 2) None end)
  (fun vis c => match pick vis with Some p => mkLpr true false 1 (Some p) | None => mkLpr false false 0 None end)
  exVal (fun _ => 1%nat) (fun _ => false).
Lemma exVal_ge2 p f : exVal p = Some f -> 2 <= f.
Proof.
  unfold exVal. destruct (pt_eqb p [0%Z]); [|destruct (pt_eqb p [1%Z]); [|discriminate]]; intros E; injection E as <-; discriminate.
Qed.
(** If the first sub-MIP already shows that nothing is below the cutoff, or finds no
    point, no NLP is solved and nothing is reported. *)
Theorem C59_idle : forall O q c0 fuel sols local,
  ext_ltb (s_low (o_sub O [] c0)) c0 = false \/ s_sol (o_sub O [] c0) = None ->
  exists s, performOa (S fuel) O q c0 sols local = Ok s /\ a_vis s = [] /\ a_ub s = c0 /\ a_cut s = c0 /\ a_sols s = sols /\ a_mb s = s_low (o_sub O [] c0).
Proof.
  intros O q c0 fuel sols local H. unfold performOa. eexists. split.
  - cbn [oa_loop]. unfold oa_start at 1 2. cbn [a_int a_feas].
    assert (E : emax MInf (s_low (o_sub O [] c0)) = s_low (o_sub O [] c0)) by (destruct (s_low (o_sub O [] c0)); reflexivity).
    rewrite E. destruct H as [H|H]; rewrite H; [rewrite andb_false_r|]; reflexivity.
  - unfold oa_start. cbn. repeat split. destruct (s_low (o_sub O [] c0)); reflexivity.
Qed.
Print Assumptions C59_idle.
Example C59_sound_met : sound exVal exOr2.
Proof.
  constructor.
  - reflexivity.
  - intros vis c p f V L. apply exVal_ge2 in V. cbn [o_sub exOr2]. destruct (pick vis); cbn [s_low ext_ltb]; apply Qltb_ge; lra.
  - intros vis c p E I. exfalso. cbn [o_sub exOr2] in E. destruct (pick vis) as [p'|] eqn:PK; cbn [s_sol] in E; [|discriminate].
    injection E as ->. exact (pick_new _ _ PK I).
  - intros vis c p l A B C E I. exfalso. unfold l in E. cbn [o_lp exOr2] in E. destruct (pick vis) as [p'|] eqn:PK; cbn [l_int] in E; [|discriminate].
    injection E as ->. exact (pick_new _ _ PK I).
Qed.
Definition exQ := mkParams (1 # 100) (1 # 1000) 100 100.
Example C59_example : (do s <- performOa 10 exOr2 exQ PInf 0 0; Ok (a_vis s, a_ub s, a_cut s, a_mb s)) =
  Ok ([[1%Z]; [0%Z]], Fin 2, Fin (198 # 100), Fin 1).
Proof. vm_compute. reflexivity. Qed.

(** ** C60 *)
(** With a limit on the number of solutions the loop can go on for ever: the local
    search is skipped and the same point is solved again and again. *)
Definition stuckQ := mkParams (1 # 100) 0 100 0.
Lemma stuck_loop : forall fuel k vis, mem [1%Z] vis = false ->
  oa_loop fuel exOr2 stuckQ (mkOa ([0%Z] :: vis) (Fin 4) (Fin (new_cutoff 4 (1 # 100))) (Fin 1) 1 1 (Some [0%Z]) true true k) = Diverges.
Proof.
  induction fuel as [|fuel IH]; intros k vis M; [reflexivity|].
  assert (PK : pick ([0%Z] :: [0%Z] :: vis) = Some [1%Z]).
  { unfold pick. assert (A : mem [0%Z] ([0%Z] :: [0%Z] :: vis) = true) by (apply mem_in; left; reflexivity).
    assert (B : mem [1%Z] ([0%Z] :: [0%Z] :: vis) = mem [1%Z] vis) by reflexivity. rewrite A, B, M. reflexivity. }
  cbn [oa_loop a_int a_feas andb]. unfold oa_pass. cbn [a_last o_nlp exOr2 a_cut a_vis a_ub a_sols a_mb a_local a_pass]. cbv zeta.
  change (exVal [0%Z]) with (Some 4). cbv iota. change (ext_ltb (Fin 4) (Fin (new_cutoff 4 (1 # 100)))) with false. cbv iota. cbn [bind o_cuts exOr2 o_late].
  change (chk (negb (Nat.eqb 1 0))) with (Ok tt). cbn [bind o_lp exOr2].
  match goal with |- context [pick ?x] => replace (pick x) with (Some [1%Z]) by (symmetry; exact PK) end. cbn [l_opt l_lim l_obj l_int negb andb].
  change (ext_ltb (Fin 1) (Fin (new_cutoff 4 (1 # 100)))) with true. cbv iota. change (pt_eqb [1%Z] [0%Z]) with false. cbn [negb]. cbv iota.
  cbn [q_gap stuckQ q_maxLocal q_maxSols].
  change (gap_small (Fin 4) (Fin 1) 0) with false. cbv iota. change (Nat.ltb 1 0) with false. rewrite andb_false_r.
  cbn [bind]. apply (IH (S k) ([0%Z] :: vis)). unfold mem in *. cbn [existsb]. change (pt_eqb [1%Z] [0%Z]) with false. exact M.
Qed.
Theorem C60_refuted : ~ C60_full.
Proof.
  intros H. destruct (H exVal exOr2 stuckQ PInf 0%nat 0%nat C59_sound_met eq_refl) as (fuel & F).
  { exists [[0%Z]; [1%Z]]. intros vis c p E. cbn [o_sub exOr2] in E. unfold pick in E.
    destruct (mem [0%Z] vis); [destruct (mem [1%Z] vis)|]; cbn [s_sol] in E; try discriminate; injection E as <-; simpl; auto. }
  apply F. destruct fuel as [|fuel]; [reflexivity|]. exact (stuck_loop fuel 1 [] eq_refl).
Qed.
Print Assumptions C60_refuted.
(** With room left in both limits the loop ends after at most one pass per integer point
    the sub-MIP can return. *)
Theorem C60_ends_partial : forall val O q c0 U sols local fuel, sound val O ->
  (forall vis c p, s_sol (o_sub O vis c) = Some p -> In p U) ->
  (S local + length U <= q_maxLocal q)%nat -> (sols + length U < q_maxSols q)%nat -> (length U < fuel)%nat ->
  performOa fuel O q c0 sols local <> Diverges.
Proof. intros val O q c0 U sols local fuel SO HU. exact (run_ends val O q c0 SO U HU sols local fuel). Qed.
Print Assumptions C60_ends_partial.
(** The feasibility checker always ends, after at most one pass per integer point the LP
    can return, with every visited point closed. *)
Theorem C60_checker : forall val O decr c0 U a fuel, sound val O -> 0 <= decr -> In a U ->
  (forall vis c p, l_int (o_lp O vis c) = Some p -> In p U) -> (length U < fuel)%nat ->
  exists s, fc_run fuel O decr c0 a = Ok s /\ fc_right val decr c0 s /\ NoDup (f_vis s) /\ incl (f_vis s) U.
Proof.
  intros val O decr c0 U a fuel SO DP IA HU FU. unfold fc_run. apply (fc_ends val O decr c0 SO DP U HU).
  - split; [left; split; reflexivity|]. split; [intros p []|reflexivity].
  - constructor; [intros []|constructor].
  - intros z [<-|[]]. exact IA.
  - cbn. lia.
Qed.
Print Assumptions C60_checker.
(** Whatever the solvers answer, sound or not, the feasibility checker never solves the
    NLP at the same integer point twice in a row. *)
Lemma fc_steps : forall fuel O decr a s s', match f_vis s with v :: _ => v <> a | [] => True end -> no_repeat (f_vis s) ->
  fc_loop fuel O decr a s = Ok s' -> no_repeat (f_vis s').
Proof.
  induction fuel as [|fuel IH]; intros O decr a s s' HD NR R; [discriminate R|].
  assert (NR' : no_repeat (a :: f_vis s)) by (cbn [no_repeat]; destruct (f_vis s) as [|v l]; [exact Logic.I|split; [congruence|exact NR]]).
  cbn [fc_loop] in R. cbv zeta in R.
  set (uc := match o_nlp O a with Some f => _ | None => _ end) in R.
  set (l := o_lp O _ _) in R. set (feas := (l_opt l && _ && _)%bool) in R.
  destruct feas eqn:F.
  - destruct (l_int l) as [b|] eqn:LI.
    + destruct (pt_eqb b a) eqn:E; cbn [negb andb] in R.
      * assert (S : s' = mkFc (a :: f_vis s) (snd uc) big2 (fst uc)) by congruence. subst s'. exact NR'.
      * apply IH in R; [exact R| |exact NR'].
        cbn [f_vis]. intros ->. rewrite pt_eqb_refl in E. discriminate E.
    + cbn [negb andb] in R. assert (S : s' = mkFc (a :: f_vis s) (snd uc) (f_mb s) (fst uc)) by congruence. subst s'. exact NR'.
  - rewrite andb_false_r in R. assert (S : s' = mkFc (a :: f_vis s) (snd uc) (f_mb s) (fst uc)) by congruence. subst s'. exact NR'.
Qed.
Theorem C60_checker_moves : forall fuel O decr c0 a s, fc_run fuel O decr c0 a = Ok s -> no_repeat (f_vis s).
Proof. intros fuel O decr c0 a s. apply fc_steps; exact Logic.I. Qed.
Print Assumptions C60_checker_moves.
Example C60_checker_example : (do s <- fc_run 10 exOr2 (1 # 100) PInf [0%Z]; Ok (f_vis s, f_ub s, f_cut s)) =
  Ok ([[1%Z]; [0%Z]], Fin 2, Fin (198 # 100)).
Proof. vm_compute. reflexivity. Qed.
Example C60_hypotheses_met : sound exVal exOr2 /\ (forall vis c p, s_sol (o_sub exOr2 vis c) = Some p -> In p [[0%Z]; [1%Z]]) /\
  (1 + 2 <= q_maxLocal exQ)%nat /\ (0 + 2 < q_maxSols exQ)%nat /\ performOa 3 exOr2 exQ PInf 0 0 <> Diverges.
Proof.
  assert (U : forall vis c p, s_sol (o_sub exOr2 vis c) = Some p -> In p [[0%Z]; [1%Z]]).
  { intros vis c p E. cbn [o_sub exOr2] in E. unfold pick in E.
    destruct (mem [0%Z] vis); [destruct (mem [1%Z] vis)|]; cbn [s_sol] in E; try discriminate; injection E as <-; simpl; auto. }
  split; [exact C59_sound_met|]. split; [exact U|]. split; [cbn; lia|]. split; [cbn; lia|].
  apply (C60_ends_partial exVal exOr2 exQ PInf [[0%Z]; [1%Z]] 0 0 3 C59_sound_met U); cbn; lia.
Qed.
