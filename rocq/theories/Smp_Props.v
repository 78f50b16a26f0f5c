(** The solver of MILP sub-problems: properties. *)
From Coq Require Import Lqa.
From Verif Require Import Base Arr Smp_Model Smp_Spec Smp_Proofs Smp_Proofs2.
#[local] Open Scope Q_scope.

(** ** Solvers for the examples *)
Definition cbc0 (x : list Q) : prob -> cbc_par -> cbc_ans := fun _ _ => mkCbc MInf false false 1 x 4 9.
Definition cbc_none : prob -> cbc_par -> cbc_ans := fun _ _ => mkCbc MInf false false 0 [] 4 9.
Definition cpx0 (st : stat) (x : option (list Q)) : nat -> prob -> list row -> cpx_par -> cpx_ans :=
  fun _ _ _ _ => mkCpx st MInf (has_solution st) x 1 7.
Definition clock : nat -> Q := fun k => inject_Z (Z.of_nat k).
(** min x, 0 <= x <= 4 integer. *)
Definition p1 : prob := mkProb [1] [Fin 0] [Fin 4] [true] [].
(** min -x, x >= 0 integer. *)
Definition p2 : prob := mkProb [-1] [Fin 0] [PInf] [true] [].
Lemma honest_cbc_none p : honest_cbc cbc_none p.
Proof. split; intros; cbn in *; try discriminate; try contradiction. exact Logic.I. Qed.
Definition below_b (cutoff : ext) (v : Q) : bool := match cutoff with PInf => true | Fin c => Qltb v c | MInf => false end.
Lemma below_b_ok c v : below_b c v = true <-> below c v.
Proof. destruct c; cbn; split; try discriminate; try tauto; intros H; [apply Qltb_lt in H; exact H | apply Qltb_lt; exact H]. Qed.
(** Solvers that are right about [p1], whose best solution is 0. *)
Definition cbc1 : prob -> cbc_par -> cbc_ans := fun _ g =>
  if below_b (g_cutoff g) 0 then mkCbc (Fin 0) true false 1 [0] 4 9 else mkCbc PInf false true 0 [] 1 1.
Definition cpx1 : nat -> prob -> list row -> cpx_par -> cpx_ans := fun _ _ _ par =>
  if below_b (cut_of par) 0 then mkCpx Optimal (Fin 0) true (Some [0]) 5 7 else mkCpx Infeasible PInf false None 1 1.
Lemma sol_p1 y : solution p1 y -> exists a, y = [a] /\ 0 <= a.
Proof.
  intros (L & B & _). unfold ncols in *. cbn in L. destruct y as [|a [|b y]]; try discriminate. exists a. split; [reflexivity|].
  destruct (B 0%nat ltac:(cbn; lia)) as (H & _). exact H.
Qed.
Lemma val_p1 a : value p1 [a] == a.
Proof. unfold value. cbn. lra. Qed.
Lemma sol0_p1 : solution p1 [0].
Proof.
  split; [reflexivity|]. split; [|constructor]. unfold ncols. cbn. intros [|i] L; [|lia]. cbn. split; [lra|]. split; [lra|]. intros _. exists 0%Z. reflexivity.
Qed.
Lemma below_val c v w : v == w -> below c v -> below c w.
Proof. destruct c; cbn; auto. intros ->. auto. Qed.
Lemma below_le c v w : w <= v -> below c v -> below c w.
Proof. destruct c; cbn; auto. intros. lra. Qed.
Lemma want0_p1 c : below_b c 0 = true -> wanted p1 c [0].
Proof. intros H. apply below_b_ok in H. split; [exact sol0_p1|]. eapply below_val; [|exact H]. symmetry. apply val_p1. Qed.
Lemma want_p1 c y : wanted p1 c y -> below_b c 0 = true /\ 0 <= value p1 y.
Proof.
  intros (S1 & B). destruct (sol_p1 y S1) as (a & -> & A). pose proof (val_p1 a). split; [|lra]. apply below_b_ok. eapply below_le; [|exact B]. lra.
Qed.
Lemma near0 g v : 0 <= g -> 0 <= v -> near g (value p1 [0]) v.
Proof. intros G V. unfold near. pose proof (val_p1 0) as E. pose proof (Qabs_nonneg (value p1 [0])) as A. assert (0 <= g * (Qabs (value p1 [0]) + (1 # 10000000000))) by (apply Qmult_le_0_compat; lra). lra. Qed.
Lemma qmax_nonneg x : 0 <= qmax 0 x.
Proof. unfold qmax. destruct (Qltb 0 x) eqn:E; [apply Qltb_lt in E; lra | lra]. Qed.
Lemma honest_cbc1 : honest_cbc cbc1 p1.
Proof.
  split; unfold cbc1.
  - intros g. destruct (below_b (g_cutoff g) 0) eqn:E; cbn; [intros _; apply want0_p1, E | congruence].
  - intros g y. destruct (below_b (g_cutoff g) 0) eqn:E; cbn [a_opt a_sols a_best]; [|discriminate]. intros _ Y. split; [discriminate|]. apply near0; [apply qmax_nonneg | apply (want_p1 _ _ Y)].
  - intros g y. destruct (below_b (g_cutoff g) 0) eqn:E; cbn; [discriminate|]. intros _ Y. apply want_p1 in Y. destruct Y. congruence.
  - intros g y Y. destruct (want_p1 _ _ Y) as (-> & V). exact V.
Qed.
Lemma honest_cpx1 : honest_cpx cpx1 p1 [].
Proof.
  split; unfold cpx1; rewrite ?all_rows_nil.
  - intros k par. destruct (below_b (cut_of par) 0); cbn; split; intros H; try reflexivity; eauto; try discriminate. destruct H as (x & H). discriminate.
  - intros k par. destruct (below_b (cut_of par) 0); reflexivity.
  - intros k par x. destruct (below_b (cut_of par) 0) eqn:E; cbn; [|discriminate]. intros H. injection H as <-. apply want0_p1, E.
  - intros k par y x. destruct (below_b (cut_of par) 0) eqn:E; cbn [x_stat x_x]; [|discriminate]. intros _ Y H. injection H as <-. apply near0; [apply qmax_nonneg | apply (want_p1 _ _ Y)].
  - intros k par y. destruct (below_b (cut_of par) 0) eqn:E; cbn; [discriminate|]. intros _ Y. apply want_p1 in Y. destruct Y. congruence.
  - intros k par. destruct (below_b (cut_of par) 0); cbn; discriminate.
  - intros k par y Y. destruct (want_p1 _ _ Y) as (-> & V). exact V.
Qed.
(** [p2] is unbounded. *)
Lemma p2_unbounded : unbounded p2.
Proof.
  intros b. exists [inject_Z (Z.max 0 (Qround.Qceiling (- b) + 1))]. pose proof (Qround.Qle_ceiling (- b)) as C.
  assert (M : inject_Z (Qround.Qceiling (- b) + 1) <= inject_Z (Z.max 0 (Qround.Qceiling (- b) + 1))) by (rewrite <- Zle_Qle; lia).
  assert (N : inject_Z 0 <= inject_Z (Z.max 0 (Qround.Qceiling (- b) + 1))) by (rewrite <- Zle_Qle; lia).
  rewrite inject_Z_plus in M. change (inject_Z 1) with 1 in M. change (inject_Z 0) with 0 in N. split.
  - split; [reflexivity|]. split; [|constructor]. unfold ncols. cbn [length p_obj p2]. intros [|i] L; [|lia]. cbn [nth p_lo p_up p_int p2]. split; [exact N|]. split; [exact Logic.I|].
    intros _. eexists. reflexivity.
  - unfold value. cbn [p_obj p2 combine map fst snd qsum]. set (z := inject_Z (Z.max 0 (Qround.Qceiling (- b) + 1))) in *. cbn. lra.
Qed.
(** A run of CPLEX with no solution and no bound. *)
Lemma honest_nothing st p : has_solution st = false -> st <> Infeasible -> (st = InfOrUnbd -> unbounded p) -> honest_cpx (cpx0 st None) p [].
Proof.
  intros H N U. split; unfold cpx0; cbn; intros.
  - rewrite H. split; [intros (x & E); discriminate | discriminate].
  - reflexivity.
  - discriminate.
  - discriminate.
  - contradiction.
  - right. rewrite all_rows_nil. auto.
  - exact Logic.I.
Qed.
(** An object that uses CPLEX, one that uses Cbc. *)
Definition o_cpx (p : prob) : sub := mkSub None false (Some (p, no_par)) MInf false None false None None GetOptimum (1 # 1000).
Definition o_clp : sub := mkSub (Some 0%nat) false None MInf false None true None None GetOptimum (1 # 1000).

(** *** C235 *)
Theorem C235_refuted : ~ C235_full.
Proof.
  intros H. apply (H true cbc_none (cpx0 Optimal None) clock [CNew p1; ONew false GetOptimum 0; OSet 0 (Some 0%nat); OCopy 0; ODestroy 0; CDelete 0; OOpt 1 PInf 1]).
  - intros pre h post E (i & a & b & P & Q1).
    destruct pre as [|o1 pre]; [discriminate|]. injection E as <- E. destruct pre as [|o2 pre]; [discriminate|]. injection E as <- E. destruct pre as [|o3 pre]; [discriminate|]. injection E as <- E.
    destruct pre as [|o4 pre]; [discriminate|]. injection E as <- E. destruct pre as [|o5 pre]; [discriminate|]. injection E as <- E.
    destruct pre as [|o6 pre].
    + injection E as <- _. destruct a as [|a1 a]; [discriminate|]. injection P as _ P. destruct a as [|a2 a]; [discriminate|]. injection P as _ P.
      destruct a as [|a3 a].
      * injection P as <- <-. apply (proj1 (Q1 (ODestroy 0) (or_intror (or_introl eq_refl)))). reflexivity.
      * injection P as _ P. destruct a as [|a4 a]; [discriminate|]. injection P as _ P. destruct a as [|a5 a]; [discriminate|]. injection P as _ P. destruct a; discriminate.
    + injection E as _ E. destruct pre as [|o7 pre]; [discriminate|]. injection E as _ E. destruct pre; discriminate.
  - vm_compute. reflexivity.
Qed.
Print Assumptions C235_refuted.
(** If no LP is deleted that solver() of an object still returns, no deleted LP is ever used or deleted again. *)
Theorem C235_partial : forall nd cbc cplex el ops, careful nd cbc cplex el ops start -> run nd cbc cplex el ops start <> Dangling.
Proof. intros. apply careful_run; [apply inv_start | apply live_start | assumption]. Qed.
Print Assumptions C235_partial.
Example C235_partial_ex : let ops := [CNew p1; ONew false GetOptimum 0; OSet 0 (Some 0%nat); OCopy 0; OOpt 0 PInf 1; OOpt 1 PInf 1; ODestroy 0; ODestroy 1; CDelete 0] in
  careful true (cbc0 [0]) (cpx0 Optimal None) clock ops start /\ exists w, run true (cbc0 [0]) (cpx0 Optimal None) clock ops start = Ok w /\ length (heap w) = 2%nat.
Proof.
  split; [|eexists; split; [vm_compute; reflexivity | reflexivity]].
  Ltac nextop := split; [exact Logic.I|]; let w := fresh "w" in let E := fresh "E" in intros w E; vm_compute in E; injection E as <-.
  do 8 nextop. split; [|intros; exact Logic.I]. intros [|[|i]] s H; try discriminate. destruct i; discriminate.
Qed.

(** *** C236 *)
Theorem C236_owned : forall nd cbc cplex el ops w, run nd cbc cplex el ops start = Ok w -> C236_spec w.
Proof. intros. eapply inv_spec, inv_run; [apply inv_start | eassumption]. Qed.
Print Assumptions C236_owned.
(** When all objects are gone, all LPs they made are gone. *)
Theorem C236_no_leak : forall nd cbc cplex el ops w, run nd cbc cplex el ops start = Ok w -> (forall i s, ~ obj_at w i s) -> forall h, alive w h -> of_client w h.
Proof.
  intros nd cbc cplex el ops w R N h A. destruct (C236_owned _ _ _ _ _ _ R) as (H & _). destruct (Bool.bool_dec (c_client (nth h (heap w) dcell)) true) as [E|E]; [exact E|].
  destruct (H h A E) as (i & s & O & _). destruct (N i s O).
Qed.
Print Assumptions C236_no_leak.
(** An LP of a client goes only when the client deletes it; it changes only when the client changes it or loads a problem through solver(). *)
Theorem C236_clients : forall nd cbc cplex el ops w o w' h, run nd cbc cplex el ops start = Ok w -> step nd cbc cplex el w o = Ok w' -> of_client w h -> alive w h -> o <> CDelete h ->
  of_client w' h /\ alive w' h /\ (nth h (heap w') dcell = nth h (heap w) dcell \/ (exists p, o = CChange h p) \/ exists i p s, o = OLoad i p /\ obj_at w i s /\ s_clp s = Some h).
Proof. intros. eapply client_step; eauto. eapply inv_run; [apply inv_start | eassumption]. Qed.
Print Assumptions C236_clients.
Example C236_ex : exists w, run true (cbc0 [0]) (cpx0 Optimal None) clock [ONew false GetOptimum 0; OLoad 0 p1; OCopy 0; CNew p2; OSet 0 (Some 2%nat); ODestroy 0] start = Ok w /\
  heap w = [mkCell None false; mkCell (Some p1) false; mkCell (Some p2) true] /\ (exists s, obj_at w 1 s /\ s_own s = true /\ s_clp s = Some 1%nat).
Proof. eexists. split; [vm_compute; reflexivity|]. split; [reflexivity|]. eexists. split; [reflexivity|]. split; reflexivity. Qed.

(** *** C237 *)
Theorem C237_refuted : ~ C237_full.
Proof.
  intros H. apply (H true (cbc0 [0; 0]) (cpx0 Optimal None) clock [ONew false GetOptimum 0; OLoad 0 p1; OOpt 0 PInf 1; OLoad 0 (mkProb [1; 1] [Fin 0; Fin 0] [Fin 4; Fin 4] [true; true] []); OOpt 0 PInf 1]).
  vm_compute. reflexivity.
Qed.
Print Assumptions C237_refuted.
Theorem C237_partial : forall nd cbc cplex el ops, steady nd cbc cplex el ops start -> run nd cbc cplex el ops start <> OutOfBounds.
Proof. intros. apply steady_run; [apply inv_start | apply roomy_start | assumption]. Qed.
Print Assumptions C237_partial.
Example C237_partial_ex : let ops := [ONew false GetOptimum 0; OLoad 0 p1; OOpt 0 PInf 1; OLoad 0 p2; OOpt 0 PInf 1] in
  steady true (cbc0 [0]) (cpx0 Optimal None) clock ops start /\ exists w s, run true (cbc0 [0]) (cpx0 Optimal None) clock ops start = Ok w /\ obj_at w 0 s /\ s_sol s = Some [Some 0].
Proof.
  split; [|eexists; eexists; split; [vm_compute; reflexivity | split; reflexivity]].
  split; [exact Logic.I|]. intros w1 E; vm_compute in E; injection E as <-. split.
  { split.
    - intros [|j] s t h q _ _ H _ N _; [|destruct j; discriminate]. unfold obj_at in H. cbn in H. injection H as <-. cbn in N. congruence.
    - intros s q par H _ N. unfold obj_at in H. cbn in H. injection H as <-. cbn in N. congruence. }
  intros w2 E; vm_compute in E; injection E as <-. split; [exact Logic.I|]. intros w3 E; vm_compute in E; injection E as <-. split.
  { split.
    - intros [|j] s t h q H1 C1 H _ N P; [|destruct j; discriminate]. unfold obj_at in H1. cbn in H1. injection H1 as <-. cbn in C1. injection C1 as <-. cbn in P. injection P as <-. vm_compute. lia.
    - intros s q par H X N. unfold obj_at in H. cbn in H. injection H as <-. cbn in X. discriminate. }
  intros w4 E; vm_compute in E; injection E as <-. split; [exact Logic.I|]. intros; exact Logic.I.
Qed.

(** *** C238 *)
Theorem C238_refuted : ~ C238_full.
Proof.
  intros H. destruct (H true cbc_none (cpx0 Unbounded None) clock PInf 1 (o_cpx p2) [] p2
    (mkSub None false (Some (p2, mkPar (Some 1) None (Some PInf) (Some (qmax 0 ((1 # 1000) - (1 # 1000) * (1 # 10)))) None None false)) MInf false (Some [None]) false (Some 1%Z) (Some 7%Z) GetOptimum (1 # 1000)) [None]) as (x & E & _).
  - unfold problem_of. cbn. eauto.
  - apply honest_cbc_none.
  - apply honest_nothing; try reflexivity; discriminate.
  - exact Logic.I.
  - right. reflexivity.
  - reflexivity.
  - destruct x; discriminate.
Qed.
Print Assumptions C238_refuted.
(** With Cbc always; with CPLEX when it does not end with "unbounded" or at the deterministic time limit without solution. *)
Theorem C238_partial : forall nd cbc cplex el cutoff tmax s m p s' a, problem_of s m p -> honest_cbc cbc p -> honest_cpx cplex p [] -> fits s p ->
  (s_clp s = None -> forall k par, x_stat (cplex k p [] par) <> Unbounded /\ x_stat (cplex k p [] par) <> DetTimeLimInfeas) ->
  solves nd cbc cplex el cutoff tmax s m s' -> s_sol s' = Some a -> exists x, a = map Some x /\ wanted p cutoff x.
Proof. intros. eapply C238_holds; eauto. intros N k par [O | O]; destruct (H3 N k par); contradiction. Qed.
Print Assumptions C238_partial.
Example C238_partial_ex : exists s', solves true cbc1 cpx1 clock (Fin 3) 1 (o_cpx p1) [] s' /\ s_sol s' = Some (map Some [0]) /\ wanted p1 (Fin 3) [0].
Proof. eexists. split; [right; vm_compute; reflexivity|]. split; [reflexivity | apply want0_p1; reflexivity]. Qed.
Example C238_partial_ex2 : exists s', solves true cbc1 cpx1 clock (Fin 3) 1 o_clp [mkCell (Some p1) true] s' /\ s_sol s' = Some (map Some [0]).
Proof. eexists. split; [left; exists 0%nat; vm_compute; reflexivity | reflexivity]. Qed.
(** After such an end the array is what it was before, or has never been written. *)
Theorem C238_stale : forall nd cbc cplex el cutoff tmax s m p s', problem_of s m p -> s_clp s = None -> honest_cpx cplex p [] ->
  (forall k par, x_stat (cplex k p [] par) = Unbounded \/ x_stat (cplex k p [] par) = DetTimeLimInfeas) ->
  solves nd cbc cplex el cutoff tmax s m s' -> s_sol s' = Some (match s_sol s with Some a => a | None => fresh (ncols p) end).
Proof.
  intros nd cbc cplex el c t s m p s' P N Hx O E. destruct (solves_cases _ _ _ _ _ _ _ _ _ _ P E) as [(A & _) | (_ & k & par & _ & _ & _ & _ & _ & B)]; [congruence|].
  destruct (x_x (cplex k p [] par)) as [x|] eqn:X.
  - assert (H : has_solution (x_stat (cplex k p [] par)) = true) by (apply (hx_sol _ _ _ Hx); eauto). destruct (O k par) as [F | F]; rewrite F in H; discriminate.
  - unfold get_mipx in B. rewrite X in B. destruct (O k par) as [F | F]; rewrite F in B; cbn in B; congruence.
Qed.
Print Assumptions C238_stale.

(** *** C239 *)
Theorem C239_refuted : ~ C239_full.
Proof.
  intros H. pose proof (H true cbc_none (cpx0 InfOrUnbd None) clock PInf 1 (o_cpx p2) [] p2
    (mkSub None false (Some (p2, mkPar (Some 1) None (Some PInf) (Some (qmax 0 ((1 # 1000) - (1 # 1000) * (1 # 10)))) None None false)) MInf true None false (Some 1%Z) (Some 7%Z) GetOptimum (1 # 1000))) as G.
  assert (P : problem_of (o_cpx p2) [] p2) by (unfold problem_of; cbn; eauto).
  specialize (G P (honest_cbc_none _) (honest_nothing InfOrUnbd p2 eq_refl ltac:(discriminate) (fun _ => p2_unbounded)) Logic.I ltac:(cbn; lra) ltac:(right; reflexivity) eq_refl).
  unfold proved in G. cbn [s_sol] in G. destruct (p2_unbounded 0) as (y & Y & _). apply (G y). split; [exact Y | exact Logic.I].
Qed.
Print Assumptions C239_refuted.
Theorem C239_partial : forall nd cbc cplex el cutoff tmax s m p s', problem_of s m p -> honest_cbc cbc p -> honest_cpx cplex p [] -> fits s p -> 0 <= s_gap s ->
  (s_clp s = None -> ~ unbounded p) ->
  solves nd cbc cplex el cutoff tmax s m s' -> s_opt s' = true -> proved p cutoff (s_gap s) s'.
Proof. intros. eapply C239_holds; eauto. Qed.
Print Assumptions C239_partial.
Example C239_partial_ex : exists s', solves true cbc1 cpx1 clock (Fin 3) 1 (o_cpx p1) [] s' /\ s_opt s' = true /\ proved p1 (Fin 3) (1 # 1000) s' /\ s_sol s' <> None.
Proof.
  eexists. split; [right; vm_compute; reflexivity|]. split; [reflexivity|]. split; [|discriminate].
  exists [0]. split; [reflexivity|]. split; [apply want0_p1; reflexivity|]. intros y Y. apply near0; [lra | apply (want_p1 _ _ Y)].
Qed.
Example C239_partial_ex2 : exists s', solves true cbc1 cpx1 clock (Fin (-1)) 1 (o_cpx p1) [] s' /\ s_opt s' = true /\ s_sol s' = None.
Proof. eexists. split; [right; vm_compute; reflexivity|]. split; reflexivity. Qed.

(** *** C240: lowBound() is a lower bound on the values of the solutions asked for. *)
Theorem C240_bound : forall nd cbc cplex el cutoff tmax s m p s' y, problem_of s m p -> honest_cbc cbc p -> honest_cpx cplex p [] ->
  solves nd cbc cplex el cutoff tmax s m s' -> wanted p cutoff y -> ext_le (s_low s') (value p y).
Proof. intros. eapply C240_holds; eauto. Qed.
Print Assumptions C240_bound.
Example C240_ex : exists s', solves true cbc1 cpx1 clock (Fin 3) 1 (o_cpx p1) [] s' /\ s_low s' = Fin 0 /\ wanted p1 (Fin 3) [0].
Proof. eexists. split; [right; vm_compute; reflexivity|]. split; [reflexivity | apply want0_p1; reflexivity]. Qed.

(** *** C241: find_good_sol returns if every run of CPLEX takes some time, and only with a solution, a proof, or out of time. *)
Theorem C241_ends : forall cbc cplex el d cutoff tmax s m, 0 < d -> (forall k, el k + d <= el (S k)) ->
  exists n, forall fuel, (n <= fuel)%nat -> find_good_sol cbc cplex el fuel cutoff tmax s m <> Diverges.
Proof. intros. eapply C241_ends_holds; eauto. Qed.
Print Assumptions C241_ends.
Theorem C241_exit : forall cbc cplex el fuel cutoff tmax s m p s', problem_of s m p -> s_clp s = None -> honest_cpx cplex p [] -> fits s p ->
  find_good_sol cbc cplex el fuel cutoff tmax s m = Ok s' ->
  s_opt s' = true \/ (exists x, s_sol s' = Some (map Some x) /\ wanted p cutoff x) \/ (exists k par, x_stat (cplex k p [] par) = TimeLimInfeas) \/ exists k, tmax < el k.
Proof. intros. eapply C241_exit_holds; eauto. Qed.
Print Assumptions C241_exit.
(** CPLEX stops twice at the node limit before it finds the solution. *)
Definition cpx_slow : nat -> prob -> list row -> cpx_par -> cpx_ans := fun k p lz par => if Nat.ltb k 2 then mkCpx NodeLimInfeas (Fin 0) false None 1000 7 else cpx1 k p lz par.
Example C241_ex : exists s', find_good_sol cbc1 cpx_slow clock 9 (Fin 3) 5 (o_cpx p1) [] = Ok s' /\ s_sol s' = Some [Some 0] /\ s_opt s' = true.
Proof. eexists. split; [vm_compute; reflexivity|]. split; reflexivity. Qed.
Example C241_ex2 : exists s', find_good_sol cbc1 cpx_slow clock 9 (Fin 3) 1 (o_cpx p1) [] = Ok s' /\ s_opt s' = true.
Proof. eexists. split; [vm_compute; reflexivity|]. reflexivity. Qed.

(** *** C242 *)
Theorem C242_refuted : ~ C242_full.
Proof.
  intros H. destruct (H true cbc1 cpx1 clock PInf 1 (o_cpx p1) [] p1
    (mkSub None false (Some (p1, mkPar (Some 1) (Some (1 # 100000000)) (Some PInf) (Some (1 # 1000)) (Some 10%Z) (Some 1000%Z) false)) (Fin 0) true (Some [Some 0]) false (Some 10%Z) (Some 7%Z) GetOptimum (1 # 1000))) as (n & E & G).
  - unfold problem_of. cbn. eauto.
  - exact honest_cpx1.
  - left. exists 1%nat. reflexivity.
  - cbn in E. injection E as <-. destruct G as [(g & G) | (k & par & G)].
    + unfold cbc1 in G. destruct (below_b (g_cutoff g) 0); discriminate.
    + unfold cpx1 in G. destruct (below_b (cut_of par) 0); discriminate.
Qed.
Print Assumptions C242_refuted.
(** optimize reports the number of nodes of its run, and so does find_good_sol with Cbc; find_good_sol with CPLEX reports twice the number of the last run unless there is no solution. *)
Theorem C242_partial : forall nd cbc cplex el cutoff tmax s m p s', problem_of s m p ->
  (optimize nd cbc cplex cutoff tmax s m = Ok s' -> (exists g, g_cutoff g = cutoff /\ s_nodes s' = Some (a_nodes (cbc p g))) \/ exists par, cut_of par = cutoff /\ s_nodes s' = Some (x_nodes (cplex 0%nat p [] par))) /\
  (forall fuel, find_good_sol cbc cplex el fuel cutoff tmax s m = Ok s' -> (s_clp s <> None /\ exists g, g_cutoff g = cutoff /\ s_nodes s' = Some (a_nodes (cbc p g))) \/
     (s_clp s = None /\ exists k par, cut_of par = cutoff /\ s_low s' = x_bound (cplex k p [] par) /\
        s_nodes s' = Some (match s_sol s' with None => x_nodes (cplex k p [] par) | Some _ => 2 * x_nodes (cplex k p [] par) end)%Z)).
Proof.
  intros nd cbc cplex el c t s m p s' P. split.
  - intros E. destruct (opt_cases _ _ _ _ _ _ _ _ _ P E) as [(_ & (_ & _ & N & _) & _) | (_ & par & C & _ & _ & N)]; [left | right].
    + eexists. split; [|exact N]. reflexivity.
    + exists par. auto.
  - intros f E. destruct (find_cases _ _ _ _ _ _ _ _ _ _ P E) as [(A & (_ & _ & N & _) & _) | (A & k & par & C & _ & (Lo & _ & _ & B) & N & _)]; [left | right]; (split; [exact A|]).
    + eexists. split; [|exact N]. reflexivity.
    + exists k, par. split; [exact C|]. split; [exact Lo|]. rewrite N. destruct (is_infeasible (x_stat (cplex k p [] par))) eqn:I.
      * rewrite B. reflexivity.
      * destruct (get_mipx_oc (ncols p) (cplex k p [] par) (s_sol s)) as [(b & F & _) | (F & _)]; rewrite F in B; [injection B as <- | discriminate]. f_equal. lia.
Qed.
Print Assumptions C242_partial.
Example C242_partial_ex : exists s', optimize true cbc1 cpx1 (Fin 3) 1 (o_cpx p1) [] = Ok s' /\ s_nodes s' = Some 5%Z.
Proof. eexists. split; [vm_compute; reflexivity | reflexivity]. Qed.

(** *** C243 *)
(** min 0, 0 <= x <= 4, x = 1: the row is given as a cut. *)
Definition eq_cut : row := mkRow [(0%nat, 1)] (Fin 1) (Fin 1).
Definition p3 : prob := mkProb [0] [Fin 0] [Fin 4] [false] [eq_cut].
Theorem C243_refuted : ~ C243_full.
Proof.
  intros H. destruct (H true cbc1 (cpx0 NodeLimInfeas None) PInf 1 [eq_cut] [] (o_cpx p3) [] p3 no_par
    (mkSub None false (Some (with_rows p3 [mkRow [(0%nat, 1)] MInf (Fin 1)], mkPar (Some 1) None (Some PInf) (Some (1 # 1000)) None None true)) MInf false None false (Some 1%Z) (Some 7%Z) GetOptimum (1 # 1000))) as (q & par & E & S1).
  - reflexivity.
  - reflexivity.
  - reflexivity.
  - split; cbn; intros; try discriminate; try exact Logic.I; try reflexivity. split; [intros (x & X); discriminate | discriminate].
  - reflexivity.
  - injection E as <- _. assert (S2 : solution p3 [0]).
    { apply S1. split; [reflexivity|]. split.
      - unfold ncols. cbn. intros [|i] L; [|lia]. cbn. split; [lra|]. split; [lra | discriminate].
      - constructor; [|constructor]. split; cbn; [exact Logic.I | lra]. }
    destruct S2 as (_ & _ & R). inversion R as [|r l [R1 _] R2]. cbn in R1. lra.
Qed.
Print Assumptions C243_refuted.
(** For cuts with one side the problem is the same afterwards, and the solve is one of the whole problem. *)
Theorem C243_partial : forall nd cbc cplex cutoff tmax cuts base s m p par s', s_clp s = None -> s_cpx s = Some (p, par) -> p_rows p = base ++ cuts ->
  Forall (fun r => w_up r = PInf \/ w_lo r = MInf) cuts -> optimize_lazy nd cbc cplex cutoff tmax cuts s m = Ok s' ->
  (exists par', s_cpx s' = Some (p, par')) /\
  (honest_cpx cplex (with_rows p base) cuts -> fits s p -> 0 <= s_gap s -> ~ unbounded p -> s_opt s' = true -> proved p cutoff (s_gap s) s') /\
  (honest_cpx cplex (with_rows p base) cuts -> forall y, wanted p cutoff y -> ext_le (s_low s') (value p y)).
Proof. intros. eapply C243_holds; eauto. Qed.
Print Assumptions C243_partial.
(** For the other cuts the lower side is lost, for this solve and for good. *)
Theorem C243_lost : forall nd cbc cplex cutoff tmax cuts base s m p par s', s_clp s = None -> s_cpx s = Some (p, par) -> p_rows p = base ++ cuts ->
  Forall (fun r => w_up r <> PInf) cuts -> optimize_lazy nd cbc cplex cutoff tmax cuts s m = Ok s' ->
  exists par', s_cpx s' = Some (with_rows p (base ++ map (fun r => mkRow (w_co r) MInf (w_up r)) cuts), par').
Proof.
  intros nd cbc cplex c t cuts base s m p par s' C X R F E. destruct (lazy_shape _ _ _ _ _ _ _ _ _ _ _ _ C X R E) as (par' & _ & _ & K & _). exists par'. rewrite K. do 4 f_equal.
  clear - F. induction F as [|r l H _ IH]; cbn [map]; [reflexivity|]. rewrite IH. f_equal. unfold as_lazy, lazy_row. destruct r as [co lo up]. cbn in *. destruct up; [| |congruence]; destruct lo; reflexivity.
Qed.
Print Assumptions C243_lost.
(** x >= -1 as a cut. *)
Definition p4 : prob := mkProb [1] [Fin 0] [Fin 4] [true] [mkRow [(0%nat, 1)] (Fin (-1)) PInf].
Example C243_partial_ex : exists s', optimize_lazy true cbc1 cpx1 (Fin 3) 1 (p_rows p4) (o_cpx p4) [] = Ok s' /\ s_opt s' = true /\ (exists par, s_cpx s' = Some (p4, par)) /\ s_sol s' = Some [Some 0].
Proof. eexists. split; [vm_compute; reflexivity|]. split; [reflexivity|]. split; [eexists; reflexivity | reflexivity]. Qed.

(** *** C244 *)
(** CPLEX that stops at the limit on the number of solutions, if there is one. *)
Definition cpx_lim : nat -> prob -> list row -> cpx_par -> cpx_ans := fun k p lz par =>
  match k_sols par with Some _ => mkCpx SolLim (Fin 0) true (Some [1]) 5 7 | None => cpx1 k p lz par end.
Theorem C244_refuted : ~ C244_full.
Proof.
  intros H. pose (ops := [ONew true GetOptimum (1 # 1000); OLoad 0 p1; OFind 0 1 (Fin 3) 1]).
  destruct (run true cbc1 cpx_lim clock ops start) as [w| | | | | | |] eqn:R; vm_compute in R; try discriminate. injection R as <-.
  pose proof (H true cbc1 cpx_lim clock ops _ 0%nat _ 0%nat (Fin 3) 1 eq_refl eq_refl) as (_ & G).
  vm_compute in G. destruct G as (_ & G & _). discriminate.
Qed.
Print Assumptions C244_refuted.
(** find_good_sol never depends on them, optimize does not with Cbc, and solve() does not if only solve() is used. *)
Theorem C244_partial : forall nd cbc cplex el ops w i s fuel cutoff tmax, run nd cbc cplex el ops start = Ok w -> obj_at w i s ->
  alike (find_good_sol cbc cplex el fuel cutoff tmax s (heap w)) (find_good_sol cbc cplex el fuel cutoff tmax (forget s) (heap w)) /\
  (s_clp s <> None -> alike (optimize nd cbc cplex cutoff tmax s (heap w)) (optimize nd cbc cplex cutoff tmax (forget s) (heap w))) /\
  (only_solves ops -> alike (solve nd cbc cplex el fuel cutoff tmax s (heap w)) (solve nd cbc cplex el fuel cutoff tmax (forget s) (heap w))).
Proof. intros. eapply C244_holds; eauto. Qed.
Print Assumptions C244_partial.
Example C244_partial_ex : let ops := [ONew true GetOptimum (1 # 1000); OLoad 0 p1; OSolve 0 1 (Fin 3) 1] in
  only_solves ops /\ exists w s, run true cbc1 cpx_lim clock ops start = Ok w /\ obj_at w 0 s /\ s_opt s = true /\ forget s <> s.
Proof.
  split; [intros o [<- | [<- | [<- | []]]]; exact Logic.I|]. eexists. eexists. split; [vm_compute; reflexivity|]. split; [reflexivity|]. split; [reflexivity|]. discriminate.
Qed.

(** *** C245: setLpSolver drops the results and the problem solved next is the one given; results change only by calls on the object. *)
Theorem C245_set : forall nd cbc cplex el ops w i h p s w', run nd cbc cplex el ops start = Ok w -> obj_at w i s -> of_client w h -> c_prob (nth h (heap w) dcell) = Some p ->
  step nd cbc cplex el w (OSet i (Some h)) = Ok w' ->
  exists s', obj_at w' i s' /\ problem_of s' (heap w') p /\ (s_low s', s_opt s', s_sol s') = (MInf, false, None) /\ s_own s' = false.
Proof. intros. eapply C245_set_holds; eauto. Qed.
Print Assumptions C245_set.
Theorem C245_frame : forall nd cbc cplex el w o w' i s, step nd cbc cplex el w o = Ok w' -> obj_at w i s ->
  (forall lp f c t, o <> ODestroy i /\ o <> OSet i lp /\ o <> OSolve i f c t /\ o <> OFind i f c t /\ o <> OOpt i c t) ->
  exists s', obj_at w' i s' /\ (s_low s', s_opt s', s_sol s') = (s_low s, s_opt s, s_sol s) /\ s_nodes s' = s_nodes s /\ s_clp s' = s_clp s.
Proof.
  intros nd cbc cplex el w o w' i s E H N. apply (C245_frame_holds nd cbc cplex el w o w' i s E H). intros T.
  destruct o; cbn in T; try contradiction; subst.
  - destruct (N None 0%nat PInf 0) as (X & _). congruence.
  - destruct (N lp 0%nat PInf 0) as (_ & X & _). congruence.
  - destruct (N None fuel cutoff tmax) as (_ & _ & X & _). congruence.
  - destruct (N None fuel cutoff tmax) as (_ & _ & _ & X & _). congruence.
  - destruct (N None 0%nat cutoff tmax) as (_ & _ & _ & _ & X). congruence.
Qed.
Print Assumptions C245_frame.
Example C245_ex : exists w w' s, run true cbc1 cpx1 clock [CNew p1; ONew false GetOptimum (1 # 1000); OSet 0 (Some 0%nat); OOpt 0 (Fin 3) 1] start = Ok w /\ obj_at w 0 s /\ s_opt s = true /\
  step true cbc1 cpx1 clock w (OSet 0 (Some 0%nat)) = Ok w'.
Proof. eexists. eexists. eexists. split; [vm_compute; reflexivity|]. split; [reflexivity|]. split; [reflexivity|]. vm_compute. reflexivity. Qed.
