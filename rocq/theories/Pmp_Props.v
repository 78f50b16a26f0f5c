(** Theorems on the feasibility pump for MINLPs and the frame of the decomposition methods (C153-C158). *)
From Verif Require Import Base Arr Nlp Oad_Model Pmp_Model Pmp_Spec Pmp_Proofs Pmp_Proofs2.
#[local] Open Scope Q_scope.

(** A problem with one binary variable, feasible at 0 with value -5; the MILP finds 0 the first time it is solved. *)
Definition F1 (y : list Q) : Prop := y = [0].
Definition f1 (y : list Q) : Q := - (5).
Definition O1 (late : nat -> bool) (dist v : Q) (sol : list Q) (last : bool) : orac :=
  mkOrac (fun k rows obj cap => match k with 0%nat => (Some sol, true) | _ => (None, (last && match cap with Fin c => Qltb c (-(5)) | _ => false end)%bool) end)
         (fun _ _ _ => (dist, [1 # 2])) (fun _ _ => (true, v, [0])) (fun _ => mkRow [0; 0] 0) (fun _ => [mkRow [0; -(1)] 5]) late.
Definition q1 : par := mkPar (1 # 100000) (1 # 1000000) 10 10 true 1.
Definition b1 : cols := mkCols [Fin 0] [Fin 1].
Lemma honest1 : forall late dist v last, honest F1 f1 (fun _ => True) [true] (O1 late dist v [0] last).
Proof.
  intros. constructor.
  - intros x y ->. unfold row_holds. cbn. lra.
  - intros x r [<- |[]] y ->. unfold row_holds, f1. cbn. lra.
  - intros y ->. split; auto. intros [|[|i]] I; try discriminate. exists 0. split; auto. exists 0%Z. reflexivity.
  - intros [|k] rows obj cap H; [discriminate|]. cbn in H. injection H as H1. intros y _ _ _. unfold f1. apply andb_true_iff in H1. destruct H1 as [_ H1].
    destruct cap; try discriminate. exact H1.
  - intros [|k] rows obj cap z o H; cbn in H; inv H. intros [|[|i]] I; try discriminate. exists 0. split; auto. exists 0%Z. cbn. discriminate.
Qed.

(** *** C153.  The time limit strikes after the first pass: the pump concludes that a feasible problem has no solution. *)
Theorem C153_refuted : ~ C153_full.
Proof.
  intros H.
  assert (E : exists s, pump 5 (O1 (fun _ => true) 1 (-(5)) [0] true) q1 true [true] [] b1 [1 # 2] PInf 0 0 = Ok (Normal, s) /\ pump_bound q1 s = PInf /\ s_cut s = PInf)
    by (eexists; split; [vm_compute; reflexivity|split; reflexivity]).
  destruct E as (s & E & B & C).
  assert (V : forall r, In r (@nil row) -> row_valid F1 f1 r) by (intros r []).
  pose proof (H F1 f1 (fun _ => True) 5%nat _ q1 true [true] [] b1 [1 # 2] PInf 0%nat 0%nat s (honest1 (fun _ => true) 1 (-(5)) true) V E B [0] eq_refl) as N.
  rewrite C in N. discriminate N.
Qed.
Print Assumptions C153_refuted.
(** What holds: every cut handed over is valid, and a conclusion is right unless the loop was ended by a limit. *)
Theorem C153_partial : forall F f box fuel O q hascol ints rows bnd x cutoff sols local s,
  honest F f box ints O -> (forall r, In r rows -> row_valid F f r) ->
  pump fuel O q hascol ints rows bnd x cutoff sols local = Ok (Normal, s) ->
  (forall r, In r (s_cs s) -> row_valid F f r) /\
  (q_passb q = false -> pump_bound q s = MInf) /\
  (pump_bound q s = PInf \/ pump_bound q s = MInf) /\
  (pump_bound q s = PInf -> none_better F f (s_cut s) \/
     ((0 < s_pass s)%nat /\ o_late O (s_pass s) = true) \/ (q_maxLocal q <= s_local s)%nat \/ (q_maxSols q <= s_sols s)%nat).
Proof.
  intros F f box fuel O q hascol ints rows bnd x cutoff sols local s Ho Rv H.
  destruct (pump_ok _ _ _ _ _ _ _ _ _ _ _ _ _ H) as [_ P]. destruct (P eq_refl) as (R & _ & W & N). pose proof (pump_cs _ _ _ _ _ _ _ _ _ _ _ _ _ H) as C.
  split; [|split; [|split]].
  - intros r I. destruct (C r I) as [y Y]. eapply ho_oa; eauto.
  - intros E. unfold pump_bound. rewrite E. reflexivity.
  - unfold pump_bound. destruct (_ || _)%bool; auto.
  - intros B. destruct (W N) as [A|[A|[A|(k & ob & M)]]]; auto. left.
    unfold pump_bound in B. destruct (s_mopt s) eqn:Mo; [|rewrite orb_true_r in B; discriminate].
    intros y Y. destruct (ho_in _ _ _ _ _ Ho y Y) as [Bx It]. eapply (ho_mip _ _ _ _ _ Ho); eauto.
    intros r I. destruct (R r I) as [A|[[z ->]|[z A]]]; [apply Rv; auto|eapply ho_obj; eauto|eapply ho_oa; eauto].
Qed.
Print Assumptions C153_partial.
(** The pump finds the solution of value -5, and concludes that no better one exists. *)
Example C153_ex : exists s, pump 5 (O1 (fun _ => false) 0 (-(5)) [0] true) q1 true [true] [] b1 [1 # 2] PInf 0 0 = Ok (Normal, s) /\
  pump_bound q1 s = PInf /\ s_found s = [([0], -(5))] /\ length (s_cs s) = 1%nat /\ (s_local s < q_maxLocal q1)%nat /\ (s_sols s < q_maxSols q1)%nat.
Proof. eexists. split; [vm_compute; reflexivity|]. cbn. repeat split; lia. Qed.

(** *** C154.  A variable at exactly 1 gets the coefficient of a variable at 0. *)
Theorem C154_refuted : ~ C154_full.
Proof.
  intros H. pose proof (H [true] [1] [1%Z] [1]) as K.
  assert (ranks is_binary [true] [1%Z] [1]) as R.
  { apply K; [split; [intros _; split; vm_compute; congruence|exact Logic.I]| |reflexivity]. intros [|[|i]] I; try discriminate. exists 1. split; auto. unfold in01. lra. }
  destruct (R [0] [1] eq_refl eq_refl) as [A _].
  - intros [|[|i]] I; try discriminate. exists 0. split; auto. left. reflexivity.
  - intros [|[|i]] I; try discriminate. exists 1. split; auto. right. reflexivity.
  - assert (L : l1 [true] [1%Z] [0] <= l1 [true] [1%Z] [1]) by (apply A; cbn; lra). revert L. cbn. lra.
Qed.
Print Assumptions C154_refuted.
(** Within [0,1], the objective ranks the binary points by distance exactly if no integer variable is at 1; and then the two differ by a constant. *)
Theorem C154_partial : forall ints x r obj, rounded_to ints x r -> at_ints in01 ints x -> fp_obj ints x = Ok obj ->
  (ranks is_binary ints r obj <-> forall i v, nth_error ints i = Some true -> nth_error x i = Some v -> ~ v == 1) /\
  ((forall i v, nth_error ints i = Some true -> nth_error x i = Some v -> ~ v == 1) ->
   exists c, forall z, length z = length ints -> at_ints is_binary ints z -> dot obj z == l1 ints r z - c).
Proof.
  intros ints x r obj R X H. split; [split|].
  - intros K i v I J V. destruct (wrong_way _ _ _ _ R X H ltac:(eauto)) as (z & z' & L & L' & Z & Z' & D & N).
    destruct (K z z' L L' Z Z') as [A _]. specialize (A ltac:(lra)). lra.
  - intros K. eapply ranks_below; eauto. apply below_or_one; auto.
  - intros K. exists (ones ints r). intros z L Z. eapply dist_is; eauto. apply below_or_one; auto.
Qed.
Print Assumptions C154_partial.
Example C154_ex : fp_obj [true; false; true; true] [1 # 3; 7; 3 # 4; 1 # 2] = Ok [1; 0; 1 - 2 * 1; 1 - 2 * 1] /\
  rounded_to [true; false; true; true] [1 # 3; 7; 3 # 4; 1 # 2] [0; 0; 1; 1]%Z /\ at_ints in01 [true; false; true; true] [1 # 3; 7; 3 # 4; 1 # 2].
Proof.
  split; [reflexivity|]. split; [repeat split; try discriminate; vm_compute; congruence|].
  intros [|[|[|[|[|i]]]]] I; try discriminate; eexists; (split; [reflexivity|]); unfold in01; lra.
Qed.

(** *** C155.  A solution of value 0 aborts the program. *)
Theorem C155_refuted : ~ C155_full.
Proof.
  intros H. assert (L : 0 < q_inc q1) by reflexivity. assert (N : forall y, o_oa (O1 (fun _ => false) 0 0 [0] true) y <> []) by (intros; discriminate).
  apply (H F1 f1 (fun _ => True) 5%nat _ q1 true [true] [] b1 [1 # 2] PInf 0%nat 0%nat (honest1 (fun _ => false) 0 0 true) L eq_refl N). vm_compute. reflexivity.
Qed.
Print Assumptions C155_refuted.
(** Solutions handed over: proven optimal with the integer variables fixed, each better than the one before and the first better than
    the cutoff; and unless an optimal value is zero no assertion fails. *)
Theorem C155_partial : forall fuel O q hascol ints rows bnd x cutoff sols local,
  (forall e s, pump fuel O q hascol ints rows bnd x cutoff sols local = Ok (e, s) ->
     improving cutoff (s_found s) /\
     (forall y v, In (y, v) (s_found s) -> exists k b, o_nlp O k b = (true, v, y) /\ nearly_fixed (q_tol q) (q_info q) ints b) /\
     match s_found s with [] => s_cut s = cutoff | (_, v) :: _ => exists c, s_cut s = Fin c /\ c < v end) /\
  (0 < q_inc q -> (forall y, o_oa O y <> []) ->
   (forall k rows obj cap z o, o_mip O k rows obj cap = (Some z, o) -> at_ints (fun v => exists i, Qabs (v - inject_Z i) <= 1 # 1000000) ints z) ->
   (forall k b v y, o_nlp O k b = (true, v, y) -> ~ v == 0) ->
   pump fuel O q hascol ints rows bnd x cutoff sols local <> AssertFail).
Proof.
  intros. split.
  - intros e s H. destruct (pump_ok _ _ _ _ _ _ _ _ _ _ _ _ _ H) as [(V1 & V2 & V3) _]. split; auto. split; auto.
    destruct (s_found s) as [|[y v] l]; [tauto|]. destruct V1 as (_ & A & B). eauto.
  - intros. apply pump_na; auto.
Qed.
Print Assumptions C155_partial.
(** Two solutions, of values 3 and 1, from a start with cutoff 8. *)
Definition O2 : orac :=
  mkOrac (fun k _ _ _ => match k with 0%nat => (Some [0], true) | 1%nat => (Some [1], true) | _ => (None, true) end)
         (fun _ _ _ => (0, [1 # 2]))
         (fun _ b => match k_lo b with [Fin l] => if Qeq_bool l 1 then (true, 1, [1]) else (true, 3, [0]) | _ => (false, 0, []) end)
         (fun _ => mkRow [0; 0] 0) (fun x => [mkRow [0; -(1)] 5]) (fun _ => false).
Example C155_ex : exists s, pump 5 O2 q1 true [true] [] b1 [1 # 2] (Fin 8) 0 0 = Ok (Normal, s) /\ s_found s = [([1], 1); ([0], 3)] /\ s_bnd s = b1 /\
  s_cut s = Fin (new_cutoff 1 (1 # 100000)).
Proof. eexists. split; [vm_compute; reflexivity|]. repeat split. Qed.

(** *** C156.  An integer variable at 1e11: fixIntegers throws, and the first variable stays fixed. *)
Definition q2 : par := mkPar (1 # 100000) (1 # 1000000) 10 10 true 2.
Definition b2 : cols := mkCols [Fin 0; Fin 0] [Fin 1; PInf].
Definition O3 : orac :=
  mkOrac (fun k _ _ _ => match k with 0%nat => (Some [0; 100000000000], true) | _ => (None, true) end) (fun _ _ _ => (0, [0; 3]))
         (fun _ _ => (true, -(5), [0; 3])) (fun _ => mkRow [] 0) (fun _ => [mkRow [] 0]) (fun _ => false).
Theorem C156_refuted : ~ C156_full.
Proof.
  intros H. destruct (H O3 q2 true [true; true] [] b2 [1 # 2; 3] PInf 0%nat 0%nat) as (fuel & D & K).
  destruct fuel; [apply D; vm_compute; reflexivity|].
  assert (E : exists s, pump (S fuel) O3 q2 true [true; true] [] b2 [1 # 2; 3] PInf 0 0 = Ok (Exception, s) /\
    k_up (s_bnd s) = [Fin (inject_Z 0); PInf]).
  { eexists. split; [cbn [pump pump_loop]; vm_compute; reflexivity|reflexivity]. }
  destruct E as (s & E & B). rewrite (K _ _ E) in B. discriminate B.
Qed.
Print Assumptions C156_refuted.
(** The pump ends; it restores the bounds if it is not left by an exception; the frame restores them whatever performOa does, exceptions apart. *)
Theorem C156_partial :
  (forall fuel O q hascol ints rows bnd x cutoff sols local,
     ((q_maxLocal q < fuel)%nat -> pump fuel O q hascol ints rows bnd x cutoff sols local <> Diverges) /\
     forall s, pump fuel O q hascol ints rows bnd x cutoff sols local = Ok (Normal, s) -> s_bnd s = bnd) /\
  (forall cs g, (forall c, In c cs -> h_throw (c_perf c) = false) -> g_bnd (snd (generates cs g)) = g_bnd g).
Proof.
  split; [|exact gens_bnd]. intros. split; [apply pump_nd|]. intros s H. destruct (pump_ok _ _ _ _ _ _ _ _ _ _ _ _ _ H) as [_ P]. tauto.
Qed.
Print Assumptions C156_partial.
Definition h1 : perf := mkPerf false 1 1 [mkRow [1; 1] 1] (mkCols [Fin 1; Fin 1] [Fin 1; Fin 1]) [mkRow [1; 0] 3] (Fin 4).
Definition g1 : frame := mkFrame 7 [] b2 2 false MInf.
Example C156_ex : g_bnd (snd (generates [mkCall 8 true [2; 0] true false h1; mkCall 9 true [1; 0] true false h1] g1)) = b2 /\ h_bnd h1 <> b2.
Proof. split; [reflexivity|discriminate]. Qed.

(** *** C157.  The feasibility checker hands over a solution without counting it. *)
Theorem C157_refuted : ~ C157_full.
Proof.
  intros H. pose proof (H [mkCall 1 true [0] true false (mkPerf false 1 0 [] b1 [] MInf)] (mkFrame 1 [] b1 0 false MInf)) as K.
  assert (E : (0 = 1)%Z); [|discriminate E]. apply K. intros c [<- |[]]. reflexivity.
Qed.
Print Assumptions C157_refuted.
(** With methods that count what they hand over, solutions taken and waiting are as many as those found. *)
Theorem C157_partial : forall cs g, (forall c, In c cs -> h_throw (c_perf c) = false /\ h_counted (c_perf c) = h_found (c_perf c)) ->
  total (snd (generates cs g)) = (total g + Z.of_nat (found_all cs g))%Z.
Proof. exact gens_total. Qed.
Print Assumptions C157_partial.
Example C157_ex : found_all [mkCall 8 true [2; 0] true false h1; mkCall 9 true [1; 0] true false h1; mkCall 9 true [1; 1] true false h1] g1 = 2%nat /\
  g_count (snd (generates [mkCall 8 true [2; 0] true false h1; mkCall 9 true [1; 0] true false h1; mkCall 9 true [1; 1] true false h1] g1)) = 3%Z.
Proof. split; reflexivity. Qed.

(** *** C158.  A forced cut is violated, was saved at the same node, each saved cut is forced at most once, and a saved cut that is
    violated takes precedence over solving. *)
Theorem C158_saved_cuts : forall cs c g, g_saved g = [] ->
  (forall r, forced (fst (generate c (snd (generates cs g)))) = Some r ->
     r_ub r < dot (r_co r) (c_point c) /\ exists c', In c' cs /\ In r (h_saved (c_perf c')) /\ c_node c' = c_node c) /\
  (count_forced (fst (generates cs g)) <= count_saved cs)%nat /\
  (forall r, c_feasible c = true -> In r (g_saved (snd (generates cs g))) -> g_node (snd (generates cs g)) = c_node c -> r_ub r < dot (r_co r) (c_point c) ->
     exists r', forced (fst (generate c (snd (generates cs g)))) = Some r' /\ snd (fst (generate c (snd (generates cs g)))) = []).
Proof.
  intros cs c g G. split; [|split].
  - intros r R. set (g2 := snd (generates cs g)) in *. pose proof (gen_saved c g2) as K. unfold forced in R.
    destruct (generate c g2) as [[[th fo] cuts] g']. cbn in R. destruct K as (K & _ & _). destruct (K r R) as (V & I & N).
    split; [apply Qltb_lt; exact V|]. unfold g2 in *. destruct (gens_saved cs g G r I) as (c' & A & B & C). exists c'. split; auto. split; auto. congruence.
  - pose proof (gens_count cs g) as K. rewrite G in K. exact K.
  - intros r Fe I N V. set (g2 := snd (generates cs g)) in *. unfold generate. rewrite Fe. cbn [negb]. rewrite <- N, Z.eqb_refl.
    destruct (take_violated (c_point c) (g_saved g2)) as [[r' l]|] eqn:T; [exists r'; auto|].
    apply take_none in T. exfalso. apply Qltb_lt in V. rewrite <- not_true_iff_false in T. apply T. apply existsb_exists. exists r. auto.
Qed.
Print Assumptions C158_saved_cuts.
Example C158_ex : forced (fst (generate (mkCall 8 true [2; 0] true false h1) (snd (generates [mkCall 8 true [2; 0] true false h1] g1)))) = Some (mkRow [1; 1] 1) /\
  forced (fst (generate (mkCall 9 true [2; 0] true false h1) (snd (generates [mkCall 8 true [2; 0] true false h1] g1)))) = None.
Proof. split; reflexivity. Qed.
