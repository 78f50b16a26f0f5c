From Verif Require Import Base Arr Wst_Model Wst_Spec Wst_Proofs.
#[local] Open Scope Q_scope.

(** A problem with one variable and one row for the examples: the solver finds 5 and fails the solves listed. *)
Definition ex_ans (bad : list nat) (k : nat) : answer := mkAns (if existsb (Nat.eqb k) bad then Failed else Good) [5] [1; 2; 3].
Definition ex_rnd (k : nat) : list Q := [7].
Lemma ex_sizes bad : sizes 1 1 (ex_ans bad) ex_rnd. Proof. split; intros k; [reflexivity | split; reflexivity]. Qed.
Definition ex_best : list Q * list Q := ([5], [1; 2; 3]).

(** *** C191 *)
Theorem C191_start : forall n m user ans rnd mode pretend ru retry best s s' w, (0 < n)%nat -> (n <= length user)%nat -> sizes n m ans rnd -> (2 <= mode)%nat ->
  sized n m w ->
  resolve n m user ans rnd mode pretend ru retry best (setWarmStart mode (Some w) s) = Ok s' ->
  started s' (length (s_log s)) (mkStart (w_x w) (Some (w_d w))).
Proof.
  intros n m user ans rnd mode pretend ru retry best s s' w Hn Hu Hs Hm Z H.
  unfold setWarmStart in H. replace (Nat.leb 2 mode) with true in H by (symmetry; apply Nat.leb_le; lia). unfold valid in H. destruct (w_empty w) eqn:E; cbn [negb] in H.
  - exact (resolve_starts n m user ans rnd mode pretend ru Hn Hu Hs retry best (set_ws (Some (mkWs false (w_x w) (w_d w))) s) s' (mkWs false (w_x w) (w_d w)) eq_refl eq_refl Z H).
  - exact (resolve_starts n m user ans rnd mode pretend ru Hn Hu Hs retry best (set_ws (Some w) s) s' w eq_refl E Z H).
Qed.
Print Assumptions C191_start.
Theorem C191_round_trip : forall n m user ans rnd mode pretend ru o retry best s s' s'', (0 < n)%nat -> (n <= length user)%nat -> sizes n m ans rnd -> (2 <= mode)%nat ->
  (exists r k b, o = OInit r k b) \/ (exists r b, o = OResolve r b) ->
  step n m user ans rnd mode pretend ru s o = Ok s' -> failed s' = false ->
  resolve n m user ans rnd mode pretend ru retry best s' = Ok s'' ->
  started s'' (length (s_log s')) (mkStart (firstn n (s_xs s')) (Some (firstn (2 * n + m) (s_ds s')))).
Proof.
  intros n m user ans rnd mode pretend ru o retry best s s' s'' Hn Hu Hs Hm Ho H Hf H2.
  destruct (solve_ws n m user ans rnd mode pretend ru Hn Hu Hs o s s' Hm Ho H Hf) as (w & E & W & L1 & L2).
  pose proof (resolve_starts n m user ans rnd mode pretend ru Hn Hu Hs retry best s' s'' w E) as R. rewrite W in R. cbn [w_x w_d w_empty] in R. apply R; [reflexivity | | exact H2].
  split; cbn [w_x w_d]; rewrite firstn_length; lia.
Qed.
Print Assumptions C191_round_trip.
(** What the solve found is what is stored. *)
Theorem C191_solution : forall n m user ans rnd mode pretend ru keep best s s', (0 < n)%nat -> sizes n m ans rnd -> (2 <= mode)%nat ->
  initialSolve n m user ans rnd mode pretend ru 0 keep best s = Ok s' -> a_kind (ans (length (s_log s))) = Good ->
  s_ws s' = Some (mkWs false (a_x (ans (length (s_log s)))) (a_d (ans (length (s_log s))))) /\
  s_xs s' = a_x (ans (length (s_log s))) /\ s_ds s' = a_d (ans (length (s_log s))) /\ s_x s' = s_x s.
Proof.
  intros n m user ans rnd mode pretend ru keep best s s' Hn [_ Hs] Hm H K. unfold initialSolve in H.
  replace (Nat.leb 2 mode) with true in H by (symmetry; apply Nat.leb_le; lia). apply bind_ok in H. destruct H as (s1 & H1 & H).
  unfold call in H1. apply bind_ok in H1. destruct H1 as (q & Hq & H1). unfold get_start in Hq. apply bind_ok in Hq. destruct Hq as (x & _ & Hq).
  cbn [set_warm s_warm] in Hq. injection Hq as <-. injection H1 as <-. destruct (Hs (length (s_log s))) as [S1 S2].
  unfold after in H. cbn [set_warm set_ws s_kind s_log] in H. rewrite K in H. change (Nat.ltb 0 0) with false in H. cbn [bind s_ws] in H. unfold failed in H. cbn [s_kind] in H.
  replace (Nat.leb 2 mode) with true in H by (symmetry; apply Nat.leb_le; lia). cbn [negb andb] in H. unfold solver_getWarmStart in H. cbn [s_xs s_ds] in H.
  rewrite S1, S2, !Nat.leb_refl in H. cbn [andb bind] in H. injection H as <-. cbn [set_ws s_ws s_xs s_ds s_x].
  rewrite !firstn_all2 by lia. auto.
Qed.
Print Assumptions C191_solution.
Example C191_example : exists s', run 1 1 [4] (ex_ans []) ex_rnd 2 false 0 [OInit 0 false ex_best; OResolve 0 ex_best; OSetWs (Some (mkWs false [8] [0; 0; 9])); OResolve 0 ex_best] init = Ok s' /\
  s_log s' = [Some (mkStart [4] None); Some (mkStart [5] (Some [1; 2; 3])); Some (mkStart [8] (Some [0; 0; 9]))].
Proof. eexists. split; [vm_compute; reflexivity | vm_compute; reflexivity]. Qed.

(** *** C192 *)
Theorem C192_refuted : ~ C192_full.
Proof.
  intros H. specialize (H 1%nat 1%nat [4] (ex_ans []) ex_rnd 0%nat false 0%nat (mkSt [8] true false false [] [] Failed None [Some (mkStart [8] None)])).
  specialize (fun s' => H s' (ex_sizes [])). destruct (H _ ltac:(cbn; lia) ltac:(lia) eq_refl) as [H1 _]. vm_compute in H1. discriminate.
Qed.
Print Assumptions C192_refuted.
(** The state of the refutation comes from a point given by the caller and a first solve that failed. *)
Example C192_reachable : exists s, setxInit 1 [8] init = Ok s /\ call 1 1 [4] (ex_ans [0%nat]) s = Ok (mkSt [8] true false false [5] [1; 2; 3] Failed None [Some (mkStart [8] None)]).
Proof. eexists. split; vm_compute; reflexivity. Qed.
(** A complete start, with multipliers, is restored, and warm starts are on afterwards. *)
Theorem C192_partial : forall n m user ans rnd mode pretend k s s', (0 < n)%nat -> (n <= length user)%nat -> sizes n m ans rnd -> (mode < 2)%nat ->
  complete n m s -> robust n m user ans rnd mode pretend k s = Ok s' ->
  point_of n user s' = point_of n user s /\ duals_of n s' = duals_of n s /\ s_warm s' = true /\
  get_start n m user s' = Ok (Some (mkStart (firstn n (s_x s)) (Some (skipn n (s_x s))))).
Proof.
  intros n m user ans rnd mode pretend k s s' Hn Hu Hs Hm C H. destruct (robust_keeps n m user ans rnd mode pretend Hn Hu k s s' Hm C H) as (X & D & W).
  unfold point_of, duals_of. destruct C as (L & D' & _). rewrite X, D, D'. repeat split; auto.
  rewrite <- X. apply get_start_warm; auto. congruence.
Qed.
Print Assumptions C192_partial.
(** Without multipliers the caller's point is lost: the next start is the problem's own point or a random one. *)
Theorem C192_lost_partial : forall n m user ans rnd mode pretend k s s', (0 < n)%nat -> (n <= length user)%nat -> sizes n m ans rnd -> (mode < 2)%nat ->
  s_du s = false -> robust n m user ans rnd mode pretend k s = Ok s' ->
  (point_of n user s' = firstn n user \/ exists j, point_of n user s' = rnd j) /\ duals_of n s' = None /\ (failed s' = false -> s_warm s' = true).
Proof.
  intros n m user ans rnd mode pretend k s s' Hn Hu Hs Hm D H. destruct (robust_lost n m user ans rnd mode pretend Hn Hu Hs k s s' Hm D H) as (X & D' & W).
  unfold point_of, duals_of. rewrite D'. repeat split; auto. destruct X as [-> | [j E]]; [left; reflexivity | right]. exists j. rewrite E.
  pose proof (proj1 Hs j) as L. destruct (rnd j) eqn:R; [cbn in L; lia|]. apply firstn_all2. lia.
Qed.
Print Assumptions C192_lost_partial.
Example C192_example : exists s', robust 1 1 [4] (ex_ans [0%nat; 1%nat]) ex_rnd 0 false 3 (mkSt [8; 1; 1; 1] true true true [] [] Failed None []) = Ok s' /\ s_x s' = [8; 1; 1; 1] /\
  s_log s' = [Some (mkStart [4] None); Some (mkStart [7] None); Some (mkStart [7] None)].
Proof. eexists. split; [vm_compute; reflexivity | vm_compute; auto]. Qed.

(** *** C193 *)
Theorem C193_refuted : ~ C193_full.
Proof.
  intros H. specialize (H 1%nat 1%nat [4] (ex_ans []) ex_rnd 0%nat 2%nat ex_best (mkSt [8] true false false [5] [1; 2; 3] Good None [Some (mkStart [8] None)])).
  specialize (H (mkSt [7] true false false [5] [1; 2; 3] Good None [Some (mkStart [8] None); Some (mkStart [7] None); Some (mkStart [7] None)]) (ex_sizes [])).
  destruct (H ltac:(cbn; lia) ltac:(lia) ltac:(vm_compute; reflexivity)) as [H1 _]. vm_compute in H1. discriminate.
Qed.
Print Assumptions C193_refuted.
Theorem C193_partial : forall n m user ans rnd mode k best s s', (0 < n)%nat -> (n <= length user)%nat -> sizes n m ans rnd -> (mode < 2)%nat ->
  complete n m s -> cost n m user ans rnd mode k true best s = Ok s' ->
  point_of n user s' = point_of n user s /\ duals_of n s' = duals_of n s /\
  get_start n m user s' = Ok (Some (mkStart (firstn n (s_x s)) (Some (skipn n (s_x s))))).
Proof.
  intros n m user ans rnd mode k best s s' Hn Hu Hs Hm C H. destruct (cost_keeps n m user ans rnd mode Hn Hu k best s s' Hm C H) as (X & D & W).
  unfold point_of, duals_of. destruct C as (L & D' & _). rewrite X, D, D'. repeat split; auto.
  rewrite <- X. apply get_start_warm; auto. congruence.
Qed.
Print Assumptions C193_partial.
(** In all other cases the next start is the last of the random points. *)
Theorem C193_last_partial : forall n m user ans rnd mode k keep best s s', (0 < n)%nat -> (n <= length user)%nat -> sizes n m ans rnd -> (0 < k)%nat ->
  (mode < 2)%nat /\ (keep = false \/ s_du s = false) \/ (2 <= mode)%nat ->
  cost n m user ans rnd mode k keep best s = Ok s' ->
  point_of n user s' = rnd (pred (length (s_log s'))) /\ length (s_log s') = (length (s_log s) + k)%nat /\ s_warm s' = false.
Proof.
  intros n m user ans rnd mode k keep best s s' Hn Hu Hs K Hc H. destruct (cost_last n m user ans rnd mode Hn Hu Hs k keep best s s' K Hc H) as (P1 & P2 & P3).
  repeat split; auto. unfold point_of. destruct (s_x s') eqn:E; [|exact P1]. rewrite firstn_nil in P1. pose proof (proj1 Hs (pred (length (s_log s')))) as L. rewrite <- P1 in L. cbn in L. lia.
Qed.
Print Assumptions C193_last_partial.
Example C193_example : exists s', cost 1 1 [4] (ex_ans []) ex_rnd 0 2 true ex_best (mkSt [8; 1; 1; 1] true true true [5] [1; 2; 3] Good None []) = Ok s' /\ s_x s' = [8; 1; 1; 1] /\ length (s_log s') = 2%nat.
Proof. eexists. split; [vm_compute; reflexivity | vm_compute; auto]. Qed.

(** *** C194 *)
(** The first solve fails, the point given by the problem and two random ones as well, the third random one does: the next solve gets no start. *)
Lemma C194_witness : run 1 1 [4] (ex_ans [0%nat; 1%nat]) ex_rnd 0 false 1 [OInit 0 false ex_best; OInit 0 false ex_best] init =
  Ok (mkSt [] true false true [5] [1; 2; 3] Good None [Some (mkStart [4] None); Some (mkStart [4] None); Some (mkStart [7] None); None; Some (mkStart [4] None)]).
Proof. vm_compute. reflexivity. Qed.
Theorem C194_refuted : ~ C194_full.
Proof.
  intros H. specialize (H 1%nat 1%nat [4] (ex_ans [0%nat; 1%nat]) ex_rnd 0%nat false 1%nat [OInit 0 false ex_best; OInit 0 false ex_best] ltac:(lia) (ex_sizes _) ltac:(cbn; lia)).
  rewrite C194_witness in H. apply H.
  - constructor; [split; reflexivity | constructor; [split; reflexivity | constructor]].
  - right; right; right; left. reflexivity.
Qed.
Print Assumptions C194_refuted.
Theorem C194_partial : forall n m user ans rnd mode pretend ru ops, (0 < n)%nat -> sizes n m ans rnd -> (n <= length user)%nat ->
  Forall (okop n m) ops -> (2 <= mode)%nat -> keeps mode true ops ->
  match run n m user ans rnd mode pretend ru ops init with
  | Ok s => ~ In None (s_log s)
  | Thrown => True
  | _ => False
  end.
Proof.
  intros n m user ans rnd mode pretend ru ops Hn Hs Hu Ho Hm Hk.
  pose proof (run_inv n m user ans rnd mode pretend ru Hn Hu Hs ops true init Hm Ho Hk) as R.
  assert (I : Inv n m init) by (repeat split; [intros [] | left; reflexivity]).
  specialize (R ltac:(discriminate) I). destruct (run n m user ans rnd mode pretend ru ops init); cbn [post] in R; try exact R. apply R.
Qed.
Print Assumptions C194_partial.
(** Below Optimum: once a failed solve without multipliers was rescued, the first attempt of the next solve is refused, and it stays so. *)
Theorem C194_refused_partial : forall n m user ans rnd mode pretend ru retry keep best s s', (0 < n)%nat -> sizes n m ans rnd -> (n <= length user)%nat ->
  (mode < 2)%nat -> s_warm s = true -> s_du s = false -> s_x s = [] \/ length (s_x s) = n ->
  initialSolve n m user ans rnd mode pretend ru retry keep best s = Ok s' ->
  nth_error (s_log s') (length (s_log s)) = Some None /\ started s' (S (length (s_log s))) (mkStart (firstn n user) None) /\
  (failed s' = false -> s_warm s' = true /\ s_du s' = false).
Proof.
  intros n m user ans rnd mode pretend ru retry keep best s s' Hn Hs Hu Hm W D Sh H.
  apply (refused n m user ans rnd mode pretend ru Hn Hu Hs retry keep best s s' Hm W D); [|exact H]. unfold shape. tauto.
Qed.
Print Assumptions C194_refused_partial.
Example C194_example : exists s', run 1 1 [4] (ex_ans [0%nat; 1%nat]) ex_rnd 0 false 1 [OInit 0 false ex_best; OInit 0 false ex_best; OResolve 0 ex_best] init = Ok s' /\
  s_log s' = [Some (mkStart [4] None); Some (mkStart [4] None); Some (mkStart [7] None); None; Some (mkStart [4] None); None; Some (mkStart [4] None)].
Proof. eexists. split; [vm_compute; reflexivity | vm_compute; reflexivity]. Qed.
Example C194_keeps_example : Forall (okop 1 1) [OSetCol (Some [8]); OInit 2 true ex_best; OResolve 0 ex_best; OInit 0 false ex_best] /\ keeps 2 true [OSetCol (Some [8]); OInit 2 true ex_best; OResolve 0 ex_best; OInit 0 false ex_best].
Proof. split; [repeat constructor | cbn; repeat split; auto; discriminate]. Qed.

(** *** C195 *)
Theorem C195_refuted : ~ C195_full.
Proof.
  intros H. apply (H 1%nat 1%nat [4] (ex_ans []) ex_rnd 2%nat false 0%nat (flush (mkWs false [8] [1; 1; 1])) 0%nat ex_best init); [lia | right; reflexivity | vm_compute; reflexivity].
Qed.
Print Assumptions C195_refuted.
(** A warm start without its point, or with one of another size, is accepted, and the solve after it aborts: also the empty one handed out by the
    interface itself. *)
Theorem C195_partial : forall n m user ans rnd mode pretend ru retry best w s, (0 < n)%nat -> (n <= length user)%nat -> sizes n m ans rnd -> (2 <= mode)%nat ->
  ~ sized n m w -> resolve n m user ans rnd mode pretend ru retry best (setWarmStart mode (Some w) s) = AssertFail.
Proof. intros n m user ans rnd mode pretend ru retry best w s Hn Hu Hs Hm Z. apply resolve_bad; auto. Qed.
Print Assumptions C195_partial.
Example C195_example : ~ sized 1 1 (mkWs true [] []) /\ ~ sized 1 1 (flush (mkWs false [8] [1; 1; 1])).
Proof. split; intros [H _]; discriminate. Qed.

(** *** C196 *)
Theorem C196_refuted : ~ C196_full.
Proof.
  intros H. pose proof (H unit (list Q * list Q)%type (fun b _ => b) (fun d _ => d) (mkIws unit false ([8], [1]) None) (mkIws unit true ([], []) None)) as H'.
  specialize (H' ltac:(intros a b; reflexivity)). discriminate H'.
Qed.
Print Assumptions C196_refuted.
(** It does exactly if both are empty or both are not; the interior warm start is never carried over. *)
Theorem C196_partial : forall A D vgen vapply (new old : iws A), @diff_ok D vgen vapply ->
  (applyDiff A D vapply (generateDiff A D vgen new old) old = copy A new <-> i_empty A new = i_empty A old) /\
  i_val A (applyDiff A D vapply (generateDiff A D vgen new old) old) = i_val A new /\
  i_starter A (copy A new) = None /\ i_val A (copy A new) = i_val A new /\ i_empty A (copy A new) = i_empty A new.
Proof.
  intros A D vgen vapply new old H. unfold applyDiff, generateDiff, copy. cbn. rewrite H. repeat split; auto.
  - intros E. injection E as E. auto.
  - intros ->. reflexivity.
Qed.
Print Assumptions C196_partial.
Example C196_example : @diff_ok (list Q * list Q) (fun b _ => b) (fun d _ => d). Proof. intros a b; reflexivity. Qed.

(** *** C197 *)
(** An integer variable without upper bound is fixed; the multiplier of the upper bound of the other one is then read one place too far. *)
Theorem C197_refuted : ~ C197_full.
Proof.
  intros H. specialize (H (-1000) 1000 [(0, 1000); (0, 1)] [(0, 0); (0, 1)] [2; 3] [4; 5] [0; 7]
    (mkIt [2; 3] [4; 5] [7] [] [] [] [] []) (mkIt [0] [0] [0] [] [] [] [] [])).
  destruct H as (i & H & _); try reflexivity.
  - repeat constructor; cbn; lra.
  - repeat split.
  - repeat split.
  - vm_compute in H. discriminate H.
Qed.
Print Assumptions C197_refuted.
Theorem C197_partial : forall low high prev new x zl zu p dst, length x = length prev -> length zl = length prev -> length zu = length prev ->
  Forall2 (same_pattern low high) prev new -> holds low high prev x zl zu p -> room low high new p dst ->
  exists i, warmStartIterate low high [p] prev new dst = Ok (Some i) /\ holds low high new x zl zu i /\
    t_s i = t_s p /\ t_yc i = t_yc p /\ t_yd i = t_yd p /\ t_vl i = t_vl p /\ t_vu i = t_vu p.
Proof.
  intros low high prev new x zl zu p dst Lx Ll Lu F H R. eexists. split; [apply (warm_ok low high prev new x zl zu p dst); auto|]. cbn. repeat split; reflexivity.
Qed.
Print Assumptions C197_partial.
(** The values of the variables are right whatever becomes of the bounds, as long as nothing that was fixed is freed and the copy ends. *)
Theorem C197_values_partial : forall low high prev new x p dst i, length x = length prev ->
  Forall2 (fun a b : Q * Q => fst b < snd b -> fst a < snd a) prev new -> t_x p = pack_x prev x ->
  length (t_x dst) = length (pack_x new (repeat 0 (length new))) ->
  warmStartIterate low high [p] prev new dst = Ok (Some i) -> t_x i = pack_x new x.
Proof. exact warm_x. Qed.
Print Assumptions C197_values_partial.
Example C197_example :
  Forall2 (same_pattern (-1000) 1000) [(0, 1); (0, 1000); (0, 2)] [(1, 1); (0, 1000); (0, 1)] /\
  holds (-1000) 1000 [(0, 1); (0, 1000); (0, 2)] [1; 2; 3] [4; 5; 6] [7; 0; 9] (mkIt [1; 2; 3] [4; 5; 6] [7; 9] [] [] [] [] []) /\
  warmStartIterate (-1000) 1000 [mkIt [1; 2; 3] [4; 5; 6] [7; 9] [] [] [] [] []] [(0, 1); (0, 1000); (0, 2)] [(1, 1); (0, 1000); (0, 1)] (mkIt [0; 0] [0; 0] [0] [] [] [] [] [])
    = Ok (Some (mkIt [2; 3] [5; 6] [9] [] [] [] [] [])).
Proof.
  split; [|split; [repeat split; reflexivity | vm_compute; reflexivity]].
  repeat constructor; cbn; intros; try lra.
Qed.

(** *** C198 *)
Theorem C198_iterate : forall several l low high prev new dst d, length prev = length new ->
  let r := regular l in
  warmStartIterate low high (stored several l) prev new dst =
    match r with
    | [] => Ok None
    | _ => warmStartIterate low high [if several then nth (length r - 5) r d else last r d] prev new dst
    end.
Proof.
  intros several l low high prev new dst d E r. destruct several.
  - rewrite stored_several. fold r.
    assert (R : r <> [] -> rd (length r - 5) r = Ok (nth (length r - 5) r d)).
    { intros Hr. unfold rd. rewrite (nth_error_nth' r d); [reflexivity|]. destruct r; [congruence|]. cbn [length]. lia. }
    unfold warmStartIterate. rewrite E, Nat.eqb_refl. cbn [chk bind]. destruct r as [|i r']; [reflexivity|].
    rewrite R by discriminate. reflexivity.
  - rewrite (stored_one l d). fold r. destruct r; [|reflexivity]. unfold warmStartIterate. rewrite E, Nat.eqb_refl. reflexivity.
Qed.
Print Assumptions C198_iterate.
Example C198_example : let i k := mkIt [k] [] [] [] [] [] [] [] in
  regular [(true, i 1); (false, i 2); (true, i 3); (true, i 4); (true, i 5); (true, i 6); (true, i 7)] = [i 1; i 3; i 4; i 5; i 6; i 7] /\
  warmStartIterate (-1000) 1000 (stored true [(true, i 1); (false, i 2); (true, i 3); (true, i 4); (true, i 5); (true, i 6); (true, i 7)]) [(-1000, 1000)] [(-1000, 1000)] (i 0) = Ok (Some (i 3)).
Proof. split; vm_compute; reflexivity. Qed.

(** *** C199 *)
Theorem C199_refuted : ~ C199_full.
Proof.
  intros H. specialize (H [] [] 1%nat (Some [3%Z]) (repeat 0%Z 14) _ [BFlush] _ eq_refl eq_refl). discriminate H.
Qed.
Print Assumptions C199_refuted.
(** As long as it is not flushed, a warm start and all its copies are the same; flushed, it cannot be copied if it had a workspace. *)
Theorem C199_partial : forall x lam size a istat w ops, new_bws x lam size a istat = Ok w ->
  (~ In BFlush ops -> brun ops w = Ok w /\ h_x w = x /\ h_lam w = lam /\ h_istat w = firstn 14 istat /\ h_empty w = false /\
     (h_lws w = if Nat.ltb 0 size then option_map (firstn size) a else None)) /\
  ((0 < size)%nat -> copy_bws (flush_bws w) = NullDeref) /\ (size = 0%nat -> copy_bws (flush_bws w) = Ok (flush_bws w)).
Proof.
  intros x lam size a istat w ops H. unfold new_bws in H. apply bind_ok in H. destruct H as (l & Hl & H). destruct (Nat.leb 14 (length istat)) eqn:E; [|discriminate].
  assert (Hw : w = mkBws x lam size l (firstn 14 istat) false) by congruence. clear H. subst w.
  assert (C : copy_bws (mkBws x lam size l (firstn 14 istat) false) = Ok (mkBws x lam size l (firstn 14 istat) false) /\ l = if Nat.ltb 0 size then option_map (firstn size) a else None).
  { unfold copy_bws; cbn [h_size h_lws]. unfold copy_lws in *. destruct (Nat.ltb 0 size) eqn:Es; [|injection Hl as <-; auto].
    destruct a as [a|]; [|discriminate]. destruct (Nat.leb size (length a)) eqn:El; [|discriminate]. injection Hl as <-. apply Nat.leb_le in El.
    rewrite firstn_length, Nat.min_l by lia. rewrite Nat.leb_refl. cbn [bind]. rewrite firstn_firstn, Nat.min_id. auto. }
  destruct C as [C Cl]. split; [|split].
  - intros Hf. split; [|repeat split; auto]. induction ops as [|[] ops IH]; [reflexivity | exfalso; apply Hf; left; reflexivity |].
    cbn [brun bstep]. rewrite C. cbn [bind]. apply IH. intros HI; apply Hf; right; exact HI.
  - intros Hz. unfold copy_bws, copy_lws, flush_bws. cbn [h_size h_lws]. replace (Nat.ltb 0 size) with true by (symmetry; apply Nat.ltb_lt; exact Hz). reflexivity.
  - intros ->. reflexivity.
Qed.
Print Assumptions C199_partial.
Example C199_example : exists w, new_bws [1] [2] 2 (Some [3%Z; 4%Z]) (repeat 0%Z 14) = Ok w /\ brun [BCopy; BCopy] w = Ok w.
Proof. eexists. split; reflexivity. Qed.
