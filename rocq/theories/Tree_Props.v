(** Property theorems for the search trees (C01 - C05). *)
From Verif Require Import Base Tree_Model Tree_Spec Tree_Proofs.

(** C01.  Dive tree: after any run, each pushed node is accounted for exactly
    once, size() and empty() describe the open nodes, nodes are only discarded
    at or above the cutoff, and bestNode only returns nodes below it. *)
Theorem C01_diver_conserves_nodes :
  forall sel stop ops t tr,
    run (diver_step sel) (diver_init stop) ops = Ok (t, tr) ->
    exists rest, still_open tr rest /\ diver_size t = length rest /\
      (diver_empty t = true <-> rest = []) /\
      Forall drop_justified tr /\ Forall return_below tr.
Proof. exact diver_conservation. Qed.
Print Assumptions C01_diver_conserves_nodes.

(** C01.  When bestNode answers NULL, every node ever pushed has been handed
    back, popped, or discarded at or above a cutoff. *)
Theorem C01_diver_null_means_exhausted :
  forall sel stop ops t tr c d,
    run (diver_step sel) (diver_init stop) (ops ++ [Best c]) = Ok (t, tr ++ [EvBest c None d]) ->
    Permutation (pushed tr) (returned tr ++ popped tr ++ dropped (tr ++ [EvBest c None d])) /\
    Forall (fun x => (c <= nobj x)%Q) d.
Proof. exact diver_null_complete. Qed.
Print Assumptions C01_diver_null_means_exhausted.

(** C01.  pop removes the node that top shows. *)
Theorem C01_diver_pop_removes_top :
  forall sel t t' x, diver_pop sel t = Ok (t', x) -> diver_top sel t = Ok x.
Proof. exact diver_pop_is_top. Qed.
Print Assumptions C01_diver_pop_removes_top.

Definition ex_ops : list op :=
  [ Push (nd 0 0 0 2 2); Best 100%Q; Push (nd 0 0 0 1 2); Push (nd 1 3 1 2 2);
    Best 100%Q; Push (nd 1 3 1 1 2); Push (nd 2 7 2 2 2); Clean 5%Q; Best 5%Q ].
(** A run with two dives, a pruning and a heap pick; two nodes remain open. *)
Example C01_example :
  exists t tr, run (diver_step sel0) (diver_init false) ex_ops = Ok (t, tr) /\
    length (returned tr) = 3 /\ length (dropped tr) = 1 /\ diver_size t = 1.
Proof. eexists _, _. split; [vm_compute; reflexivity|]. vm_compute. auto. Qed.
Example C01_null_example :
  exists t tr d, run (diver_step sel0) (diver_init true)
      ([Push (nd 0 0 0 2 2); Best 100%Q; Push (nd 1 7 1 2 2)] ++ [Best 5%Q]) = Ok (t, tr ++ [EvBest 5 None d])
    /\ length d = 1.
Proof.
  exists (diver_init true), [EvPush (nd 0 0 0 2 2); EvBest 100 (Some (nd 0 0 0 2 2)) []; EvPush (nd 1 7 1 2 2)], [nd 1 7 1 2 2].
  vm_compute. auto.
Qed.

(** C02.  The bound returned is at most the objective of every open node and is
    the objective of an open node unless it is the default. *)
Theorem C02_diver_bound :
  forall sel stop ops t tr,
    run (diver_step sel) (diver_init stop) ops = Ok (t, tr) ->
    exists rest, still_open tr rest /\ bound_correct big rest (diver_bound t).
Proof. exact diver_bound_correct. Qed.
Print Assumptions C02_diver_bound.

Theorem C02_probed_bound :
  forall sel cmp stop ops t tr,
    run (probed_step sel cmp) (probed_init stop) ops = Ok (t, tr) ->
    two_way_protocol tr ->
    exists rest, still_open tr rest /\ bound_correct big rest (probed_bound t).
Proof. exact probed_bound_correct. Qed.
Print Assumptions C02_probed_bound.

Theorem C02_dfs_bound :
  forall sel dblmax mb md ops t tr,
    (big <= dblmax)%Q -> Forall early_op ops ->
    run (dfs_step sel) (dfs_init mb md) ops = Ok (t, tr) ->
    exists rest, still_open tr rest /\
      ((forall x, In x rest -> (dfs_bound dblmax t <= nobj x)%Q) /\
       ((dfs_bound dblmax t == big)%Q \/ (dfs_bound dblmax t == dblmax)%Q \/
        exists x, In x rest /\ (dfs_bound dblmax t == nobj x)%Q)).
Proof. exact dfs_bound_correct. Qed.
Print Assumptions C02_dfs_bound.

(** C02 in every state whatsoever, for the nodes the tree holds. *)
Theorem C02_diver_bound_any_state :
  forall t, bound_correct big (diver_contents t) (diver_bound t).
Proof. exact diver_bound_state. Qed.
Print Assumptions C02_diver_bound_any_state.
Theorem C02_probed_bound_any_state :
  forall t, bound_correct big (probed_contents t) (probed_bound t).
Proof. exact probed_bound_contents. Qed.
Print Assumptions C02_probed_bound_any_state.
Theorem C02_dfs_bound_any_state :
  forall dblmax t,
  (forall x, In x (dfs_contents t) -> (dfs_bound dblmax t <= nobj x)%Q) /\
  ((dfs_bound dblmax t == big)%Q \/ (dfs_bound dblmax t == dblmax)%Q \/
   exists x, In x (dfs_contents t) /\ (dfs_bound dblmax t == nobj x)%Q).
Proof. exact dfs_bound_state. Qed.
Print Assumptions C02_dfs_bound_any_state.

(** Two open nodes in two different places. *)
Example C02_example :
  exists t tr, run (probed_step sel0 cmp0) (probed_init false)
     [Push (nd 0 0 0 2 2); Best 100%Q; Push (nd 0 4 0 1 2); Push (nd 1 3 1 2 2)] = Ok (t, tr) /\
   two_way_protocol tr /\ probed_size t = 2 /\ (probed_bound t == 3)%Q.
Proof.
  eexists _, _. split; [vm_compute; reflexivity|]. split; [vm_compute; discriminate|].
  vm_compute. auto.
Qed.

(** C03.  The probed tree conserves nodes for all histories that follow two-way
    branching; missing for the full claim: histories outside that protocol and
    the flag stop_diving_on_cutoff, see the refutation. *)
Theorem C03_probed_conserves_nodes_partial :
  forall sel cmp stop ops t tr,
    run (probed_step sel cmp) (probed_init stop) ops = Ok (t, tr) ->
    two_way_protocol tr ->
    exists rest, still_open tr rest /\ probed_size t = length rest /\
      (probed_empty t = true <-> rest = []) /\
      Forall drop_justified tr /\ Forall return_below tr.
Proof. exact probed_conservation. Qed.
Print Assumptions C03_probed_conserves_nodes_partial.

(** C03.  With the flag off and two-way branching the tree never stops on an
    assertion or a null node. *)
Theorem C03_probed_no_crash_partial :
  forall sel cmp ops t tr o,
    run (probed_step sel cmp) (probed_init false) ops = Ok (t, tr) ->
    proto_allows tr o ->
    exists t' e, probed_step sel cmp t o = Ok (t', e).
Proof. exact probed_no_crash. Qed.
Print Assumptions C03_probed_no_crash_partial.

(** C03 refuted: with stop_diving_on_cutoff a single dive node whose guess
    reaches the cutoff makes the tree push a null node. *)
Theorem C03_refuted : ~ C03_full.
Proof. exact C03_full_false. Qed.
Print Assumptions C03_refuted.

(** C03 refuted: a three-way branching parent is lost, without any crash. *)
Theorem C03_lost_node_refuted :
  exists t tr, run (probed_step sel0 cmp0) (probed_init false) probed_lost_ops = Ok (t, tr) /\
    ~ exists rest, still_open tr rest /\ probed_size t = length rest.
Proof. exact probed_lost. Qed.
Print Assumptions C03_lost_node_refuted.

(** C03.  pop removes the node that top shows. *)
Theorem C03_probed_pop_removes_top :
  forall sel t t' x, probed_pop sel t = Ok (t', x) -> probed_top sel t = Ok x.
Proof. exact probed_pop_is_top. Qed.
Print Assumptions C03_probed_pop_removes_top.

(** A two-way history in which both children of a node are explored. *)
Example C03_example :
  exists t tr, run (probed_step sel0 cmp0) (probed_init false)
     [Push (nd 0 0 0 2 2); Best 100%Q; Push (nd 0 0 0 1 2); Push (nd 1 3 1 2 2); Best 100%Q;
      Push (nd 2 2 1 2 2); Best 100%Q] = Ok (t, tr) /\
   two_way_protocol tr /\ length (returned tr) = 3 /\ probed_size t = 1 /\
   proto_allows tr (Push (nd 3 5 2 2 2)).
Proof.
  eexists _, _. split; [vm_compute; reflexivity|]. split; [vm_compute; discriminate|].
  split; [reflexivity|]. split; [reflexivity|].
  eexists. split; [vm_compute; reflexivity|]. vm_compute. reflexivity.
Qed.

(** C04.  The depth-first tree conserves nodes as long as the two late modes
    are not selected; missing for the full claim: CloseBound, LimitTreeSize. *)
Theorem C04_dfs_conserves_nodes_partial :
  forall sel mb md ops t tr,
    Forall early_op ops ->
    run (dfs_step sel) (dfs_init mb md) ops = Ok (t, tr) ->
    exists rest, still_open tr rest /\ dfs_treesize t = Z.of_nat (length rest) /\
      (dfs_empty t = true <-> rest = []) /\ Forall drop_justified tr.
Proof. exact dfs_conservation. Qed.
Print Assumptions C04_dfs_conserves_nodes_partial.

(** C04 refuted: in CloseBound mode bestNode takes two nodes off the heap and
    returns one. *)
Theorem C04_refuted : ~ C04_full.
Proof. exact C04_full_false. Qed.
Print Assumptions C04_refuted.

(** C04: how the late modes lose nodes.  Each call of bestNode that returns has taken one more
    node below the cutoff off the tree. *)
Theorem C04_late_modes_lose :
  forall sel t c t' r d, f_clean t = false -> mode_late (f_mode t) = true -> dfs_inv t -> dfs_best sel t c = Ok (t', r, d) ->
    exists lost, Permutation (dfs_contents t) (lost :: match r with Some x => [x] | None => [] end ++ d ++ dfs_contents t') /\ (nobj lost < c)%Q.
Proof. exact dfs_best_late. Qed.
Print Assumptions C04_late_modes_lose.
Example C04_late_example :
  (do ' (t, _) <- run (dfs_step sel0) (dfs_init 5 1000) [Push (nd 0 0 0 2 2); Push (nd 1 1 1 2 2); Push (nd 2 2 1 2 2); SetMode CloseBound];
   do ' (t', r, d) <- dfs_best sel0 t 100; Ok (f_clean t, mode_late (f_mode t), length (dfs_contents t), length (dfs_contents t'), d)) = Ok (false, true, 3, 1, []).
Proof. vm_compute. reflexivity. Qed.

(** C04.  pop removes the node that top shows. *)
Theorem C04_dfs_pop_removes_top :
  forall sel mb md ops t tr t' x y, Forall early_op ops -> run (dfs_step sel) (dfs_init mb md) ops = Ok (t, tr) ->
    dfs_pop sel t = Ok (t', x) -> dfs_top sel t = Ok y -> x = y.
Proof. intros sel mb md ops t tr t' x y A H. exact (dfs_pop_is_top sel t t' x y (proj1 (dfs_run_inv _ _ _ _ _ _ A H))). Qed.
Print Assumptions C04_dfs_pop_removes_top.

Example C04_example :
  exists t tr, Forall early_op
     [Push (nd 0 0 0 2 2); Best 100%Q; Push (nd 0 0 0 1 2); Push (nd 1 3 1 2 2); SetMode FindSolutions;
      Best 100%Q; Push (nd 1 3 1 1 2); Clean 50%Q; Best 50%Q] /\
   run (dfs_step sel0) (dfs_init 5 1000)
     [Push (nd 0 0 0 2 2); Best 100%Q; Push (nd 0 0 0 1 2); Push (nd 1 3 1 2 2); SetMode FindSolutions;
      Best 100%Q; Push (nd 1 3 1 1 2); Clean 50%Q; Best 50%Q] = Ok (t, tr) /\
   length (returned tr) = 3 /\ dfs_treesize t = 1%Z.
Proof.
  eexists _, _. split; [repeat constructor|]. split; [vm_compute; reflexivity|]. vm_compute. auto.
Qed.

(** C05.  With at least one backtrack allowed and a depth limit above the depth
    of all nodes, no assertion fails and the backtrack counter stays below the
    limit, in all modes.  Missing for the full claim: see the refutation. *)
Theorem C05_dfs_no_assert_partial :
  forall sel mb md ops,
    (1 <= mb)%Z -> Forall search_op ops -> Forall (depth_ok md) ops ->
    match run (dfs_step sel) (dfs_init mb md) ops with
    | Ok (t, _) => (f_nback t < f_maxback t)%Z
    | NullDeref => True
    | _ => False
    end.
Proof. exact dfs_no_assert. Qed.
Print Assumptions C05_dfs_no_assert_partial.

(** C05 refuted three ways: max_backtracks_in_dive = 0, a small max_dive_depth,
    and a tree left with nodes above the cutoff only. *)
Theorem C05_refuted :
  run (dfs_step sel0) (dfs_init 0 1000) dfs_assert_ops1 = AssertFail /\
  run (dfs_step sel0) (dfs_init 5 1) dfs_assert_ops2 = AssertFail /\
  run (dfs_step sel0) (dfs_init 5 1000) [Push (nd 0 10 5 2 2); Best 5%Q] = NullDeref /\
  ~ C05_full.
Proof. exact C05_all_false. Qed.
Print Assumptions C05_refuted.

(** C05: what a dive may do.  After any history without the late modes, bestNode in a dive either
    goes on with the newest node of the dive that is not above the cutoff, the nodes passed over
    being put on the heap, each of them and each second branch being counted as a backtrack, with
    the count below the limit and the depth below the start of the dive within the limit; or it
    begins a new dive at a node of the heap, with the count at 0. *)
Theorem C05_dive_limits :
  forall sel mb md ops t tr c t' r d,
    Forall early_op ops -> run (dfs_step sel) (dfs_init mb md) ops = Ok (t, tr) ->
    f_mode t = FindSolutions -> dfs_best sel t c = Ok (t', r, d) ->
    exists x, r = Some x /\
    ((exists pre, d = [] /\ f_dive t = pre ++ x :: f_dive t' /\ Forall (fun y => (c < nobj y)%Q) pre /\ (nobj x <= c)%Q /\
       f_heap t' = rev pre ++ f_heap t /\
       f_nback t' = (f_nback t + Z.of_nat (length pre) + (if Nat.ltb (nleft x) (nbr x) then 1 else 0))%Z /\ (f_nback t' < f_maxback t')%Z /\
       (ndepth x - f_board t' <= f_maxdepth t')%Z /\ f_board t' = f_board t) \/
     (f_dive t' = [] /\ (nobj x < c)%Q /\ f_board t' = ndepth x /\ f_nback t' = 0%Z)).
Proof.
  intros sel mb md ops t tr c t' r d A H M. exact (dfs_best_dive sel t c t' r d (proj1 (dfs_run_inv _ _ _ _ _ _ A H)) M).
Qed.
Print Assumptions C05_dive_limits.
(** A dive of two backtracks: one node above the cutoff is passed over, then a second branch is taken. *)
Example C05_dive_example :
  (do ' (t, _) <- run (dfs_step sel0) (dfs_init 5 1000)
      [Push (nd 0 0 0 2 2); SetMode FindSolutions; Best 100%Q; Push (nd 0 0 0 1 2); Push (nd 1 50 1 2 2)];
   do ' (t', r, d) <- dfs_best sel0 t 10; Ok (f_nback t, f_nback t', option_map nid r, length (f_heap t'), length (f_dive t'))) = Ok (0%Z, 2%Z, Some 0, 1, 0).
Proof. vm_compute. reflexivity. Qed.

Example C05_example :
  Forall search_op dfs_assert_ops1 /\ Forall (depth_ok 1000) dfs_assert_ops1 /\
  exists t tr, run (dfs_step sel0) (dfs_init 1 1000) dfs_assert_ops1 = Ok (t, tr).
Proof.
  split; [repeat constructor|]. split; [repeat constructor; simpl; lia|].
  eexists _, _. vm_compute. reflexivity.
Qed.
