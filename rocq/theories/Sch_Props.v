(** Property theorems for whole searches (C297 - C302). *)
From Verif Require Import Base Tree_Model Tree_Spec Tree_Proofs Sch_Model Sch_Spec Sch_Proofs.

(** C297.  With top-node and with dive, whatever the node comparison and stop_diving_on_cutoff: when the subproblem
    solver is right and branching makes regions smaller, the search ends and its answer is right. *)
Theorem C297_dive_search_right :
  forall (R P : Type) feas obj mem (relax : nat -> R -> answer R P) heur size inc cut root g,
    relax_sound R P feas obj mem relax -> relax_shrinks R P relax size -> heur_sound P feas obj heur ->
    match g with TopNode _ | DiveS _ _ => True | _ => False end ->
    forall fuel, (4 ^ size root <= fuel)%nat ->
      exists best, run_strategy R P relax inc heur cut root g fuel = Ok best /\
        right_answer R P feas obj mem inc cut root best.
Proof.
  intros R P feas obj mem relax heur size inc cut root g RS SH HS G.
  apply (strategy_ends R P feas obj mem relax heur size inc cut root RS SH HS). destruct g; simpl; tauto.
Qed.
Print Assumptions C297_dive_search_right.
Example C297_example :
  relax_sound nat Z ex_feas ex_obj ex_mem (ex_relax 200) /\ relax_shrinks nat Z (ex_relax 200) ex_size /\
  heur_sound Z ex_feas ex_obj ex_heur /\
  run_strategy nat Z (ex_relax 200) 0 ex_heur 100 0 (DiveS lowest true) 256 = Ok (Some (0%Q, 0%Z)) /\
  run_strategy nat Z (ex_relax 200) 0 ex_heur 100 0 (TopNode lowest) 256 = Ok (Some (0%Q, 0%Z)) /\
  run_strategy nat Z (ex_relax 200) 0 (fun _ => None) (-5) 0 (DiveS lowest true) 256 = Ok None.
Proof.
  split; [apply ex_relax_sound|]. split; [apply ex_shrinks|]. split; [apply ex_heur_sound|].
  split; [vm_compute; reflexivity|]. split; vm_compute; reflexivity.
Qed.

(** C298.  With probed-dive the same, when stop_diving_on_cutoff is off. *)
Theorem C298_probed_search_right_partial :
  forall (R P : Type) feas obj mem (relax : nat -> R -> answer R P) heur size inc cut root sel cmp,
    relax_sound R P feas obj mem relax -> relax_shrinks R P relax size -> heur_sound P feas obj heur ->
    forall fuel, (4 ^ size root <= fuel)%nat ->
      exists best, run_strategy R P relax inc heur cut root (ProbedS sel cmp false) fuel = Ok best /\
        right_answer R P feas obj mem inc cut root best.
Proof.
  intros R P feas obj mem relax heur size inc cut root sel cmp RS SH HS.
  apply (strategy_ends R P feas obj mem relax heur size inc cut root RS SH HS). reflexivity.
Qed.
Print Assumptions C298_probed_search_right_partial.
Example C298_example :
  run_strategy nat Z (ex_relax 200) 0 ex_heur 100 0 (ProbedS lowest cmp0 false) 256 = Ok (Some (0%Q, 0%Z)).
Proof. vm_compute. reflexivity. Qed.

(** C298.  With stop_diving_on_cutoff on, a search can end in a null access instead of an answer. *)
Theorem C298_refuted : ~ C298_full.
Proof. exact C298_full_false. Qed.
Print Assumptions C298_refuted.

(** C299.  With dfs-dive the same, when one backtrack is allowed and max_dive_depth is no less than the depth of the
    tree; also when the mode of the tree is changed from outside between its two early modes. *)
Theorem C299_dfs_search_right_partial :
  forall (R P : Type) feas obj mem (relax : nat -> R -> answer R P) heur size inc cut root sel mb md,
    relax_sound R P feas obj mem relax -> relax_shrinks R P relax size -> heur_sound P feas obj heur ->
    (1 <= mb)%Z -> (Z.of_nat (size root) <= md)%Z ->
    (forall fuel, (4 ^ size root <= fuel)%nat ->
      exists best, run_strategy R P relax inc heur cut root (DfsS sel mb md) fuel = Ok best /\
        right_answer R P feas obj mem inc cut root best) /\
    forall onsol tick, (forall t n, Forall early (onsol t n)) -> (forall t n, Forall early (tick t n)) ->
      ends_right feas obj mem inc cut root (4 ^ size root)
        (fun fuel => search R P dfs relax (dfs_step sel) dfs_empty inc heur onsol tick fuel (dfs_init mb md) cut root).
Proof.
  intros R P feas obj mem relax heur size inc cut root sel mb md RS SH HS H1 H2. split.
  - apply (strategy_ends R P feas obj mem relax heur size inc cut root RS SH HS). simpl. auto.
  - intros. apply dfs_search; auto.
Qed.
Print Assumptions C299_dfs_search_right_partial.
Example C299_example :
  run_strategy nat Z (ex_relax 200) 0 ex_heur 100 0 (DfsS lowest 5 1000) 256 = Ok (Some (0%Q, 0%Z)) /\
  run_strategy nat Z (ex_relax 200) 0 ex_heur 100 0 (DfsS lowest 1 4) 256 = Ok (Some (0%Q, 0%Z)).
Proof. split; vm_compute; reflexivity. Qed.

(** C299.  With dfs-dive-dynamic the search can end normally with a solution that is not optimal: the node that holds
    the optimum 0 is lost after the fifth solution, and 12 is reported. *)
Theorem C299_refuted : ~ C299_full.
Proof. exact C299_full_false. Qed.
Print Assumptions C299_refuted.
Example C299_refuted_example :
  run_strategy nat Z (ex_relax 0) 0 ex_heur 100 0 (DynamicS lowest 5 1000) 256 = Ok (Some (12%Q, 12%Z)).
Proof. exact dynamic_loses. Qed.

(** C300.  Two searches of the same problem with any of these strategies and any node comparisons agree: either both
    find nothing or both find solutions whose values differ by no more than the cutoff decrement. *)
Theorem C300_strategies_agree :
  forall (R P : Type) feas obj mem (relax : nat -> R -> answer R P) heur heur' size inc cut root g g',
    relax_sound R P feas obj mem relax -> relax_shrinks R P relax size ->
    heur_sound P feas obj heur -> heur_sound P feas obj heur' ->
    (forall p, feas p -> mem p root) ->
    sound_strategy (size root) g -> sound_strategy (size root) g' ->
    forall fuel fuel', (4 ^ size root <= fuel)%nat -> (4 ^ size root <= fuel')%nat ->
      exists a b, run_strategy R P relax inc heur cut root g fuel = Ok a /\
        run_strategy R P relax inc heur' cut root g' fuel' = Ok b /\ same_answer inc a b.
Proof.
  intros R P feas obj mem relax heur heur' size inc cut root g g' RS SH H1 H2 M G G' fuel fuel' L L'.
  destruct (strategy_ends R P feas obj mem relax heur size inc cut root RS SH H1 g G fuel L) as (a & E & A).
  destruct (strategy_ends R P feas obj mem relax heur' size inc cut root RS SH H2 g' G' fuel' L') as (b & E' & B).
  exists a, b. split; [exact E|]. split; [exact E'|]. eapply answers_agree; eauto.
Qed.
Print Assumptions C300_strategies_agree.
Example C300_example :
  (forall p, ex_feas p -> ex_mem p 0) /\ sound_strategy (ex_size 0) (ProbedS lowest cmp0 false) /\
  sound_strategy (ex_size 0) (DfsS lowest 5 4) /\
  run_strategy nat Z (ex_relax 0) 20 (fun _ => None) 100 0 (DfsS lowest 5 4) 256 = Ok (Some (0%Q, 0%Z)) /\
  run_strategy nat Z (ex_relax 0) 20 (fun _ => None) 100 0 (DiveS lowest false) 256 = Ok (Some (12%Q, 12%Z)).
Proof.
  split; [intros p _; exact Logic.I|]. split; [reflexivity|]. split; [simpl; lia|]. split; vm_compute; reflexivity.
Qed.

(** C301.  However early a search is stopped, every feasible point is at or above the bound the tree reports, or at or
    above the cutoff given, or no better than the solution held by more than the cutoff decrement; and the solution
    held is feasible. *)
Theorem C301_bound_when_stopped_partial :
  forall (R P : Type) feas obj mem (relax : nat -> R -> answer R P) heur size inc cut root sel,
    relax_sound R P feas obj mem relax -> relax_shrinks R P relax size -> heur_sound P feas obj heur ->
    stops_right feas obj mem inc cut root heap_bound
      (fun k => stopped R P (list node) relax (heap_step sel) heap_empty inc heur no_modes no_modes k [] cut root) /\
    (forall stop, stops_right feas obj mem inc cut root diver_bound
      (fun k => stopped R P diver relax (diver_step sel) diver_empty inc heur no_modes no_modes k (diver_init stop) cut root)) /\
    (forall cmp, stops_right feas obj mem inc cut root probed_bound
      (fun k => stopped R P probed relax (probed_step sel cmp) probed_empty inc heur no_modes no_modes k (probed_init false) cut root)) /\
    (forall mb md dblmax, (1 <= mb)%Z -> (Z.of_nat (size root) <= md)%Z ->
      stops_right feas obj mem inc cut root (dfs_bound dblmax)
      (fun k => stopped R P dfs relax (dfs_step sel) dfs_empty inc heur no_modes no_modes k (dfs_init mb md) cut root)).
Proof.
  intros R P feas obj mem relax heur size inc cut root sel RS SH HS. repeat split.
  - eapply heap_stops; eauto.
  - intros stop. eapply diver_stops; eauto.
  - intros cmp. eapply probed_stops; eauto.
  - intros mb md dblmax H1 H2. eapply dfs_stops; eauto.
Qed.
Print Assumptions C301_bound_when_stopped_partial.
Example C301_example :
  (do s <- stopped nat Z diver (ex_relax 0) (diver_step lowest) diver_empty 0 ex_heur no_modes no_modes 3 (diver_init false) 100 0;
   Ok (diver_bound (s_tree s), s_best s)) = Ok ((-1)%Q, Some (48%Q, 48%Z)) /\
  (do s <- stopped nat Z dfs (ex_relax 0) (dfs_step lowest) dfs_empty 0 ex_heur no_modes no_modes 5 (dfs_init 5 1000) 100 0;
   Ok (dfs_bound 1000 (s_tree s), s_best s)) = Ok ((-1)%Q, Some (47%Q, 47%Z)).
Proof. split; vm_compute; reflexivity. Qed.

(** C301.  With dfs-dive-dynamic the bound reported after the loss of a node is above the optimum. *)
Theorem C301_refuted : ~ C301_full.
Proof. exact C301_full_false. Qed.
Print Assumptions C301_refuted.

(** C302.  Whatever the tree does, lose nodes or hand them out twice: the solution held is always feasible with the
    value reported, and each new one is better than the one before, by more than the cutoff decrement. *)
Theorem C302_solutions_improve :
  forall (R P : Type) feas obj mem (relax : nat -> R -> answer R P) heur inc cut root
    (T : Type) (tstep : T -> op -> outcome (T * event)) tempty onsol tick k j t s1 s2,
    relax_sound R P feas obj mem relax -> heur_sound P feas obj heur ->
    stopped R P T relax tstep tempty inc heur onsol tick k t cut root = Ok s1 ->
    stopped R P T relax tstep tempty inc heur onsol tick (k + j) t cut root = Ok s2 ->
    improves inc s1 s2 /\ forall v x, s_best s2 = Some (v, x) -> feas x /\ (obj x == v)%Q.
Proof.
  intros R P feas obj mem relax heur inc cut root T tstep tempty onsol tick k j t s1 s2 RS HS H1 H2.
  destruct (stopped_later R P feas obj mem relax heur inc cut root RS HS T tstep tempty onsol tick k j t s1 s2 H1 H2)
    as (_ & G & L).
  split; [apply later_improves; exact L|]. intros v x E. unfold good in G. rewrite E in G. tauto.
Qed.
Print Assumptions C302_solutions_improve.
Example C302_example :
  (do s <- stopped nat Z dfs (ex_relax 0) (dfs_step lowest) dfs_empty 0 ex_heur dyn_onsol dyn_tick 2 (dfs_init 5 1000) 100 0;
   Ok (s_nsol s, s_best s)) = Ok (2, Some (49%Q, 49%Z)) /\
  (do s <- stopped nat Z dfs (ex_relax 0) (dfs_step lowest) dfs_empty 0 ex_heur dyn_onsol dyn_tick 6 (dfs_init 5 1000) 100 0;
   Ok (s_nsol s, s_best s)) = Ok (6, Some (12%Q, 12%Z)).
Proof. split; vm_compute; reflexivity. Qed.
