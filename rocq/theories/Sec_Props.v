(** C159-C163: the second objective, the slot for an NLP solution, the start of the search when rows may be added. *)
From Verif Require Import Base Arr Nlp Oad_Model Sec_Model Sec_Spec Sec_Proofs.
#[local] Open Scope Q_scope.

Definition f1 : found := mkFound [1; 1 # 2] true None (Some 5).
Definition f2 : found := mkFound [0; 3] true None (Some 4).
Definition f3 : found := mkFound [1 # 2; 3] true None (Some 1).
Definition ib : list bool := [true; false].
Lemma fs_count : counts 2 ib f1 /\ counts 2 ib f2 /\ ~ counts 2 ib f3.
Proof.
  assert (A : forall f b, integral (mkSolver Osi 2 ib) f = Ok b -> (b && w_opt f)%bool = true <-> counts 2 ib f) by (intros f b H; exact (counts_iff _ _ _ H)).
  split; [|split].
  - apply (A f1 true); reflexivity.
  - apply (A f2 true); reflexivity.
  - intros K. apply (A f3 false) in K; [discriminate|reflexivity].
Qed.

(** ** C159 *)
(** What is reported, exactly: the first of the best points found by the solvers that share the storage of solver i. *)
Theorem C159_exact_partial : forall ops s i, exec ops init = Ok s -> (i < length (families 0 ops []))%nat ->
  exists es, events 0 ops [] [] es /\ (forall es', events 0 ops [] [] es' -> es' = es) /\
  match nth i (families 0 ops []) None with
  | None => forall n, report i n s = NullDeref
  | Some o => exists r, best_of (of_family o es) r /\ forall n,
      report i n s = match r with
                     | None => Ok None
                     | Some (x, v) => match x with [] => Ok None | _ => if Nat.eqb (length x) n then Ok (Some (x, Fin v)) else AssertFail end
                     end
  end.
Proof.
  intros ops s i H L. destruct (exec_rel _ _ _ _ _ _ H rel_init) as (starts & es & E & _). cbn in E. exists es. split; auto.
  split; [intros; eapply events_fun; eauto|]. destruct (nth i (families 0 ops []) None) as [o|] eqn:F.
  - assert (F' : nth_error (families 0 ops []) i = Some (Some o)) by (rewrite (nth_error_nth' _ None L), F; auto).
    destruct (report_exact _ _ _ _ H F') as (es' & r & E' & B & R). rewrite (events_fun _ _ _ _ _ E _ E') in B. exists r. split; auto.
  - apply report_null with ops; auto. rewrite (nth_error_nth' _ None L), F. auto.
Qed.
Print Assumptions C159_exact_partial.
(** If the continuous solver had no information object of Bonmin at the start, the point reported was found in this search. *)
Theorem C159_partial : forall a i b s j n x v, exec (a ++ Start i :: b) init = Ok s -> nth_error (families 0 a []) i = Some None ->
  nth_error (families 0 (a ++ Start i :: b) []) j = Some (Some (length a)) ->
  report j n s = Ok (Some (x, v)) ->
  exists p k f h m, nth_error b p = Some (Solve k f) /\ w_second f = Some h /\ v = Fin h /\ x = firstn m (w_x f) /\ w_opt f = true.
Proof.
  intros a i b s j n x v H F J R. destruct (report_exact _ _ _ _ H J) as (es & r & E & B & X). rewrite X in R. unfold reported in R.
  destruct r as [[y w]|]; [|discriminate]. destruct y as [|y0 y]; [discriminate|]. destruct (Nat.eqb _ _); [|discriminate]. inv R.
  cbn in B. destruct B as (u & w' & K & _). assert (I : In (y0 :: y, w) (of_family (length a) es)) by (rewrite K; apply in_elt).
  unfold of_family in I. apply in_map_iff in I. destruct I as ([[[p o] z] h] & Z & I). cbn in Z. inv Z. apply filter_In in I. destruct I as [I O]. cbn in O. apply Nat.eqb_eq in O. subst o.
  destruct (events_young _ _ _ _ _ E young_nil _ _ _ _ I) as (A1 & A2 & k & f & m & A3 & A4 & A5 & A6).
  rewrite Nat.sub_0_r in A3. rewrite nth_error_app2 in A3 by lia. destruct (p - length a)%nat as [|q] eqn:Q; [lia|]. cbn in A3.
  exists q, k, f, w, m. auto.
Qed.
Print Assumptions C159_partial.
Example C159_case : exists s, exec ([New 2 ib; SetOsi 0] ++ Start 0 :: [Solve 1 f1; Clone 1; Solve 2 f2; Solve 1 f3]) init = Ok s /\
  nth_error (families 0 [New 2 ib; SetOsi 0] []) 0 = Some None /\
  nth_error (families 0 ([New 2 ib; SetOsi 0] ++ Start 0 :: [Solve 1 f1; Clone 1; Solve 2 f2; Solve 1 f3]) []) 0 = Some (Some 2%nat) /\
  report 0 2 s = Ok (Some ([0; 3], Fin 4)).
Proof. eexists. split; [vm_compute; reflexivity|]. split; [reflexivity|]. split; reflexivity. Qed.
(** A second search on the same set-up reports the point of the first one. *)
Theorem C159_refuted : ~ C159_full.
Proof.
  intros H. destruct (H [New 2 ib; SetOsi 0; Start 0; Solve 1 f1]%nat 0%nat [] _ 2%nat [1; 1 # 2] (Fin 5) ltac:(vm_compute; reflexivity) ltac:(vm_compute; reflexivity)) as (j & f & h & m & [] & _).
Qed.
Print Assumptions C159_refuted.

(** ** C160 *)
(** A point that counts, found by a solver sharing the storage, makes the report at least as good. *)
Theorem C160_partial : forall ops s i o es p x h, exec ops init = Ok s -> nth_error (families 0 ops []) i = Some (Some o) ->
  events 0 ops [] [] es -> In (p, o, x, h) es -> (forall q y w, In (q, o, y, w) es -> y <> []) ->
  report i (length x) s <> Ok None /\ forall n y v, report i n s = Ok (Some (y, v)) -> exists w, v = Fin w /\ w <= h.
Proof.
  intros ops s i o es p x h H F E I NE. destruct (report_exact _ _ _ _ H F) as (es' & r & E' & B & X). rewrite (events_fun _ _ _ _ _ E _ E') in B.
  assert (J : In (x, h) (of_family o es)).
  { unfold of_family. apply in_map_iff. exists (p, o, x, h). split; auto. apply filter_In. split; auto. cbn. apply Nat.eqb_refl. }
  destruct r as [[y w]|]; [|cbn in B; rewrite B in J; contradiction]. cbn in B. destruct B as (a & b & L & A & B).
  assert (W : w <= h). { rewrite L in J. apply in_app_or in J. destruct J as [J|[J|J]]; [apply A in J; lra|inv J; lra|apply B in J; auto]. }
  assert (Ny : y <> []).
  { assert (K : In (y, w) (of_family o es)) by (rewrite L; apply in_elt). unfold of_family in K. apply in_map_iff in K. destruct K as ([[[q o'] z] w'] & Z & K).
    cbn in Z. inv Z. apply filter_In in K. destruct K as [K O]. cbn in O. apply Nat.eqb_eq in O. subst. eapply NE; eauto. }
  split.
  - rewrite X. unfold reported. destruct y; [contradiction|]. destruct (Nat.eqb _ _); discriminate.
  - intros n z v R. rewrite X in R. unfold reported in R. destruct y; [contradiction|]. destruct (Nat.eqb _ _); [|discriminate]. inv R. eauto.
Qed.
Print Assumptions C160_partial.
Example C160_case : exists s es, exec [New 2 ib; SetOsi 0; Start 0; Solve 1 f1; Solve 0 f2] init = Ok s /\
  nth_error (families 0 [New 2 ib; SetOsi 0; Start 0; Solve 1 f1; Solve 0 f2] []) 0 = Some (Some 2%nat) /\
  events 0 [New 2 ib; SetOsi 0; Start 0; Solve 1 f1; Solve 0 f2] [] [] es /\ In (3%nat, 2%nat, [1; 1 # 2], 5) es /\
  (forall q y w, In (q, 2%nat, y, w) es -> y <> []) /\ report 0 2 s = Ok (Some ([0; 3], Fin 4)).
Proof.
  destruct fs_count as (C1 & C2 & _). eexists. exists [(3%nat, 2%nat, [1; 1 # 2], 5); (4%nat, 2%nat, [0; 3], 4)].
  split; [vm_compute; reflexivity|]. split; [reflexivity|]. split.
  { apply Ev_other; [discriminate|]. apply Ev_other; [discriminate|]. apply Ev_other; [discriminate|].
    refine (Ev_hit 3 1 f1 _ _ _ 2%nat 2%nat ib 5 _ _ _ C1 _ _); [reflexivity..|].
    refine (Ev_hit 4 0 f2 _ _ _ 2%nat 2%nat ib 4 _ _ _ C2 _ _); [reflexivity..|constructor]. }
  split; [left; reflexivity|]. split; [|reflexivity]. intros q y w [I|[I|[]]]; inv I; discriminate.
Qed.
(** With a decomposition algorithm the continuous solver is an LP solver with storage of its own: points of the nonlinear solver are not seen. *)
Theorem C160_refuted : ~ C160_full.
Proof.
  intros H. destruct fs_count as (C1 & _). refine (H [New 2 ib; New 2 ib; SetOsi 1]%nat 1%nat 0%nat [Solve 0 f1] _ 2%nat _ _ _); [vm_compute; reflexivity| |vm_compute; reflexivity].
  exists f1, 5, 2%nat, ib. split; [left; reflexivity|]. split; auto. split; [lia|]. split; [discriminate|]. split; [|reflexivity].
  intros v V. vm_compute in V. inv V. split; reflexivity.
Qed.
Print Assumptions C160_refuted.

(** ** C161 *)
(** If no other problem is ever put into a solver, the check of the length never fails, for any solver of the family. *)
Theorem C161_partial : forall ops i j s vi vj, Forall no_model ops -> exec ops init = Ok s ->
  nth_error (t_solvers s) i = Some vi -> nth_error (t_solvers s) j = Some vj -> nth i (families 0 ops []) None = nth j (families 0 ops []) None ->
  report i (v_n vj) s <> AssertFail.
Proof.
  intros ops i j s vi vj M H Vi Vj Fij. destruct (exec_fit ops 0 init s [] [] (fun _ => 0%nat) M H rel_init) as (starts & es & g & R & Fm & F & C).
  { split; auto. intros [|?] o E; discriminate. }
  { intros [|?] o e E; discriminate. }
  cbn in Fm. rewrite <- Fm in Fij. rewrite (nth_map_some _ _ _ _ _ vi), (nth_map_some _ _ _ _ _ vj) in Fij by auto.
  unfold report, rd. rewrite Vi. cbn [bind]. destruct (v_info vi) as [| |c] eqn:Ei; try discriminate.
  assert (Lc : (c < length starts)%nat) by (eapply (re_in _ _ _ _ R); eauto; eapply nth_error_In; eauto).
  destruct (nth_error starts c) as [o|] eqn:O; [|apply nth_error_None in O; lia].
  destruct (nth_error (t_cells s) c) as [e|] eqn:Y; [|discriminate]. cbn [bind].
  assert (Ef : fam starts vi = Some o) by (unfold fam; rewrite Ei; auto). rewrite Ef in Fij. symmetry in Fij. destruct F as [_ F]. destruct (F j o) as (ints & D).
  { rewrite nth_error_map, Vj. cbn. congruence. }
  rewrite nth_error_map, Vj in D. cbn in D. unfold dim in D. injection D as D _.
  destruct (C c o e O Y) as [-> |E]; [discriminate|]. rewrite E, D, Nat.eqb_refl. cbn. destruct (e_x e); discriminate.
Qed.
Print Assumptions C161_partial.
Example C161_case : exists s, Forall no_model [New 2 ib; SetOsi 0; Start 0; Solve 1 f1; Solve 0 f2] /\ exec [New 2 ib; SetOsi 0; Start 0; Solve 1 f1; Solve 0 f2] init = Ok s /\
  nth_error (t_solvers s) 0 = Some (mkSolver (Bon 0) 2 ib) /\ nth_error (t_solvers s) 1 = Some (mkSolver (Bon 0) 2 ib) /\ report 0 2 s = Ok (Some ([0; 3], Fin 4)).
Proof. eexists. split; [repeat constructor|]. split; [vm_compute; reflexivity|]. repeat split; reflexivity. Qed.
(** The fallback of enable_dynamic_nlp puts the user's problem, one variable shorter, into the search's solver. *)
Theorem C161_refuted : ~ C161_full.
Proof.
  intros H. eapply (H [New 3 [true; false; false]; SetOsi 0; Start 0; SetModel 1 2 ib; Solve 1 f1] 0%nat); [vm_compute; reflexivity| |]; vm_compute; reflexivity.
Qed.
Print Assumptions C161_refuted.

(** ** C162 *)
(** The slot gives back what was put in last, through any copies; making a copy aborts exactly when only solutions without entries were put in. *)
Theorem C162_partial : forall ops, Forall sized ops ->
  ((exists pre post, ops = pre ++ Copy :: post /\ (exists sol v, In (Set_ sol 0 v) pre) /\ (forall sol n v, In (Set_ sol n v) pre -> n = 0%nat)) /\ sexec ops slot_init = AssertFail) \/
  exists a, sexec ops slot_init = Ok a /\
    match last_set ops None with
    | None => nlpSolution a = None /\ nlpObjValue a = PInf
    | Some (sol, n, v) =>
        if last_has ops false
        then nlpObjValue a = Fin v /\ exists r, nlpSolution a = Some r /\ nth_error r n = Some (Some v) /\ forall i, (i < n)%nat -> exists q, nth_error sol i = Some q /\ nth_error r i = Some (Some q)
        else nlpSolution a = None /\ nlpObjValue a = PInf
    end.
Proof.
  intros ops F. assert (I : slot_is slot_init None false 0) by (constructor; cbn; auto). pose proof (sexec_is ops _ _ _ _ I F) as H.
  pose proof (bad_iff ops false 0) as B. cbv beta iota in H. destruct (bad_copy ops false 0).
  - left. split; auto. destruct (proj1 B eq_refl) as (pre & post & E & _ & [P|P] & A); [discriminate|]. eauto.
  - right. destruct H as (a & E & [S1 S2 S3]). exists a. split; auto. unfold nlpSolution, nlpObjValue. rewrite S1. destruct (last_set ops None) as [[[sol n] v]|].
    + destruct S3 as (O & A & L & rest & R & _). destruct (last_has ops false); [|auto]. split; auto. eexists. split; [exact R|].
      assert (Ln : length (map (@Some Q) (firstn n sol)) = n) by (rewrite map_length, firstn_length; lia). split.
      * rewrite nth_error_app2 by lia. rewrite Ln, Nat.sub_diag. reflexivity.
      * intros i Hi. destruct (nth_error sol i) as [q|] eqn:Q; [|apply nth_error_None in Q; lia]. exists q. split; auto. rewrite nth_error_app1 by lia.
        rewrite nth_error_map. replace (nth_error (firstn n sol) i) with (nth_error sol i); [rewrite Q; reflexivity|].
        rewrite <- (firstn_skipn n sol) at 1. apply nth_error_app1. rewrite firstn_length. lia.
    + destruct S3 as (-> & -> & _). destruct (last_has ops false); auto.
Qed.
Print Assumptions C162_partial.
Theorem C162_aborts_partial : forall ops, Forall sized ops -> sexec ops slot_init = AssertFail <->
  exists pre post, ops = pre ++ Copy :: post /\ (exists sol v, In (Set_ sol 0 v) pre) /\ (forall sol n v, In (Set_ sol n v) pre -> n = 0%nat).
Proof.
  intros ops F. assert (I : slot_is slot_init None false 0) by (constructor; cbn; auto). pose proof (sexec_is ops _ _ _ _ I F) as H.
  pose proof (bad_iff ops false 0) as B. cbv beta iota in H. destruct (bad_copy ops false 0).
  - split; auto. intros _. destruct (proj1 B eq_refl) as (pre & post & E & _ & [P|P] & A); [discriminate|]. eauto.
  - destruct H as (a & E & _). split; [congruence|]. intros (pre & post & E' & P & A). assert (K : false = true) by (apply B; exists pre, post; auto). discriminate.
Qed.
Print Assumptions C162_aborts_partial.
Example C162_case : exists a, Forall sized [Set_ [7; 8] 2 3; Copy; Has true; Set_ [1; 2; 9] 1 5; Copy] /\
  sexec [Set_ [7; 8] 2 3; Copy; Has true; Set_ [1; 2; 9] 1 5; Copy] slot_init = Ok a /\ nlpSolution a = Some [Some 1; Some 5; Some 3] /\ nlpObjValue a = Fin 5.
Proof. eexists. split; [repeat (constructor; try (cbn; lia))|]. split; [vm_compute; reflexivity|]. split; reflexivity. Qed.
Theorem C162_refuted : ~ C162_full.
Proof. intros H. destruct (H [Set_ [] 0 1; Copy]) as (a & E); [repeat constructor|]. discriminate. Qed.
Print Assumptions C162_refuted.

(** ** C163 *)
(** The start of the search, exactly. *)
Theorem C163_partial : forall d, d_quad d = true ->
  let w := (d_on d = true /\ d_linear d = false) in
  (d_on d = false \/ d_same d = false -> dyn_root d = Ok (nl_cols d, 0%nat)) /\
  (d_on d = true -> d_same d = true ->
     (d_opt d = true -> (d_cuts d > 0)%nat -> dyn_root d = Ok (nl_cols d, d_cuts d)) /\
     (d_opt d = true -> d_cuts d = 0%nat -> dyn_root d = OutOfBounds) /\
     (d_opt d = false -> d_linear d = true -> dyn_root d = NullDeref) /\
     (d_opt d = false -> d_linear d = false -> dyn_root d = Ok (d_n d, 0%nat) /\ forall sol, length sol = d_n d -> final_copy d sol = OutOfBounds)) /\
  (w -> nl_cols d = S (d_n d)) /\ (~ w -> nl_cols d = d_n d) /\
  (forall m k sol, dyn_root d = Ok (m, k) -> length sol = m -> m = nl_cols d -> final_copy d sol = Ok sol).
Proof.
  intros d Q w. unfold dyn_root, final_copy, nl_cols, wrapped, w, chk. rewrite Q.
  split; [intros [-> | ->]; [rewrite andb_false_r|]; reflexivity|]. split.
  - intros -> ->. cbn. repeat split; intros.
    + rewrite H. cbn. destruct (Nat.eqb_spec (d_cuts d) 0); [lia|reflexivity].
    + rewrite H, H0. reflexivity.
    + rewrite H, H0. reflexivity.
    + rewrite H, H0. reflexivity.
    + rewrite H0. cbn [andb negb]. rewrite H1. rewrite (proj2 (Nat.leb_gt (S (d_n d)) (d_n d))) by lia. reflexivity.
  - split; [intros [-> ->]; reflexivity|]. split.
    + intros N. destruct (d_on d), (d_linear d); try reflexivity. exfalso. apply N. auto.
    + intros m k sol _ L M. rewrite <- M, L. rewrite Nat.leb_refl. subst m. rewrite firstn_all. reflexivity.
Qed.
Print Assumptions C163_partial.
Example C163_case : dyn_root (mkDyn true true true false 4 true 3) = Ok (5%nat, 3%nat) /\ final_copy (mkDyn true true true false 4 true 3) [1; 2; 3; 4; 5] = Ok [1; 2; 3; 4; 5].
Proof. split; reflexivity. Qed.
(** A linear objective and an infeasible root relaxation. *)
Theorem C163_refuted : ~ C163_full.
Proof. intros H. destruct (H (mkDyn true true true true 4 false 0) eq_refl) as (m & k & E & _). discriminate. Qed.
Print Assumptions C163_refuted.
