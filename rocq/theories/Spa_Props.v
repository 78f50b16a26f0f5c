(** Outer descriptions of separable problems: the properties (C200-C208). *)
From Verif Require Import Base Arr Spa_Model Spa_Spec Spa_Proofs.
From Coq Require Import Lqa.
#[local] Open Scope Q_scope.

(** ** C200: the tangents of the outer description keep all solutions of a convex row.  They do not: when a small coefficient is removed the side is
    moved with the wrong bound of the variable. *)
Lemma sq_nonneg (a : Q) : 0 <= a * a.
Proof. nra. Qed.
Lemma one_wf cl cu r x j v : length cu = length cl -> length x = length cl -> r_j r x = [(j, v)] -> (j < length cl)%nat -> row_wf cl cu r x.
Proof. intros A B C D. repeat split; auto; rewrite C; [repeat constructor; intros [] | intros i w [E | []]; injection E as <- _; exact D]. Qed.
Definition flat : row := mkRow false MInf (Fin (1 # 1000000)) (fun y => nth 0 y 0 * nth 0 y 0 * (1 # 1000000000)) (fun x => [(0%nat, 2 * nth 0 x 0 * (1 # 1000000000))]) None.
Lemma flat_convex cl cu x : convex cl cu (r_lo flat) (r_up flat) flat x.
Proof.
  intros y _. split; [intros _ | intros H; elim H; reflexivity]. unfold touching. cbn [flat r_g r_j map fst snd qsum].
  set (a := nth 0 x 0). set (b := nth 0 y 0). pose proof (sq_nonneg (b - a)). clearbody a b. cbn [qsum fold_right]. lra.
Qed.
Theorem C200_refuted : ~ C200_full.
Proof.
  intros H.
  assert (W : row_wf [Fin 0] [Fin 5000] flat [1]) by (eapply one_wf; try reflexivity; cbn; lia).
  assert (B : in_box [Fin 0] [Fin 5000] [10]). { intros [|i] I; cbn in I; [|lia]. split; vm_compute; congruence. }
  assert (ST : satisfied flat [10]) by (split; vm_compute; [exact Logic.I | congruence]).
  assert (E : exists c, getMyOuterApproximation [Fin 0] [Fin 5000] flat 0 [1] None 0 = Ok [c] /\ ~ holds c [10]).
  { eexists. split; [vm_compute; reflexivity|]. intros [_ K]. vm_compute in K. congruence. }
  destruct E as [c [E N]]. apply N. exact (H _ _ _ _ _ _ c _ W eq_refl (flat_convex _ _ _) B ST E (or_introl eq_refl)).
Qed.
Print Assumptions C200_refuted.
(** Without small coefficients a row gives exactly one tangent, kept by all points that satisfy the sides it was given. *)
Theorem C200_partial : forall cl cu r dual x y,
  row_wf cl cu r x -> r_id r = None -> convex cl cu (fst (sides r dual)) (snd (sides r dual)) r x -> no_small od_tiny (r_j r x) ->
  in_box cl cu y -> satisfied r y ->
  exists c, getMyOuterApproximation cl cu r dual x None 0 = Ok [c] /\ holds c y.
Proof.
  intros cl cu r dual x y [L1 [L2 [ND WF]]] ID CV NS B ST. unfold getMyOuterApproximation. destruct (sides r dual) as [lb ub] eqn:SD. cbn [fst snd] in CV.
  destruct (entries_runs cl cu (clean_od od_tiny od_vtiny) (fun _ => false) r x L1 L2 (r_j r x) (mkCut [] (eadd lb (- r_g r x)) (eadd ub (- r_g r x))) WF ND) as [[c|] E].
  2:{ exfalso. revert E. generalize (mkCut [] (eadd lb (- r_g r x)) (eadd ub (- r_g r x))). induction (r_j r x) as [|[j v] es IH]; intros c0 E; cbn [entries] in E. discriminate.
      apply rd3 in E. destruct E as [_ E]. destruct (clean_od od_tiny od_vtiny (nth j cl MInf) (nth j cu PInf) (r_lo r) (r_up r) (nth j x 0) v (c_lo c0) (c_up c0)) as [[[k v'] lb'] ub'].
      cbn in ND. inversion ND; subst. assert (WF' : forall j v, In (j, v) es -> (j < length cl)%nat) by (intros; eapply WF; right; eauto).
      assert (NS' : no_small od_tiny es) by (intros j0 v0 I; apply (NS j0 v0); right; exact I).
      destruct k; [apply bind_ok in E; destruct E as [p [_ E]]|]; eapply IH; eauto. }
  exists c. rewrite E. cbn [bind]. rewrite link_none by assumption. cbn [bind]. split; [reflexivity|].
  apply entries_plain in E; [|intros j v I; apply plain_od; exact (NS j v I)]. destruct E as [_ E]. destruct (E y) as [E1 E2]. cbn [c_up c_lo c_row] in E1, E2.
  destruct (CV y B) as [C1 C2]. destruct ST as [S1 S2]. rewrite up_ok_eadd in E1. rewrite lo_ok_eadd in E2.
  assert (SL : lo_ok lb (r_g r y)). { unfold sides in SD. destruct (r_lo r), (r_up r); try (injection SD as <- <-; exact S1). injection SD as <- _. destruct (Qle_bool 0 dual); cbn; auto. }
  assert (SU : up_ok ub (r_g r y)). { unfold sides in SD. destruct (r_lo r), (r_up r); try (injection SD as <- <-; exact S2). injection SD as _ <-. destruct (Qle_bool dual 0); cbn; auto. }
  split; [apply E2 | apply E1].
  - destruct lb; cbn in SL |- *; auto. specialize (C2 ltac:(discriminate)). rewrite touching_eq in C2. unfold lhs; cbn [map qsum fold_right]. lra.
  - destruct ub; cbn in SU |- *; auto. specialize (C1 ltac:(discriminate)). rewrite touching_eq in C1. unfold lhs; cbn [map qsum fold_right]. lra.
Qed.
Print Assumptions C200_partial.
Definition parabola (lo up : ext) (id : option nat) : row := mkRow false lo up (fun y => nth 0 y 0 * nth 0 y 0) (fun x => [(0%nat, 2 * nth 0 x 0)]) id.
Lemma parabola_convex cl cu up id x : convex cl cu MInf up (parabola MInf up id) x.
Proof.
  intros y _. split; [intros _ | intros H; elim H; reflexivity]. unfold touching. cbn [parabola r_g r_j map fst snd qsum fold_right].
  set (a := nth 0 x 0). set (b := nth 0 y 0). pose proof (sq_nonneg (b - a)). clearbody a b. lra.
Qed.
Example C200_case : getMyOuterApproximation [Fin 0] [Fin 9] (parabola MInf (Fin 4) None) 1 [3] None 0 = Ok [mkCut [(0%nat, 6)] MInf (Fin 13)] /\ ~ holds (mkCut [(0%nat, 6)] MInf (Fin 13)) [3] /\ holds (mkCut [(0%nat, 6)] MInf (Fin 13)) [2].
Proof. split; [vm_compute; reflexivity|]. split; [intros [_ H]; vm_compute in H; congruence | split; vm_compute; [exact Logic.I | congruence]]. Qed.

(** ** C201: the tangents of the transformer keep all solutions of convex rows, up to what the entries below the second threshold amount to, and there is
    one for each nonlinear row. *)
Theorem C201_tangents : forall tiny vtiny cl cu rows x,
  (forall r, In r rows -> r_linear r = false -> row_wf cl cu r x /\ no_big (r_j r x) /\ r_id r = None /\ convex cl cu (r_lo r) (r_up r) r x) ->
  exists cs, get_oas tiny vtiny cl cu rows x = Ok cs /\
    Forall2 (fun r d => forall y, in_box cl cu y -> satisfied r y -> holds_within (neglected vtiny (r_j r x) x y) d y) (filter (fun r => negb (r_linear r)) rows) cs.
Proof.
  intros tiny vtiny cl cu rows x W. destruct (get_oas_go tiny vtiny cl cu rows x) as [cs [G F]]. { intros r I N. destruct (W r I N) as [A [B [C _]]]. auto. }
  exists cs. split; [exact G|].
  assert (W2 : forall r, In r (filter (fun r => negb (r_linear r)) rows) -> convex cl cu (r_lo r) (r_up r) r x). { intros r I. apply filter_In in I. destruct I as [I N]. apply negb_true_iff in N. apply W; assumption. }
  clear G W. induction F; constructor.
  - intros y0 B ST. eapply tangent_valid; eauto. apply W2. left; reflexivity.
  - apply IHF. intros; apply W2; right; assumption.
Qed.
Print Assumptions C201_tangents.
(** Without small coefficients the tangent is violated at its own point exactly if the row is. *)
Theorem C201_exact : forall tiny vtiny cl cu r x cs, r_id r = None -> no_small tiny (r_j r x) -> get_oa tiny vtiny cl cu r x = Ok cs ->
  forall c, In c cs -> c_row c = r_j r x /\ (forall y, holds c y <-> lo_ok (r_lo r) (touching r x y) /\ up_ok (r_up r) (touching r x y)).
Proof.
  intros tiny vtiny cl cu r x cs ID NS G c I. apply get_oa_inv in G. destruct G as [-> | [c0 [d [-> [E L]]]]]; [destruct I|]. rewrite link_none in L by assumption. injection L as ->.
  destruct I as [-> | []]. apply entries_plain in E; [|intros j v I; apply plain_lp; exact (NS j v I)]. destruct E as [R E]. split; [exact R|]. intros y. destruct (E y) as [E1 E2].
  unfold holds. rewrite E1, E2. unfold start; cbn [c_up c_lo c_row]. rewrite up_ok_eadd, lo_ok_eadd.
  split; (intros [A B]; split; [revert A; apply lo_ok_eq | revert B; apply up_ok_eq]); rewrite touching_eq; unfold lhs; cbn [map qsum fold_right]; ring.
Qed.
Print Assumptions C201_exact.
(** One coefficient above 1e15 and there are no tangents at all. *)
Theorem C201_big : forall tiny vtiny cl cu rows x, tiny <= big_limit -> (forall r, In r rows -> r_linear r = false -> row_wf cl cu r x) ->
  (exists r j v, In r rows /\ r_linear r = false /\ In (j, v) (r_j r x) /\ big_limit < Qabs v) -> get_oas tiny vtiny cl cu rows x = Ok [].
Proof. intros tiny vtiny cl cu rows x T W E. unfold get_oas. rewrite tangents_big; auto. Qed.
Print Assumptions C201_big.
Definition tinyd : Q := 1 # 100000000.
Definition vtinyd : Q := 1 # 100000000000000000.
Example C201_case : get_oas tinyd vtinyd [Fin 0] [Fin 9] [parabola MInf (Fin 4) None; mkRow true (Fin 0) PInf (fun y => nth 0 y 0) (fun _ => [(0%nat, 1)]) None; parabola MInf (Fin 9) None] [3]
  = Ok [mkCut [(0%nat, 6)] MInf (Fin 13); mkCut [(0%nat, 6)] MInf (Fin 18)].
Proof. vm_compute. reflexivity. Qed.

(** ** C202: tangents of rows that a variable switches.  The first variable is not recognised as a switch. *)
Definition switched : row := mkRow false MInf (Fin 1) (fun y => (nth 1 y 0 - 2) * (nth 1 y 0 - 2)) (fun x => [(1%nat, 2 * (nth 1 x 0 - 2))]) (Some 0%nat).
Theorem C202_refuted : ~ C202_full.
Proof.
  intros H. destruct (H tinyd vtinyd [Fin 0; Fin 0] [Fin 1; Fin 9] switched [1; 1] [0; 0]) as [cs [G A]].
  - split; vm_compute; congruence.
  - eapply one_wf; try reflexivity; cbn; lia.
  - intros y _. split; [intros _ | intros N; elim N; reflexivity]. unfold touching. cbn [switched r_g r_j map fst snd qsum fold_right].
    set (a := nth 1 [1; 1] 0). set (b := nth 1 y 0). pose proof (sq_nonneg (b - a)). clearbody a b. lra.
  - intros j v [E | []]. injection E as _ <-. vm_compute. congruence.
  - intros [|[|i]] I; cbn in I; [| |lia]; split; vm_compute; congruence.
  - right. split; [reflexivity|]. intros j v [E | []]. injection E as <- _. reflexivity.
  - vm_compute in G. injection G as <-. destruct (A _ (or_introl eq_refl)) as [_ K]. vm_compute in K. congruence.
Qed.
Print Assumptions C202_refuted.
(** Any other switch, outside the row, with one side: one tangent, kept by all points that satisfy the switched row. *)
Theorem C202_partial : forall tiny vtiny cl cu r x z, row_wf cl cu r x -> no_big (r_j r x) -> convex cl cu (r_lo r) (r_up r) r x ->
  r_id r = Some (S z) -> (r_lo r = MInf \/ r_up r = PInf) -> ~ In (S z) (map fst (r_j r x)) ->
  exists d, get_oa tiny vtiny cl cu r x = Ok [d] /\ forall y, in_box cl cu y -> on_off r x y -> holds_within (neglected vtiny (r_j r x) x y) d y.
Proof.
  intros tiny vtiny cl cu r x z W NB CV ID ONE NI. destruct (entries_go tiny vtiny cl cu r x W NB) as [c E].
  destruct (link_go r c z ID) as [d L].
  - eapply start_one; eauto.
  - intros I. destruct (entries_row _ _ _ _ _ _ _ _ _ E _ I) as [A | A]; [destruct A | auto].
  - exists d. split.
    + unfold get_oa, tangent. fold (start r x). rewrite E. cbn [bind]. rewrite L. reflexivity.
    + intros y B O. eapply linked_valid; eauto. congruence.
Qed.
Print Assumptions C202_partial.
(** The same for all rows at once. *)
Theorem C202_all_partial : forall tiny vtiny cl cu rows x cs,
  (forall r, In r rows -> r_linear r = false -> convex cl cu (r_lo r) (r_up r) r x /\ r_id r <> Some 0%nat /\ (r_id r <> None -> r_lo r = MInf \/ r_up r = PInf)) ->
  get_oas tiny vtiny cl cu rows x = Ok cs -> cs = [] \/
  Forall2 (fun r d => forall y, in_box cl cu y -> on_off r x y -> holds_within (neglected vtiny (r_j r x) x y) d y) (filter (fun r => negb (r_linear r)) rows) cs.
Proof.
  intros tiny vtiny cl cu rows x cs W G. apply get_oas_inv in G. destruct G as [-> | G]; [left; reflexivity|right].
  assert (W2 : forall r, In r (filter (fun r => negb (r_linear r)) rows) -> convex cl cu (r_lo r) (r_up r) r x /\ r_id r <> Some 0%nat /\ (r_id r <> None -> r_lo r = MInf \/ r_up r = PInf)).
  { intros r I. apply filter_In in I. destruct I as [I N]. apply negb_true_iff in N. apply W; assumption. }
  clear W. induction G as [|r d rs ds [c [E L]] G IH]; constructor.
  - intros y B O. destruct (W2 r (or_introl eq_refl)) as [W1 [W3 W4]]. eapply linked_valid; eauto.
  - apply IH. intros; apply W2; right; assumption.
Qed.
Print Assumptions C202_all_partial.
Example C202_all_case : get_oas tinyd vtinyd [Fin 0; Fin 0] [Fin 9; Fin 1] [parabola MInf (Fin 4) (Some 1%nat)] [3; 1] = Ok [mkCut [(0%nat, 6); (1%nat, -13)] MInf (Fin 0)].
Proof. vm_compute. reflexivity. Qed.
(** With two sides the description is given up by an exception. *)
Theorem C202_thrown_partial : forall tiny vtiny cl cu r x z a b, row_wf cl cu r x -> no_big (r_j r x) ->
  r_id r = Some (S z) -> r_lo r = Fin a -> r_up r = Fin b -> get_oa tiny vtiny cl cu r x = Thrown.
Proof.
  intros tiny vtiny cl cu r x z a b W NB ID A B. destruct (entries_go tiny vtiny cl cu r x W NB) as [c E]. pose proof (entries_lp_kind _ _ _ _ _ _ _ _ _ E) as [K1 K2].
  unfold start in K1, K2; cbn [c_lo c_up] in K1, K2. rewrite A in K1. rewrite B in K2. apply same_kind_fin in K1, K2. destruct K1 as [l K1], K2 as [u K2].
  unfold get_oa, tangent. fold (start r x). rewrite E. cbn [bind]. rewrite (link_two r c z l u ID K1 K2). reflexivity.
Qed.
Print Assumptions C202_thrown_partial.
Example C202_case : get_oa tinyd vtinyd [Fin 0; Fin 0] [Fin 9; Fin 1] (parabola MInf (Fin 4) (Some 1%nat)) [3; 1] = Ok [mkCut [(0%nat, 6); (1%nat, -13)] MInf (Fin 0)] /\
  get_oa tinyd vtinyd [Fin 0; Fin 0] [Fin 9; Fin 1] (parabola (Fin 1) (Fin 4) (Some 1%nat)) [3; 1] = Thrown.
Proof. split; vm_compute; reflexivity. Qed.

(** ** C203: the sampling ends.  It does not for a row of integer variables, which are not moved, nor for a row that becomes flat. *)
Theorem C203_refuted : ~ C203_full.
Proof.
  intros H. destruct (H 3%nat [true] [Fin 0] [Fin 2] (parabola MInf (Fin 3) None) eq_refl eq_refl) as [fuel [pts E]].
  unfold od_points in E. rewrite sample_stuck in E; [discriminate | lia |]. intros j _.
  replace (r_g (parabola MInf (Fin 3) None) (shift (map od_raw [Fin 0]) (map3 od_step [true] [Fin 0] [Fin 2]) j)) with ((0 + inject_Z (Z.of_nat j) * 0) * (0 + inject_Z (Z.of_nat j) * 0)) by reflexivity.
  setoid_replace (r_g (parabola MInf (Fin 3) None) (map od_raw [Fin 0]) - (0 + inject_Z (Z.of_nat j) * 0) * (0 + inject_Z (Z.of_nat j) * 0)) with 0.
  - vm_compute. reflexivity.
  - change (r_g (parabola MInf (Fin 3) None) (map od_raw [Fin 0])) with (0 * 0). ring.
Qed.
Print Assumptions C203_refuted.
Definition flattening : row := mkRow false MInf (Fin 1) (fun y => if Qltb (nth 0 y 0) 1 then (1 - nth 0 y 0) * (1 - nth 0 y 0) else 0) (fun x => [(0%nat, if Qltb (nth 0 x 0) 1 then -2 * (1 - nth 0 x 0) else 0)]) None.
Lemma flattening_at j : (1 <= j)%nat -> r_g flattening (shift [0] [100 / inject_Z (Z.of_nat 100)] j) = 0.
Proof.
  intros J. change (r_g flattening (shift [0] [100 / inject_Z (Z.of_nat 100)] j)) with
    (let a := 0 + inject_Z (Z.of_nat j) * (100 / inject_Z (Z.of_nat 100)) in if Qltb a 1 then (1 - a) * (1 - a) else 0). cbn zeta.
  destruct (Qltb (0 + inject_Z (Z.of_nat j) * (100 / inject_Z (Z.of_nat 100))) 1) eqn:E; [|reflexivity]. apply Qltb_lt in E.
  setoid_replace (100 / inject_Z (Z.of_nat 100)) with 1 in E by reflexivity. assert (1 <= inject_Z (Z.of_nat j)) by (change 1 with (inject_Z 1); rewrite <- Zle_Qle; lia). lra.
Qed.
Theorem C203_values_refuted : ~ C203_values_full.
Proof.
  intros H. destruct (H 5%nat [false] [Fin 0] [Fin 100] flattening eq_refl eq_refl) as [fuel [pts E]]. unfold fv_points in E.
  change (map (fun q => (snd q - fst q) / inject_Z (Z.of_nat (5 * 20))) (combine (map (fun s => if fst s : bool then 0 else clip_lo (snd s)) (combine [false] [Fin 0])) (map (fun t => if fst t : bool then 0 else clip_up (snd t)) (combine [false] [Fin 100])))) with [(100 - 0) / inject_Z (Z.of_nat 100)] in E.
  change (map (fun p => if fst p : bool then 0 else clip_lo (snd p)) (combine [false] [Fin 0])) with [0] in E.
  change (map (fun p => if fst p : bool then 0 else clip_up (snd p)) (combine [false] [Fin 100])) with [100] in E.
  change ((100 - 0) / inject_Z (Z.of_nat 100)) with (100 / inject_Z (Z.of_nat 100)) in E.
  change (r_g flattening [0]) with 1 in E. change (r_g flattening [100]) with 0 in E.
  destruct fuel as [|fuel]; [discriminate|]. cbn [sample] in E. change (Nat.leb 5 2) with false in E. cbn iota in E.
  rewrite (flattening_at 1) in E by lia. change (Qle_bool (Qabs (0 - 1) / inject_Z (Z.of_nat 5 - 1)) (Qabs (1 - 0))) with true in E. cbn iota in E.
  rewrite sample_stuck in E; [discriminate | lia |]. intros j J. rewrite flattening_at by lia. vm_compute. reflexivity.
Qed.
Print Assumptions C203_values_refuted.
(** It ends if from every point the row moves by the threshold somewhere further on. *)
Theorem C203_partial : forall nb int cl cu r,
  let p k := shift (map od_raw cl) (map3 od_step int cl cu) k in
  let thr := Qabs (r_g r (map od_up cu) - r_g r (map od_low cl)) / inject_Z (Z.of_nat nb) in
  r_g r (p 0%nat) == r_g r (map od_raw cl) -> (forall k, exists j, (k < j)%nat /\ thr <= Qabs (r_g r (p k) - r_g r (p j))) ->
  exists fuel pts, od_points nb fuel int cl cu r = Ok pts.
Proof.
  intros nb int cl cu r p thr P0 MV. destruct (MV 0%nat) as [j [J M]].
  destruct (sample_ends (fun k => r_g r (p k)) thr nb MV nb 2 0 (r_g r (map od_raw cl)) ltac:(lia)) as [fuel [ks E]].
  { exists j. split; [exact J|]. rewrite <- P0. exact M. }
  exists fuel. unfold od_points. cbv zeta. unfold p, thr in E. rewrite E. cbn [bind]. eauto.
Qed.
Print Assumptions C203_partial.
(** When it ends: the number of points, and where they are. *)
Theorem C203_points_partial : forall nb fuel flags cl cu r pts,
  (od_points nb fuel flags cl cu r = Ok pts -> length pts = Nat.max 2 nb /\
     exists ks, pts = map od_low cl :: map (shift (map od_raw cl) (map3 od_step flags cl cu)) ks ++ [map od_up cu] /\
       spaced (fun k => r_g r (shift (map od_raw cl) (map3 od_step flags cl cu) k)) (Qabs (r_g r (map od_up cu) - r_g r (map od_low cl)) / inject_Z (Z.of_nat nb)) 0 (r_g r (map od_raw cl)) ks) /\
  (fv_points nb fuel flags cl cu r = Ok pts -> length pts = Nat.max 2 nb /\
     let low := cliplow flags cl in let up := clipup flags cu in let step := map (fun p => (snd p - fst p) / inject_Z (Z.of_nat (nb * 20))) (combine low up) in
     exists ks, pts = low :: up :: map (shift low step) ks /\
       spaced (fun k => r_g r (shift low step k)) (Qabs (r_g r up - r_g r low) / inject_Z (Z.of_nat nb - 1)) 0 (r_g r low) ks).
Proof.
  intros nb fuel flags cl cu r pts. split; intros H; apply bind_ok in H; destruct H as [ks [E H]]; injection H as <-; destruct (sample_spec _ _ _ _ _ _ _ _ E 0%nat ltac:(lia) ltac:(intros; lia)) as [A [B C]].
  - split; [cbn [length]; rewrite app_length, map_length, B; cbn [length]; lia|]. exists ks. auto.
  - split; [cbn [length]; rewrite map_length, B; lia|]. exists ks. auto.
Qed.
Print Assumptions C203_points_partial.
Example C203_case : exists a b, od_points 4 200 [false] [Fin 0] [Fin 2] (parabola MInf (Fin 3) None) = Ok [[0]; [a]; [b]; [2]] /\ a == 1 /\ b == 71 # 50.
Proof. eexists. eexists. split; [vm_compute; reflexivity|]. split; reflexivity. Qed.

(** ** C204: the points lie within the bounds.  They do not: variables that occur linearly are put to 0 whatever their bounds are. *)
Theorem C204_refuted : ~ C204_full.
Proof.
  intros H. assert (B : in_box [Fin 1] [Fin 2] [0]).
  { apply (H 1%nat 0%nat [true] [Fin 1] [Fin 2] (parabola MInf (Fin 3) None) (refined_points 1 [true] [Fin 1] [Fin 2]) [0] eq_refl eq_refl).
    - exists [1]. intros [|i] I; cbn in I; [|lia]. split; vm_compute; congruence.
    - right. right. reflexivity.
    - vm_compute. left. reflexivity. }
  destruct (B 0%nat ltac:(cbn; lia)) as [K _]. vm_compute in K. congruence.
Qed.
Print Assumptions C204_refuted.
(** Where clipping does no harm: the refined points, and the sampled points as long as the sampling takes no more steps than lead to the upper end. *)
Theorem C204_partial : forall nb flags cl cu, length flags = length cl -> length cu = length cl -> clippable flags cl cu ->
  (forall p, In p (refined_points nb flags cl cu) -> in_box cl cu p) /\
  (forall r pts p, fv_points nb (nb * 20) flags cl cu r = Ok pts -> In p pts -> in_box cl cu p).
Proof.
  intros nb flags cl cu L1 L2 C. destruct (clip_in_box flags cl cu L1 L2 C) as [BL BU].
  assert (LL : length (cliplow flags cl) = length cl) by (unfold cliplow; rewrite map_length, combine_length; lia).
  assert (LU : length (clipup flags cu) = length cl) by (unfold clipup; rewrite map_length, combine_length; lia).
  assert (ST : forall N k, (0 < N)%nat -> (k <= N)%nat -> in_box cl cu (shift (cliplow flags cl) (map (fun p => (snd p - fst p) / inject_Z (Z.of_nat N)) (combine (cliplow flags cl) (clipup flags cu))) k)).
  { intros N k P L. apply (segment_in_box cl cu (cliplow flags cl) (clipup flags cu) _ N); auto. rewrite map_length, combine_length; lia.
    intros i I. right. rewrite (nth_map_combine _ (cliplow flags cl) (clipup flags cu) i 0 0) by lia. cbn [fst snd]. reflexivity. }
  split.
  - intros p I. unfold refined_points in I. destruct nb as [|nb]; [destruct I|]. fold (cliplow flags cl) (clipup flags cu) in I.
    destruct I as [<- | I]; [exact BL|]. apply in_app_or in I. destruct I as [I | [<- | []]]; [|exact BU]. apply in_map_iff in I. destruct I as [k [<- I]]. apply in_seq in I. apply ST; lia.
  - intros r pts p H I. apply bind_ok in H. destruct H as [ks [E H]]. injection H as <-. fold (cliplow flags cl) (clipup flags cu) in I.
    destruct I as [<- | [<- | I]]; [exact BL | exact BU|]. apply in_map_iff in I. destruct I as [k [<- I]].
    destruct (sample_spec _ _ _ _ _ _ _ _ E 0%nat ltac:(lia) ltac:(intros; lia)) as [_ [_ K]]. apply K in I. apply ST; lia.
Qed.
Print Assumptions C204_partial.
(** The refined points: both ends and an even grid, the upper end twice. *)
Theorem C204_grid_partial : forall nb flags cl cu, length flags = length cl -> length cu = length cl -> (0 < nb)%nat ->
  length (refined_points nb flags cl cu) = (nb + 2)%nat /\
  forall k i, (k <= nb)%nat -> (i < length cl)%nat -> nth i (nth k (refined_points nb flags cl cu) []) 0 ==
    (let l := nth i (cliplow flags cl) 0 in let u := nth i (clipup flags cu) 0 in l + inject_Z (Z.of_nat k) * ((u - l) / inject_Z (Z.of_nat nb))).
Proof.
  intros nb flags cl cu L1 L2 P. destruct nb as [|nb]; [lia|]. unfold refined_points. fold (cliplow flags cl) (clipup flags cu). split.
  - cbn [length]. rewrite app_length, map_length, seq_length. cbn. lia.
  - intros k i K I. cbn zeta.
    assert (LL : length (cliplow flags cl) = length cl) by (unfold cliplow; rewrite map_length, combine_length; lia).
    assert (LU : length (clipup flags cu) = length cl) by (unfold clipup; rewrite map_length, combine_length; lia).
    destruct k as [|k]. { cbn [nth]. change (inject_Z (Z.of_nat 0)) with 0. ring. }
    cbn [nth]. rewrite app_nth1 by (rewrite map_length, seq_length; lia).
    set (step := map (fun p => (snd p - fst p) / inject_Z (Z.of_nat (S nb))) (combine (cliplow flags cl) (clipup flags cu))).
    rewrite (nth_indep _ [] (shift (cliplow flags cl) step 0)) by (rewrite map_length, seq_length; lia). rewrite map_nth, seq_nth by lia.
    rewrite nth_shift by (unfold step; rewrite ?map_length, ?combine_length; lia). unfold step. rewrite (nth_map_combine _ (cliplow flags cl) (clipup flags cu) i 0 0) by lia. reflexivity.
Qed.
Print Assumptions C204_grid_partial.
Example C204_case : clippable [false; true] [MInf; Fin 0] [Fin 5; PInf] /\ nth 0 (refined_points 2 [false; true] [MInf; Fin 0] [Fin 5; PInf]) [] = [-10000; 0].
Proof. split; [|reflexivity]. intros [|[|i]] I; cbn in I; [| |lia]; cbn; repeat split; try exact Logic.I; try (vm_compute; congruence). exists 0. split; [exact Logic.I | vm_compute; congruence]. Qed.

(** ** C205: the linear program keeps all solutions.  It does not: the side is moved for a small coefficient that stays in the matrix. *)
Definition flat2 : row := mkRow false MInf (Fin (36 # 10000000)) (fun y => nth 0 y 0 * nth 0 y 0 * (1 # 10000000000000)) (fun x => [(0%nat, 2 * nth 0 x 0 * (1 # 10000000000000))]) None.
Theorem C205_refuted : ~ C205_full.
Proof.
  intros H. specialize (H tinyd vtinyd [Fin 5000] [Fin 20000] [flat2] [5000]).
  assert (E : exists c d, extract tinyd vtinyd [Fin 5000] [Fin 20000] [flat2] [5000] = Ok [c; d] /\ ~ holds c [6000]).
  { eexists. eexists. split; [vm_compute; reflexivity|]. intros [_ K]. vm_compute in K. congruence. }
  destruct E as [c [d [E N]]]. apply N. apply (H [c; d] [6000]); [split; vm_compute; congruence | | | exact E | left; reflexivity].
  - intros r [<- | []]. split; [|split; [|split]].
    + eapply one_wf; try reflexivity; cbn; lia.
    + intros y _. split; [intros _ | intros K; elim K; reflexivity]. unfold touching. cbn [flat2 r_g r_j map fst snd qsum fold_right].
      set (a := nth 0 [5000] 0). set (b := nth 0 y 0). pose proof (sq_nonneg (b - a)). clearbody a b. lra.
    + split; [exact Logic.I | vm_compute; congruence].
    + discriminate.
  - intros [|i] I; cbn in I; [|lia]. split; vm_compute; congruence.
Qed.
Print Assumptions C205_refuted.
(** It does without small coefficients and without switches. *)
Theorem C205_partial : forall tiny vtiny cl cu rows x cs y, vtiny <= tiny ->
  (forall r, In r rows -> row_wf cl cu r x /\ convex cl cu (r_lo r) (r_up r) r x /\ r_id r = None /\ no_small tiny (r_j r x) /\ satisfied r y /\
                          (r_linear r = true -> forall z, r_g r z == lhs (r_j r x) z)) ->
  in_box cl cu y -> extract tiny vtiny cl cu rows x = Ok cs ->
  (length rows <= length cs)%nat /\ forall c, In c cs -> holds c y.
Proof.
  intros tiny vtiny cl cu rows x cs y TV W B E. unfold extract in E. apply bind_ok in E. destruct E as [a [A E]]. apply bind_ok in E. destruct E as [b [G E]]. injection E as <-. split.
  - rewrite app_length. assert (K : length a = length rows); [|lia]. clear -A. revert a A. induction rows as [|r rows IH]; intros a A; cbn in A. injection A as <-. reflexivity.
    apply bind_ok in A. destruct A as [c [_ A]]. apply bind_ok in A. destruct A as [l [K A]]. injection A as <-. cbn. f_equal. auto.
  - intros c I. apply in_app_or in I. destruct I as [I | I].
    + destruct (lp_rows_in _ _ _ _ _ _ _ _ A I) as [r [J K]]. destruct (W r J) as [W1 [W2 [W3 [W4 [W5 W6]]]]]. eapply lp_row_valid; eauto.
    + destruct (get_oas_valid tiny vtiny cl cu rows x y b c) as [r [J [N K]]]; auto.
      * intros r J N. destruct (W r J) as [W1 [W2 [W3 [W4 [W5 W6]]]]]. unfold on_off. rewrite W3. split; [exact W2|]. split; [exact W5|]. split; [discriminate|]. intros X; elim X; reflexivity.
      * apply (within0 (neglected vtiny (r_j r x) x y)); [|exact K]. apply neg_none. intros j v L. destruct (W r J) as [W1 [W2 [W3 [W4 _]]]]. pose proof (W4 j v L). lra.
Qed.
Print Assumptions C205_partial.
Example C205_case : exists l u v, extract tinyd vtinyd [Fin 0] [Fin 9] [parabola MInf (Fin 4) None] [3] = Ok [mkCut [(0%nat, 6)] MInf u; mkCut [(0%nat, v)] l (Fin 13)] /\ u <> PInf.
Proof. eexists. eexists. eexists. split; [vm_compute; reflexivity | discriminate]. Qed.

(** ** C206: a copy of a transformer works like the original.  It does not. *)
Theorem C206_refuted : ~ C206_full.
Proof. intros H. specialize (H (set_model 1 1 (set_tols 1 1 1 1 new_tr))). vm_compute in H. discriminate. Qed.
Print Assumptions C206_refuted.
(** A copy of one with rows cannot be used until the problem and the tolerances are set again; then it works like an original set up in the same way. *)
Theorem C206_partial : forall t a b c d m nnz,
  (forall k, t_model t = Some (S k, nnz) -> uses (clone t) = OutOfBounds) /\
  uses (set_model m nnz (set_tols a b c d (clone t))) = uses (set_model m nnz (set_tols a b c d t)) /\
  uses (set_model m nnz (set_tols a b c d (clone t))) = Ok (a, b, match m with O => 0 | _ => d end) /\
  (forall k, uses (set_model (S k) nnz (clone t)) = Uninit).
Proof.
  intros t a b c d m nnz. split; [|split; [|split]].
  - intros k E. unfold uses, clone. cbn [t_model t_jac t_types]. rewrite E. destruct nnz; reflexivity.
  - reflexivity.
  - unfold uses, set_model, set_tols, clone; cbn [t_model t_jac t_types t_tiny t_vtiny t_infty]. rewrite !Nat.ltb_irrefl. destruct m; reflexivity.
  - intros k. unfold uses, set_model, clone; cbn [t_model t_jac t_types t_tiny t_vtiny t_infty]. rewrite !Nat.ltb_irrefl. reflexivity.
Qed.
Print Assumptions C206_partial.

(** ** C207: with a second point only tangents violated by it are added.  Others are too. *)
Theorem C207_refuted : ~ C207_full.
Proof.
  intros H. specialize (H [Fin 0] [Fin 9] (parabola MInf (Fin 1) None) 0 [1] [0] 1).
  assert (E : exists c, getMyOuterApproximation [Fin 0] [Fin 9] (parabola MInf (Fin 1) None) 0 [1] None 0 = Ok [c] /\
      getMyOuterApproximation [Fin 0] [Fin 9] (parabola MInf (Fin 1) None) 0 [1] (Some [0]) 1 = Ok [c] /\ ~ violation c [0] 1).
  { eexists. split; [vm_compute; reflexivity|]. split; [vm_compute; reflexivity|]. intros [[u [Q1 Q2]] | [l [Q1 Q2]]]; [injection Q1 as <-; vm_compute in Q2; congruence | discriminate]. }
  destruct E as [c [E1 [E2 N]]]. apply N. apply (H c [c]); auto; [vm_compute; reflexivity | discriminate].
Qed.
Print Assumptions C207_refuted.
Lemma pv_dot_lhs p y a : pv_dot p y = Ok a -> a == lhs p y.
Proof.
  revert a. induction p as [|[j v] p IH]; intros a H; cbn in H. injection H as <-. reflexivity.
  apply bind_ok in H. destruct H as [b [E H]]. apply bind_ok in H. destruct H as [c [K H]]. injection H as <-. apply (rd_ok _ _ 0) in E. destruct E as [_ ->]. rewrite lhs_cons. rewrite (IH _ K). reflexivity.
Qed.
Lemma qmax_lt a b t : qmax a b < t <-> a < t /\ b < t.
Proof. unfold qmax. destruct (Qltb a b) eqn:E; [apply Qltb_lt in E | apply Qltb_ge in E]; split; intros; try split; lra. Qed.
(** Exactly: the tangent is left out if the point is within theta of every side it has; so violated ones are added. *)
Theorem C207_partial : forall cl cu r dual x y theta c cs, r_id r = None -> 0 < theta ->
  getMyOuterApproximation cl cu r dual x None 0 = Ok [c] -> getMyOuterApproximation cl cu r dual x (Some y) theta = Ok cs ->
  (cs = [c] \/ cs = []) /\
  (cs = [] <-> (forall u, c_up c = Fin u -> Qabs (lhs (c_row c) y - u) < theta) /\ (forall l, c_lo c = Fin l -> Qabs (l - lhs (c_row c) y) < theta)) /\
  (violation c y theta -> cs = [c]).
Proof.
  intros cl cu r dual x y theta c cs ID TH A B. unfold getMyOuterApproximation in A, B. destruct (sides r dual) as [lb ub].
  apply bind_ok in A. destruct A as [o [E A]]. rewrite E in B. cbn [bind] in B. destruct o as [c0|]; [|discriminate]. cbn [bind] in A. rewrite link_none in A by assumption. cbn [bind] in A. injection A as ->.
  apply bind_ok in B. destruct B as [add [D B]]. apply bind_ok in D. destruct D as [a [D K]]. injection K as <-. apply pv_dot_lhs in D. rewrite link_none in B by assumption. cbn [bind] in B.
  assert (X : (distance c a < theta) <-> (forall u, c_up c = Fin u -> Qabs (lhs (c_row c) y - u) < theta) /\ (forall l, c_lo c = Fin l -> Qabs (l - lhs (c_row c) y) < theta)).
  { assert (DU : (match c_up c with Fin u => qmax 0 (Qabs (a - u)) | _ => 0 end) < theta <-> forall u, c_up c = Fin u -> Qabs (lhs (c_row c) y - u) < theta).
    { destruct (c_up c) as [|u|]; [split; intros; [discriminate | exact TH] | | split; intros; [discriminate | exact TH]]. rewrite qmax_lt. rewrite D.
      split. intros [_ K] u0 Q'. injection Q' as <-. exact K. intros K. split; [exact TH | apply K; reflexivity]. }
    unfold distance. cbn zeta. destruct (c_lo c) as [|l|].
    - rewrite DU. split; [intros K; split; [exact K | discriminate] | tauto].
    - rewrite qmax_lt, DU, D. split; intros [K1 K2]; (split; [exact K1|]). intros l0 Q'; injection Q' as <-; exact K2. apply K2; reflexivity.
    - rewrite DU. split; [intros K; split; [exact K | discriminate] | tauto]. }
  assert (Y : (cs = [c] \/ cs = []) /\ (cs = [] <-> distance c a < theta)).
  { destruct (Qltb (distance c a) theta) eqn:Q1; cbn [negb] in B; injection B as <-; [apply Qltb_lt in Q1 | apply Qltb_ge in Q1].
    - split; [auto | tauto].
    - split; [auto|]. split; [discriminate | lra]. }
  destruct Y as [Y1 Y2]. split; [exact Y1|]. split; [rewrite Y2; exact X|]. intros V. destruct Y1 as [-> | ->]; [reflexivity|]. exfalso.
  destruct Y2 as [Y2 _]. specialize (Y2 eq_refl). apply X in Y2. destruct Y2 as [K1 K2].
  destruct V as [[u [Q1 Q2]] | [l [Q1 Q2]]]; [specialize (K1 u Q1); pose proof (Qle_Qabs (lhs (c_row c) y - u)) | specialize (K2 l Q1); pose proof (Qle_Qabs (l - lhs (c_row c) y))]; lra.
Qed.
Print Assumptions C207_partial.
Example C207_case : getMyOuterApproximation [Fin 0] [Fin 9] (parabola MInf (Fin 1) None) 0 [1] (Some [3]) 1 = Ok [mkCut [(0%nat, 2)] MInf (Fin 2)] /\ getMyOuterApproximation [Fin 0] [Fin 9] (parabola MInf (Fin 1) None) 0 [1] (Some [1]) 1 = Ok [].
Proof. split; vm_compute; reflexivity. Qed.

(** ** C208: the tangent at a point that violates the row is violated by the point.  Not if the row has two sides and the multiplier is 0. *)
Theorem C208_refuted : ~ C208_full.
Proof.
  intros H. destruct (H [Fin 0] [Fin 9] (parabola (Fin 0) (Fin 1) None) 0 [2] [mkCut [(0%nat, 4)] MInf PInf]) as [c [I N]].
  - eapply one_wf; try reflexivity; cbn; lia.
  - reflexivity.
  - intros [_ K]. vm_compute in K. congruence.
  - vm_compute. reflexivity.
  - destruct I as [<- | []]. apply N. split; exact Logic.I.
Qed.
Print Assumptions C208_refuted.
(** Without small coefficients: exactly if it violates the sides that the multiplier leaves; for a row with one side, whatever the multiplier. *)
Theorem C208_partial : forall cl cu r dual x c, r_id r = None -> no_small od_tiny (r_j r x) -> getMyOuterApproximation cl cu r dual x None 0 = Ok [c] ->
  (holds c x <-> (r_lo r <> MInf -> r_up r <> PInf -> dual < 0 -> lo_ok (r_lo r) (r_g r x)) /\ (r_lo r <> MInf -> r_up r <> PInf -> 0 < dual -> up_ok (r_up r) (r_g r x)) /\
                 (r_lo r = MInf \/ r_up r = PInf -> satisfied r x)) \/ r_lo r = PInf \/ r_up r = MInf.
Proof.
  intros cl cu r dual x c ID NS A. unfold getMyOuterApproximation in A. destruct (sides r dual) as [lb ub] eqn:SD.
  apply bind_ok in A. destruct A as [o [E A]]. destruct o as [c0|]; [|discriminate]. cbn [bind] in A. rewrite link_none in A by assumption. cbn [bind] in A. injection A as ->.
  apply entries_plain in E; [|intros j v I; apply plain_od; exact (NS j v I)]. destruct E as [_ E]. destruct (E x) as [E1 E2]. cbn [c_up c_lo c_row] in E1, E2. rewrite up_ok_eadd in E1. rewrite lo_ok_eadd in E2.
  assert (Z : lhs [] x + linsum (r_j r x) x x - - r_g r x == r_g r x).
  { assert (LZ : linsum (r_j r x) x x == 0). { clear. induction (r_j r x) as [|[j v] es IH]. reflexivity. rewrite linsum_cons, IH. ring. }
    rewrite LZ. unfold lhs; cbn [map qsum fold_right]. ring. }
  assert (F1 : up_ok (c_up c) (lhs (c_row c) x) <-> up_ok ub (r_g r x)) by (rewrite E1; split; apply up_ok_eq; [symmetry|]; exact Z).
  assert (F2 : lo_ok (c_lo c) (lhs (c_row c) x) <-> lo_ok lb (r_g r x)) by (rewrite E2; split; apply lo_ok_eq; [symmetry|]; exact Z).
  unfold holds. unfold satisfied. unfold sides in SD. clear E E1 E2 NS.
  destruct (r_lo r) as [|l|], (r_up r) as [|u|]; try (right; tauto); left; rewrite F1, F2.
  - injection SD as <- <-. cbn. intuition congruence.
  - injection SD as <- <-. cbn. intuition congruence.
  - destruct (Qle_bool 0 dual) eqn:D1, (Qle_bool dual 0) eqn:D2; injection SD as <- <-; cbn;
      try apply Qle_bool_iff in D1; try apply Qle_bool_iff in D2; try apply Qleb_gt in D1; try apply Qleb_gt in D2;
      (split; [intros [K1 K2]; repeat split; intros; try lra; intuition discriminate | intros [K1 [K2 K3]]; split; auto; try (apply K1; auto; discriminate); try (apply K2; auto; discriminate); lra]).
  - injection SD as <- <-. cbn. intuition congruence.
Qed.
Print Assumptions C208_partial.
Example C208_case : getMyOuterApproximation [Fin 0] [Fin 9] (parabola (Fin 0) (Fin 1) None) 1 [2] None 0 = Ok [mkCut [(0%nat, 4)] MInf (Fin 5)].
Proof. vm_compute. reflexivity. Qed.
