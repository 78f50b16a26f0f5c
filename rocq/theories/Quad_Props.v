(** Property theorems C06-C10 and C46-C48: quadratic rows and cuts. *)
From Verif Require Import Base Quad_Model Quad_Spec Quad_Proofs Quad_HProofs Quad_SProofs Quad_Facts Quad_MProofs.
#[local] Open Scope Q_scope.

(** Example data: the row 3 + 2 x0 - x1 + x0^2 + 2*(5 x0 x1) + 2*(1/2) x0 x1 + 4 x2^2
    given out of order with a repeated position, and its sorts. *)
Definition ex_E := [mkT 2 2 4; mkT 0 1 5; mkT 0 0 1; mkT 0 1 (1#2)].
Definition ex_a := [(0%nat, 2); (1%nat, -(1))].
Definition ex_x (i : nat) : Q := match i with O => 1 | 1%nat => 2 | 2%nat => -(3) | _ => 0 end.
Definition ex_sr := sort_by row_leb.
Definition ex_sc := sort_by col_leb.

(** *** C06 *)
Theorem C06_row_value : forall sr sc c a E, sorts row_le sr -> sorts col_le sc ->
  Forall (fun t => (t_i t <= t_j t)%nat) E ->
  exists r, initialize sr sc c a (mkTMat E [] [] [] []) [] = Ok r /\
  forall hist, exists r', r_run r hist = Ok r' /\
  forall x, exists v r'', row_eval_f x r' = Ok (v, r'') /\ v == poly c a E x.
Proof. exact row_value. Qed.
Print Assumptions C06_row_value.

Example C06_hypotheses_met :
  sorts row_le ex_sr /\ sorts col_le ex_sc /\ Forall (fun t => (t_i t <= t_j t)%nat) ex_E.
Proof.
  split; [exact sorts_rows|]. split; [exact sorts_cols|]. repeat constructor.
Qed.
Example C06_example :
  (do r <- initialize ex_sr ex_sc 3 ex_a (mkTMat ex_E [] [] [] []) [];
   do r1 <- r_run r [EvF (fun _ => 7); EvG (fun i => inject_Z (Z.of_nat i))];
   do ' (v, _) <- row_eval_f ex_x r1; Ok (Qred v)) = Ok 62.
Proof. vm_compute. reflexivity. Qed.

(** *** C07 *)
Theorem C07_row_gradient : forall sr sc c a E, sorts row_le sr -> sorts col_le sc ->
  Forall (fun t => (t_i t <= t_j t)%nat) E -> NoDup (map fst a) ->
  exists r, initialize sr sc c a (mkTMat E [] [] [] []) [] = Ok r /\
    NoDup (gradiant_struct 0 r) /\ length (gradiant_struct 0 r) = nnz_grad r /\
    (forall k, In k (gradiant_struct 0 r) <->
       In k (map fst a) \/ exists t, In t E /\ (t_i t = k \/ t_j t = k)) /\
  forall hist, exists r', r_run r hist = Ok r' /\
  forall x, exists vs r'', row_eval_grad x r' = Ok (vs, r'') /\ length vs = nnz_grad r /\
  forall h, poly c a E (vadd x h) - poly c a E x ==
            sparse_dot (gradiant_struct 0 r) vs h + tri_form E h.
Proof. exact row_gradient. Qed.
Print Assumptions C07_row_gradient.

Example C07_hypotheses_met : NoDup (map fst ex_a).
Proof. repeat constructor; simpl; intuition discriminate. Qed.
Example C07_example :
  (do r <- initialize ex_sr ex_sc 3 ex_a (mkTMat ex_E [] [] [] []) [];
   do ' (v, r') <- row_eval_grad ex_x r; Ok (gradiant_struct 0 r', map Qred v))
  = Ok ([0; 1; 2]%nat, [26; 10; -(24)]).
Proof. vm_compute. reflexivity. Qed.

(** Without the condition of distinct linear indices the gradient is wrong:
    the row x0 + x0 has derivative 2 but 1 is returned. *)
Theorem C07_duplicate_linear_refuted :
  exists a r vs r', initialize ex_sr ex_sc 0 a (mkTMat [] [] [] [] []) [] = Ok r /\
    row_eval_grad (fun _ => 0) r = Ok (vs, r') /\
    ~ (forall h, poly 0 a [] (vadd (fun _ => 0) h) - poly 0 a [] (fun _ => 0) ==
            sparse_dot (gradiant_struct 0 r) vs h + tri_form [] h).
Proof.
  exists [(0%nat, 1); (0%nat, 1)]. do 3 eexists. split; [vm_compute; reflexivity|].
  split; [vm_compute; reflexivity|]. intros H. specialize (H (fun _ => 1)). vm_compute in H. discriminate.
Qed.
Print Assumptions C07_duplicate_linear_refuted.

(** *** C08 *)
Theorem C08_hessian_any_history : forall sr sc, sorts row_le sr -> sorts col_le sc ->
  forall fuel order m hb jb off ops,
  NoDup hb -> legal_run m [] ops ->
  exists s0 s w s', q_new m hb jb off = Ok s0 /\ q_run sr sc fuel order s0 ops = Ok s /\
    q_hstruct s = Ok (w, s') /\
    length w = q_nnz_h s' /\ NoDup (map fst w) /\ NoDup (map snd w) /\
    Forall (fun p => (fst p < q_nnz_h s')%nat) w /\
    forall base lams, length base = length hb -> length lams = length (a_run m [] ops) ->
      exists vals, q_hvals base lams s' = Ok vals /\ length vals = q_nnz_h s' /\
      forall rc, entry_of w vals rc == base_entry hb base rc + lag_d2 off lams (a_run m [] ops) rc.
Proof. exact hessian_history. Qed.
Print Assumptions C08_hessian_any_history.

Definition ex_hb : list hkey := [(0, 0); (1, 0)]%nat.
Definition ex_cutA := mkCut 0 10 7 ex_a ex_E Upper.
Definition ex_cutB := mkCut (-(1)) 1 0 [] [mkT 3 1 2; mkT 1 0 1] Lower.
Definition ex_cutC := mkCut 0 5 0 [] [mkT 2 3 1] Upper.
Definition ex_lin := mkLCut 0 1 [(2%nat, 1)].
Definition ex_ops := [OAddQuad ex_cutA; OAddLin ex_lin; OAddQuad ex_cutB; ORemove [4]%nat;
                      OAddQuad ex_cutC; OCopy; OStruct; OAddQuad ex_cutA; ORemove [7; 4]%nat].
Example C08_hypotheses_met : NoDup ex_hb /\ legal_run 4 [] ex_ops.
Proof.
  split; [repeat constructor; simpl; intuition discriminate|].
  repeat split; simpl; repeat (constructor; simpl; try lia); intuition lia.
Qed.
Example C08_example :
  (do s0 <- q_new 4 ex_hb 3 0; do s <- q_run ex_sr ex_sc 0 (fun _ => []) s0 ex_ops;
   do ' (w, s') <- q_hstruct s; do v <- q_hvals [100; 200] [1; 10] s'; Ok (w, map Qred v))
  = Ok ([(0, (0, 0)); (1, (1, 0)); (2, (3, 1)); (3, (3, 2))]%nat, [100; 202; 4; 20]).
Proof. vm_compute. reflexivity. Qed.

(** The positions are only right after the structure call: asking for values
    straight after a removal followed by an addition mixes two entries. *)
Theorem C08_values_before_structure_refuted :
  exists ops s0 s vals, legal_run 0 [] ops /\ q_new 0 [] 0 0 = Ok s0 /\
    q_run ex_sr ex_sc 0 (fun _ => []) s0 ops = Ok s /\ q_hvals [] [1; 1] s = Ok vals /\
    ~ (forall rc, entry_of (map (fun p => (idx_of p, fst p)) (s_H s)) vals rc ==
         lag_d2 0 [1; 1] (a_run 0 [] ops) rc).
Proof.
  exists [OAddQuad (mkCut 0 0 0 [] [mkT 0 0 1] Upper); OAddQuad (mkCut 0 0 0 [] [mkT 1 1 3] Upper);
          ORemove [0]%nat; OAddQuad (mkCut 0 0 0 [] [mkT 2 2 5] Upper)].
  do 3 eexists. split; [|split; [vm_compute; reflexivity|split; [vm_compute; reflexivity|
    split; [vm_compute; reflexivity|]]]].
  - repeat split; simpl; repeat (constructor; simpl; try lia); intuition lia.
  - intros H. specialize (H (1, 1)%nat). vm_compute in H. discriminate.
Qed.
Print Assumptions C08_values_before_structure_refuted.

(** *** C09 *)
(** Assignment keeps value (and [cut_rhs], the value used when cuts are
    checked for violation) unless an empty quadratic part is assigned over a
    row that had one. *)
Theorem C09_assignment_partial : forall sr sc fuel order k r0 x,
  sorts row_le sr -> sorts col_le sc -> well_stored k ->
  (k_e k <> [] \/ (tm_nr (r_q r0) = [] /\ tm_nc (r_q r0) = [])) ->
  exists r v r', row_assign_cut sr sc fuel order r0 k = Ok r /\ row_eval_f x r = Ok (v, r') /\
    v == cut_value k x /\ v == cut_rhs k x.
Proof. exact cut_of_assign. Qed.
Print Assumptions C09_assignment_partial.
(** The constructor drops the constant, and nothing else. *)
Theorem C09_constructor_partial : forall sr sc fuel order k x,
  sorts row_le sr -> sorts col_le sc -> well_stored k ->
  exists r v r', row_of_cut sr sc fuel order k = Ok r /\ row_eval_f x r = Ok (v, r') /\
    v == cut_value k x - k_c k.
Proof. exact cut_of_ctor. Qed.
Print Assumptions C09_constructor_partial.
Theorem C09_refuted : forall sr sc order,
  sorts row_le sr -> sorts col_le sc -> ~ C09_full sr sc order.
Proof. exact ctor_drops_constant. Qed.
Print Assumptions C09_refuted.
(** Assigning a cut without quadratic terms over a row with some: the next
    evaluation reads outside the ordering vectors. *)
Theorem C09_assign_stale_refuted :
  exists r0 k r, row_of_cut ex_sr ex_sc 0 (fun _ => []) ex_cutA = Ok r0 /\ well_stored k /\
    row_assign_cut ex_sr ex_sc 0 (fun _ => []) r0 k = Ok r /\
    forall x, row_eval_f x r = OutOfBounds.
Proof.
  do 1 eexists. exists (mkCut 0 0 0 [] [] Upper). eexists. split; [vm_compute; reflexivity|].
  split; [unfold well_stored; simpl; constructor|]. split; [vm_compute; reflexivity|].
  intros x. reflexivity.
Qed.
Print Assumptions C09_assign_stale_refuted.
Example C09_example :
  well_stored ex_cutB /\
  (do r0 <- row_of_cut ex_sr ex_sc 0 (fun _ => []) ex_cutA;
   do r <- row_assign_cut ex_sr ex_sc 0 (fun _ => []) r0 ex_cutB;
   do ' (v, _) <- row_eval_f (fun i => inject_Z (Z.of_nat (S i))) r; Ok (Qred v)) = Ok 36.
Proof. split; [unfold well_stored; simpl; repeat constructor|]. vm_compute. reflexivity. Qed.

(** *** C10 *)
Theorem C10_triangles_partial : forall fuel order ty E E', ty <> Full ->
  make_upper fuel order ty E = Ok E' ->
  (forall x, tri_form E' x == tri_form E x) /\ Forall (fun t => (t_i t <= t_j t)%nat) E'.
Proof. exact normal_tri. Qed.
Print Assumptions C10_triangles_partial.
Theorem C10_triangles_terminate_partial : forall fuel order ty E, ty <> Full ->
  (ty = Upper -> Forall (fun t => (t_i t <= t_j t)%nat) E) ->
  (ty = Lower -> Forall (fun t => (t_j t <= t_i t)%nat) E) ->
  exists E', make_upper fuel order ty E = Ok E'.
Proof. exact normal_tri_total. Qed.
Print Assumptions C10_triangles_terminate_partial.
(** A full matrix with any entry makes the normalisation loop for ever. *)
Theorem C10_full_never_terminates : forall fuel order E, E <> [] ->
  make_upper fuel order Full E = Diverges.
Proof. exact full_diverges. Qed.
Print Assumptions C10_full_never_terminates.
Theorem C10_refuted : forall order, ~ C10_full order.
Proof. exact normal_refuted. Qed.
Print Assumptions C10_refuted.
(** Merging duplicates always loses at least one entry, even when there is no duplicate. *)
Theorem C10_merge_always_shrinks : forall ro E E', E <> [] ->
  remove_duplicates ro E = Ok E' -> (length E' < length E)%nat.
Proof. exact remove_duplicates_shrinks. Qed.
Print Assumptions C10_merge_always_shrinks.
(** What merging does do: the entries standing at the first [j+1] places of the ordering
    are the sums over equal positions, and the first [j] places of the arrays are kept.  On
    entries already sorted, exactly the last group is lost. *)
Theorem C10_merge_partial : forall ro E, E <> [] -> Permutation ro (seq 0 (length E)) ->
  (forall i j ti tj, (i < j)%nat -> nth_error E (nth i ro 0%nat) = Some ti ->
     nth_error E (nth j ro 0%nat) = Some tj -> (j < length E)%nat -> row_le ti tj) ->
  exists j E1, (j < length E)%nat /\ length E1 = length E /\
    remove_duplicates ro E = Ok (firstn j E1) /\
    let merged := map (fun p => nth p E1 (mkT 0 0 0)) (firstn (S j) ro) in
    (forall x, full_form merged x == full_form E x) /\
    NoDup (map (fun t => (t_i t, t_j t)) merged).
Proof. exact merge_exact. Qed.
Print Assumptions C10_merge_partial.
Theorem C10_merge_sorted_partial : forall E, E <> [] -> sorted row_le E ->
  exists E' t, remove_duplicates (seq 0 (length E)) E = Ok E' /\
    (forall x, full_form (E' ++ [t]) x == full_form E x) /\
    NoDup (map (fun t => (t_i t, t_j t)) (E' ++ [t])).
Proof. exact merge_sorted. Qed.
Print Assumptions C10_merge_sorted_partial.
Example C10_merge_hypotheses_met : sorted row_le [mkT 0 0 1; mkT 0 0 2; mkT 1 1 5].
Proof. repeat constructor; unfold row_le; simpl; lia. Qed.
Theorem C10_merge_refuted :
  ~ (forall ro E, Permutation ro (seq 0 (length E)) ->
     (forall i j ti tj, (i < j)%nat -> nth_error E (nth i ro 0%nat) = Some ti ->
        nth_error E (nth j ro 0%nat) = Some tj -> (j < length E)%nat -> row_le ti tj) ->
     exists E', remove_duplicates ro E = Ok E' /\ forall x, full_form E' x == full_form E x).
Proof. exact merge_refuted. Qed.
Print Assumptions C10_merge_refuted.
Example C10_example :
  make_upper 5 (fun _ => []) Lower [mkT 3 1 2; mkT 1 1 7] = Ok [mkT 1 3 2; mkT 1 1 7].
Proof. vm_compute. reflexivity. Qed.
Example C10_merge_example :
  remove_duplicates [0; 1; 2]%nat [mkT 0 0 1; mkT 0 0 2; mkT 1 1 5] = Ok [mkT 0 0 (1 + 2)].
Proof. vm_compute. reflexivity. Qed.

(** *** C46 *)
Theorem C46_rows_any_history : forall sr sc, sorts row_le sr -> sorts col_le sc ->
  forall fuel order m hb jb off ops x,
  NoDup hb -> legal_run m [] ops ->
  exists s0 s, q_new m hb jb off = Ok s0 /\ q_run sr sc fuel order s0 ops = Ok s /\
    s_gl s = map a_lb (a_run m [] ops) /\ s_gu s = map a_ub (a_run m [] ops) /\
    (exists vs, eval_rows x (s_rows s) = Ok vs /\
       Forall2 (fun v c => v == a_value c x) vs (a_run m [] ops)) /\
    (jb + length (q_jstruct s))%nat = s_nnzjac s /\
    (exists vs, jac_vals x (s_rows s) = Ok vs /\ length vs = length (q_jstruct s)).
Proof. exact rows_history. Qed.
Print Assumptions C46_rows_any_history.
Theorem C46_jacobian_any_history : forall sr sc fuel order m hb jb off ops x,
  sorts row_le sr -> sorts col_le sc ->
  NoDup hb -> legal_run m [] ops ->
  Forall (fun c => NoDup (map fst (a_lin c))) (a_run m [] ops) ->
  exists s0 s vs, q_new m hb jb off = Ok s0 /\ q_run sr sc fuel order s0 ops = Ok s /\
    jac_vals x (s_rows s) = Ok vs /\ length vs = length (q_jstruct s) /\
    (jb + length (q_jstruct s))%nat = s_nnzjac s /\
    forall q c, nth_error (a_run m [] ops) q = Some c -> forall h,
      a_value c (vadd x h) - a_value c x ==
      block_dot (q_jstruct s) vs off (m + q) h + tri_form (a_entries c) h.
Proof. exact jac_history. Qed.
Print Assumptions C46_jacobian_any_history.
Example C46_example :
  Forall (fun c => NoDup (map fst (a_lin c))) (a_run 4 [] ex_ops) /\
  (do s0 <- q_new 4 ex_hb 3 1; do s <- q_run ex_sr ex_sc 0 (fun _ => []) s0 ex_ops;
   do v <- jac_vals ex_x (s_rows s); do g <- eval_rows ex_x (s_rows s);
   Ok (s_gl s, s_gu s, map Qred g, q_jstruct s, map Qred v))
  = Ok ([-(1); 0], [1; 5], [4; 0], [(5, 1); (5, 2); (5, 4); (6, 3); (6, 4)]%nat, [4; 2; 8; 0; -(6)]).
Proof. split; [repeat (constructor; simpl; try tauto)|]. vm_compute. reflexivity. Qed.

(** *** C47 *)
(** The value is the one evaluating all rows gives. *)
Theorem C47_single_row_value_partial : forall x s vs q v,
  eval_rows x (s_rows s) = Ok vs -> nth_error vs q = Some v ->
  exists b, q_eval_gi x (s_m s + q) s = Ok (v, b).
Proof. exact single_value. Qed.
Print Assumptions C47_single_row_value_partial.
(** Evaluating one added row reports failure although the value is right. *)
Theorem C47_refuted : forall x i s v b, (s_m s <= i)%nat -> q_eval_gi x i s = Ok (v, b) -> b = false.
Proof.
  intros x i s v b L H. unfold q_eval_gi in H. destruct (Nat.ltb_spec i (s_m s)); [lia|].
  destruct (nth_error (s_rows s) (i - s_m s)); [|discriminate].
  apply bind_ok in H. destruct H as ([v0 r0] & _ & H). injection H as _ <-. reflexivity.
Qed.
Print Assumptions C47_refuted.
Example C47_example :
  (do s0 <- q_new 4 ex_hb 3 1; do s <- q_run ex_sr ex_sc 0 (fun _ => []) s0 ex_ops;
   do ' (v, b) <- q_eval_gi ex_x 4 s; Ok (Qred v, b)) = Ok (4, false).
Proof. vm_compute. reflexivity. Qed.

(** *** C48 *)
(** Asking for scaling parameters never returns. *)
Theorem C48_refuted : forall fuel ncons nrows m,
  ~ exists u, q_scaling fuel ncons nrows m = Ok u.
Proof. exact scaling_never. Qed.
Print Assumptions C48_refuted.
Example C48_example : q_scaling 50 3 0 3 = Diverges /\ q_scaling 50 3 2 3 = AssertFail.
Proof. split; vm_compute; reflexivity. Qed.
