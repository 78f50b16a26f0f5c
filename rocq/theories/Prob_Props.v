(** Property theorems C15 and C51 - C56: the problem object handed to the NLP solver. *)
From Verif Require Import Base Arr Nlp LinObj_Props Prob_Model Prob_Spec Prob_Proofs.
#[local] Open Scope Q_scope.

(** The example problem [exP] of LinObj_Props has 2 variables, 1 row, starting point (1, 2). *)
Definition exH : list op :=
  [OUp 1 (Fin 3); OD [1; 2; 3; 4; 5] 0; OX [6; 7] 4; OReset; OX [8; 9] 0; OLow 0 (Fin 2)].
Example exH_valid : valid_hist exP exH.
Proof. cbn. repeat split; lia. Qed.

(** *** C15 *)
(** The full statement is false: after multipliers have been set, resetting the
    starting point and asking for a primal-dual start fails an assertion. *)
Theorem C15_refuted : ~ C15_full.
Proof.
  intros H.
  destruct (H exP [OReset; OD [1; 2; 3; 4; 5] 0; OX [6; 7] 0] C11_hypotheses_met) as (s & E & Q);
    [cbn; repeat split; lia|].
  vm_compute in E. injection E as <-. specialize (Q true true true). vm_compute in Q. discriminate Q.
Qed.
Print Assumptions C15_refuted.
(** Multipliers given without a primal point replace the user's starting point by 0. *)
Theorem C15_zero_start_refuted : ~ C15_full.
Proof.
  intros H.
  destruct (H exP [OD [1; 2; 3; 4; 5] 0] C11_hypotheses_met) as (s & E & Q); [cbn; repeat split; lia|].
  vm_compute in E. injection E as <-. specialize (Q true false false). vm_compute in Q. discriminate Q.
Qed.
Print Assumptions C15_zero_start_refuted.
(** So does adding cuts before any starting point is set. *)
Theorem C15_added_rows_refuted : ~ C15_full.
Proof.
  intros H.
  destruct (H exP [OAdd [Fin 0] [Fin 1] 0] C11_hypotheses_met) as (s & E & Q); [cbn; repeat split; lia|].
  vm_compute in E. injection E as <-. specialize (Q true false false). vm_compute in Q. discriminate Q.
Qed.
Print Assumptions C15_added_rows_refuted.
(** What happens in every history: the handed data are exactly those described by
    [real_answer]; released storage is never read (the assertion fails first). *)
Theorem C15_exact_partial : forall P h, nlp_ok P -> (0 < p_n P)%nat -> valid_hist P h ->
  exists s, run P h = Ok s /\
  forall ix iz il, get_starting_point (p_n P) (m_now P h) ix iz il s = real_answer P h ix iz il.
Proof. exact C15_exact_lem. Qed.
Print Assumptions C15_exact_partial.
(** Both parts set since the last reset, rows never changed: the last ones set are handed out. *)
Theorem C15_both_set_partial : forall P h x d,
  nlp_ok P -> (0 < p_n P)%nat -> valid_hist P h -> no_rows h ->
  last_x h = Some x -> last_d h = Some d ->
  exists s, run P h = Ok s /\
  forall ix iz il, get_starting_point (p_n P) (m_now P h) ix iz il s =
                   Ok (answer (p_n P) x (Some d) ix iz il).
Proof. exact C15_both_lem. Qed.
Print Assumptions C15_both_set_partial.
(** Only primal points ever set: the last one since the last reset, or the user's. *)
Theorem C15_primal_partial : forall P h,
  nlp_ok P -> (0 < p_n P)%nat -> valid_hist P h -> ever_d h = false ->
  exists s, run P h = Ok s /\
  forall ix iz il, get_starting_point (p_n P) (m_now P h) ix iz il s =
    Ok (answer (p_n P) (match last_x h with Some x => x | None => p_x0 P end) None ix iz il).
Proof. exact C15_primal_lem. Qed.
Print Assumptions C15_primal_partial.
Example C15_example : last_x exH = Some [6; 7] /\ last_d exH = Some [1; 2; 3; 4; 5] /\ no_rows exH /\
  (do s <- run exP exH; get_starting_point 2 1 true true true s) =
      Ok (mkStart true (Some [6; 7]) (Some [1; 2]) (Some [3; 4]) (Some [5])).
Proof. split; [reflexivity|]. split; [reflexivity|]. split; [exact Logic.I|]. vm_compute. reflexivity. Qed.
Example C15_example_primal : ever_d [OX [3; 4] 0; OReset; OX [6; 7] 1] = false /\
  real_answer exP [OReset; OD [1; 2; 3; 4; 5] 0] true false true = AssertFail /\
  real_answer exP [OAdd [Fin 0] [Fin 1] 0; OD [1; 2; 3; 4; 5] 0; OX [6; 7] 0] true true true =
    Ok (mkStart true (Some [6; 7]) (Some [1; 2]) (Some [3; 4]) (Some [5; 0])).
Proof. repeat split; reflexivity. Qed.

(** has_x_init: 0 without a point since the last reset; 2 as soon as multipliers ever existed,
    a reset does not count; 1 otherwise. *)
Theorem C15_has_start_partial : forall P h, nlp_ok P -> (0 < p_n P)%nat -> valid_hist P h ->
  exists s, run P h = Ok s /\
  has_x_init s = match eff_x (p_n P) h with None => 0%nat | Some _ => if ever_d h then 2%nat else 1%nat end.
Proof.
  intros P h K N V. destruct (run_inv P h K V) as (s & E & I). exists s. split; [exact E|].
  pose proof (v_ws _ _ _ I) as W. pose proof (v_di _ _ _ I) as D. unfold has_x_init.
  assert (X : match eff_x (p_n P) h with None => v_el (b_xi s) = [] | Some _ => v_el (b_xi s) <> [] end).
  { destruct (eff_d P h) as [d|].
    - destruct W as (x & -> & L & -> & _). intros Z. apply app_eq_nil in Z. destruct Z as [-> _]. cbn in L. lia.
    - destruct (eff_x (p_n P) h) as [x|]; [|exact W]. destruct W as [L ->]. intros ->. cbn in L. lia. }
  destruct (eff_x (p_n P) h); [|rewrite X; reflexivity].
  destruct (v_el (b_xi s)); [congruence|]. destruct (b_di s); rewrite D; reflexivity.
Qed.
Print Assumptions C15_has_start_partial.
Example C15_has_example :
  (do s <- run exP [OX [3; 4] 0; OReset; OD [1; 2; 3; 4; 5] 0]; Ok (has_x_init s)) = Ok 2%nat /\
  (do s <- run exP [OX [3; 4] 0; OReset]; Ok (has_x_init s)) = Ok 1%nat.
Proof. split; vm_compute; reflexivity. Qed.

(** *** C51: bounds *)
Theorem C51_bounds_follow_history : forall P h, nlp_ok P -> valid_hist P h ->
  exists s, run P h = Ok s /\
    get_bounds_info (p_n P) (m_now P h) s =
      Ok (map (lower_at P h) (seq 0 (p_n P)), map (upper_at P h) (seq 0 (p_n P)),
          fst (rows_now P h), snd (rows_now P h)) /\
    b_ol s = p_xl P /\ b_ou s = p_xu P.
Proof. exact C51_lem. Qed.
Print Assumptions C51_bounds_follow_history.
Example C51_example :
  map (lower_at exP exH) (seq 0 2) = [Fin 2; MInf] /\ map (upper_at exP exH) (seq 0 2) = [PInf; Fin 3] /\
  lower_at exP [OLow 1 (Fin 4); OBounds [Fin 7; Fin 8] [PInf; PInf]; OBound 0 MInf PInf] 0 = Fin 7.
Proof. repeat split; reflexivity. Qed.

(** *** C52: solutions *)
(** False when all rows are removed between two solves: old row activities stay. *)
Theorem C52_refuted : ~ C52_full.
Proof.
  intros H.
  destruct (H exP [OFinal [1; 1] [] [0; 0] [0; 0] [] 3 None; ODel [] [];
                   OFinal [1; 1] [1] [0; 0] [0; 0] [0] 3 None] C11_hypotheses_met) as (s & E & Q & _);
    [cbn; repeat split; lia|].
  vm_compute in E. injection E as <-. vm_compute in Q. discriminate Q.
Qed.
Print Assumptions C52_refuted.
Theorem C52_solution_of_last_solve_partial : forall P h, nlp_ok P -> valid_hist P h -> rows_stay h ->
  exists s, run P h = Ok s /\ (b_xs s, b_gs s, b_obj s) = last_final h /\ b_ds s = last_duals P h.
Proof. exact C52_lem. Qed.
Print Assumptions C52_solution_of_last_solve_partial.
Example C52_example :
  let h := [OAdd [Fin 0] [Fin 1] 0; OFinal [1; 2] [2] [1; 0] [0; 1] [7] 3 (Some 4); OX [3; 3] 0;
            OFinal [5; 5] [25] [0; 0] [0; 0] [0] 30 None] in
  valid_hist exP h /\ rows_stay h /\ last_final h = ([1; 2], [2], Some 4) /\
  last_duals exP h = [1; 0; 0; 1; 7; 0].
Proof. split; [cbn; repeat split; lia|]. repeat split. Qed.

(** *** C53: rounding and checking *)
Theorem C53_check_solution : forall s objs s' e, length (b_ty s) = num_variables s ->
  check_solution objs s = Ok (s', Fin e) ->
  rounded (fun i => match objs with Some cols => In i cols | None => nth_error (b_ty s) i = Some true end)
          (b_xs s) (b_xs s') /\
  b_gs s' = p_g (b_P s) (b_xs s') /\ b_obj s' = Some (p_f (b_P s) (b_xs s')) /\
  0 <= e /\ viol_le e (b_gl s) (b_gu s) (b_gs s') /\ viol_hit e (b_gl s) (b_gu s) (b_gs s').
Proof. exact C53_lem. Qed.
Print Assumptions C53_check_solution.
Theorem C53_check_solution_total : forall s objs,
  length (b_xs s) = num_variables s -> length (b_gs s) = num_constraints s ->
  (forall cols, objs = Some cols -> Forall (fun c => (c < num_variables s)%nat) cols) ->
  ~ In PInf (b_gl s) -> ~ In MInf (b_gu s) ->
  exists s' e, check_solution objs s = Ok (s', Fin e).
Proof. exact C53_total_lem. Qed.
Print Assumptions C53_check_solution_total.
Example C53_example :
  (do s <- run exP [OFinal [17 # 10; 3] [51 # 10] [0; 0] [0; 0] [0] 0 None];
   do ' (s', e) <- check_solution None s; Ok (b_xs s', e)) = Ok ([2; 3], Fin (- 4 + 2 * 3)).
Proof. vm_compute. reflexivity. Qed.

(** *** C54: forcing a fractional point *)
Definition exS : prob :=
  with_sol (with_x (mk_prob exP) [Fin 1; MInf] [Fin 1; Fin 9]) [1; 2] [2] [0; 0; 0; 0; 0] (Some 3).
(** The test for "not fixed" is always true, so fixed variables are moved too. *)
Theorem C54_refuted : ~ C54_full.
Proof.
  intros H.
  destruct (H exS (force_list (b_ty exS) (b_xl exS) (b_xu exS) (b_xs exS)) 0%nat true (Fin 1) (Fin 1) 1
              (Fin (inject_Z (Qceiling 1) + half))) as [_ A]; try reflexivity.
  assert (F : Fin (inject_Z (Qceiling 1) + half) = Fin 1).
  { apply A. right. cbn. intros L. vm_compute in L. discriminate. }
  vm_compute in F. discriminate.
Qed.
Print Assumptions C54_refuted.
(** Integer variables with a finite lower bound end at a fractional value above it,
    below the upper bound when there is room; continuous variables are untouched. *)
Theorem C54_force_fractional_partial : forall s r i t l u x e,
  force_fractionnal_sol s = Ok r ->
  nth_error (b_ty s) i = Some t -> nth_error (b_xl s) i = Some (Fin l) -> nth_error (b_xu s) i = Some u ->
  nth_error (b_xs s) i = Some x -> nth_error r i = Some e ->
  match u with Fin b => l <= b | PInf => True | MInf => False end ->
  (t = false -> e = Fin x) /\
  (t = true -> exists v, e = Fin v /\ ~ integral v /\ l < v /\
     (forall b, u = Fin b -> integral l -> integral b -> l < b -> v < b)).
Proof. exact C54_lem. Qed.
Print Assumptions C54_force_fractional_partial.
Example C54_example :
  (do s <- run exP [OFinal [1; 2] [2] [0; 0] [0; 0] [0] 3 None; OBound 0 (Fin 1) (Fin 4)];
   force_fractionnal_sol s) = Ok [Fin (1 + half); Fin 2].
Proof. vm_compute. reflexivity. Qed.

(** *** C55: copying *)
(** Copying reads past the end of the stored row activities when rows were added
    since the last solve. *)
Theorem C55_refuted : ~ C55_full.
Proof.
  intros H.
  assert (R : exists s, run exP [OAdd [Fin 0] [Fin 1] 0; OFinal [1; 2] [2] [0; 0] [0; 0] [0] 3 None] = Ok s)
    by (eexists; vm_compute; reflexivity).
  destruct R as (s & E).
  assert (V : valid_hist exP [OAdd [Fin 0] [Fin 1] 0; OFinal [1; 2] [2] [0; 0] [0; 0] [0] 3 None])
    by (cbn; repeat split; lia).
  destruct (H exP _ s C11_hypotheses_met V E) as (t & C & _).
  vm_compute in E. injection E as <-. vm_compute in C. discriminate.
Qed.
Print Assumptions C55_refuted.
(** Otherwise the copy answers every query like the original, now and after any
    common sequence of later calls. *)
Theorem C55_copy_partial : forall P h s,
  nlp_ok P -> (0 < p_n P)%nat -> valid_hist P h -> settled h -> rows_stay h -> run P h = Ok s ->
  exists t, copy_ctor s = Ok t /\ same_view t s /\
  forall h', osim (run_from t h') (run_from s h') /\
    (forall t' s', run_from t h' = Ok t' -> run_from s h' = Ok s' -> same_view t' s').
Proof. exact C55_lem. Qed.
Print Assumptions C55_copy_partial.
Example C55_example : settled exH /\ rows_stay exH /\
  (do s <- run exP exH; do t <- copy_ctor s; get_starting_point 2 1 true true true t) =
      Ok (mkStart true (Some [6; 7]) (Some [1; 2]) (Some [3; 4]) (Some [5])).
Proof. split; [exact Logic.I|]. split; [exact Logic.I|]. vm_compute. reflexivity. Qed.

(** *** C56: assignment *)
(** Assigning a problem that has not been solved keeps the old solution. *)
Theorem C56_refuted : ~ C56_full.
Proof.
  intros H.
  assert (R : exists t, run exP [OFinal [1; 2] [2] [0; 0] [0; 0] [0] 3 None] = Ok t)
    by (eexists; vm_compute; reflexivity).
  destruct R as (t & E).
  assert (V : valid_hist exP [OFinal [1; 2] [2] [0; 0] [0; 0] [0] 3 None]) by (cbn; repeat split; lia).
  destruct (H exP exP [] _ (mk_prob exP) t C11_hypotheses_met C11_hypotheses_met eq_refl Logic.I V eq_refl E)
    as (t' & C & W). clear V. rename W into V.
  vm_compute in E. injection E as <-. vm_compute in C. injection C as <-.
  destruct V as (_ & _ & _ & _ & _ & _ & _ & _ & _ & X & _). cbn in X. discriminate.
Qed.
Print Assumptions C56_refuted.
Theorem C56_assign_partial : forall P P' h h' s t,
  nlp_ok P -> nlp_ok P' -> p_n P = p_n P' -> (0 < p_n P)%nat ->
  valid_hist P h -> valid_hist P' h' -> run P h = Ok s -> run P' h' = Ok t ->
  settled h -> rows_stay h -> solved h -> m_now P h <> 0%nat ->
  exists t', assign s t = Ok t' /\ same_view t' s.
Proof. exact C56_lem. Qed.
Print Assumptions C56_assign_partial.
Example C56_example :
  let h := [OFinal [1; 2] [2] [0; 0] [0; 0] [0] 3 None; OD [1; 2; 3; 4; 5] 0] in
  valid_hist exP h /\ settled h /\ rows_stay h /\ solved h /\ m_now exP h <> 0%nat /\
  (do s <- run exP h; do t <- run exP exH; do t' <- assign s t; Ok (b_xs t')) = Ok [1; 2].
Proof.
  split; [cbn; repeat split; lia|]. do 3 (split; [exact Logic.I|]). split; [discriminate|].
  vm_compute. reflexivity.
Qed.
