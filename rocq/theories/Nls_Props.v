(** Theorems: what surrounds the NLP solvers (C33-C35, C65-C68). *)
From Verif Require Import Base Arr Nlp Itf_Model Nls_Model Nls_Spec Nls_Proofs.
#[local] Open Scope Q_scope.

(** ** C33 *)
(** One variable with crossed bounds [1,0] and no constraint: declared solved. *)
Definition zCross : zprob := mkZprob [1] [0] [] [] (fun _ => Some 0) (fun _ => Some []).
Theorem C33_refuted : ~ C33_full.
Proof.
  intros H. destruct (H zCross) as (r & E & _ & S).
  { repeat split; try reflexivity; eexists; try split; reflexivity. }
  vm_compute in E. injection E as <-. destruct (S _ _ eq_refl) as (_ & S2). specialize (S2 [] eq_refl).
  destruct (proj1 S2 eq_refl) as (C & _). inversion C as [|? ? ? ? C1 _]; subst. revert C1. vm_compute. congruence.
Qed.
Print Assumptions C33_refuted.
(** What holds: taken exactly when no variable can move by more than 1e-5; then the point is the vector of
    lower bounds, with its own objective and constraint values, and the answer is "solved" exactly when every constraint
    holds within 1e-7 there.  With consistent bounds this is the full claim, and the point is within the bounds. *)
Theorem C33_partial : forall P f g, length (z_xu P) = length (z_xl P) -> length (z_gu P) = length (z_gl P) ->
  z_f P (z_xl P) = Some f -> z_g P (z_xl P) = Some g -> length g = length (z_gl P) ->
  (can_move (z_xl P) (z_xu P) -> zeroDimension P = Ok None) /\
  (~ can_move (z_xl P) (z_xu P) -> exists st fin, zeroDimension P = Ok (Some (st, fin)) /\
     f_x fin = z_xl P /\ f_g fin = g /\ f_obj fin = f /\
     ((st = solvedOptimal /\ f_st fin = SUCCESS_ /\ con_ok (z_gl P) (z_gu P) g /\ f_lam fin = Some (repeat 0 (length g))) \/
      (st = provenInfeasible /\ f_st fin = LOCAL_INFEASIBILITY_ /\ ~ con_ok (z_gl P) (z_gu P) g)) /\
     (consistent (z_xl P) (z_xu P) -> Forall2 Qle (f_x fin) (z_xu P) /\
        Forall2 (fun x u => u - x <= 1 # 100000) (f_x fin) (z_xu P))).
Proof.
  intros P f g L1 L2 F G LG. unfold zeroDimension. rewrite F, G. split.
  - intros M. apply movable_iff in M. rewrite M. reflexivity.
  - intros M. destruct (movable (z_xl P) (z_xu P)) eqn:E; [exfalso; apply M, movable_iff, E|].
    assert (T : Forall2 (fun x u => u - x <= 1 # 100000) (z_xl P) (z_xu P)).
    { clear - L1 E. revert L1 E. generalize (z_xl P) as a, (z_xu P) as b. induction a as [|l a IH]; intros [|u b] L E; cbn in L; try discriminate; constructor.
      - cbn [movable] in E. qcase_in E; [discriminate|]. exact Ec.
      - apply IH; [lia|]. cbn [movable] in E. qcase_in E; [discriminate|]. exact E. }
    destruct (violated g (z_gl P) (z_gu P)) eqn:V.
    + eexists _, _. split; [reflexivity|]. cbn [f_x f_g f_obj f_st f_lam]. repeat (split; [reflexivity|]). split; [right|split; assumption].
      split; [reflexivity|]. split; [reflexivity|]. intros C. apply violated_iff in C. congruence.
    + eexists _, _. split; [reflexivity|]. cbn [f_x f_g f_obj f_st f_lam]. repeat (split; [reflexivity|]). split; [left|split; assumption].
      split; [reflexivity|]. split; [reflexivity|]. split; [apply violated_iff, V|]. rewrite LG. reflexivity.
Qed.
Print Assumptions C33_partial.
Example C33_example :
  (do r <- zeroDimension (mkZprob [1; 2] [1; 2] [3] [3] (fun _ => Some 7) (fun x => Some [qsum x])); Ok (option_map (fun p => (fst p, f_obj (snd p))) r)) = Ok (Some (solvedOptimal, 7)) /\
  (do r <- zeroDimension (mkZprob [1; 2] [1; 2] [4] [5] (fun _ => Some 7) (fun x => Some [qsum x])); Ok (option_map fst r)) = Ok (Some provenInfeasible) /\
  zeroDimension (mkZprob [1; 2] [1; 3] [4] [5] (fun _ => Some 7) (fun x => Some [qsum x])) = Ok None.
Proof. repeat split; vm_compute; reflexivity. Qed.
(** A failed evaluation is not noticed: unwritten memory is used. *)
Theorem C33_failed_evaluation_refuted : forall P, ~ can_move (z_xl P) (z_xu P) -> z_g P (z_xl P) = None \/ z_f P (z_xl P) = None -> zeroDimension P = Uninit.
Proof.
  intros P M H. unfold zeroDimension. destruct (movable (z_xl P) (z_xu P)) eqn:E; [exfalso; apply M, movable_iff, E|].
  destruct H as [H|H]; rewrite H; [destruct (z_f P (z_xl P))|]; reflexivity.
Qed.
Print Assumptions C33_failed_evaluation_refuted.

(** ** C34 *)
(** For any triplet matrix with rows (and, if symmetric, columns) in range, any buffer large enough and any values:
    the call succeeds, the permutation is one, reading the packed form back gives in each row exactly the triplets of
    that row (for symmetric matrices: with the larger index as row), the first pointer is the first entry and the last is
    one past the last entry, and no cell reserved by the caller is touched. *)
Theorem C34_packed_matrix : forall sort (s : bool) m iRow iCol vals lws off noff (cs : bool) pre, sort_ok sort ->
  length iCol = length iRow -> length vals = length iRow -> length pre = off ->
  in_range m cs iRow -> (s = true -> in_range m cs iCol) -> (off + length iRow + noff + m + 2 <= length lws)%nat ->
  exists perm la pv, TMat2RowPMat sort s m (length iRow) iRow iCol lws off noff cs = Ok (perm, la) /\
    Permutation (seq 0 (length iRow)) perm /\ permute vals perm = Ok pv /\
    aget 0 la = Ok (Z.of_nat (length iRow + off + 1)) /\
    aget (off + 1 + length iRow + noff) la = Ok (Z.of_nat (off + 1)) /\
    aget (off + 1 + length iRow + noff + m) la = Ok (Z.of_nat (off + 1 + length iRow)) /\
    (forall R, (1 <= R <= m)%nat -> exists ents, packed_row la (pre ++ pv) (noff + R - 1) = Ok ents /\
       Permutation ents (row_of (if cs then 1 else 0) R (if s then map lower (triplets iRow iCol vals) else triplets iRow iCol vals))) /\
    (forall j, (0 < j <= off \/ off + length iRow < j < off + 1 + length iRow + noff)%nat -> aget j la = aget j lws).
Proof.
  intros sort s m iRow iCol vals lws off noff cs pre SO L1 L2 LP R1 R2 SZ.
  destruct (tmat_represents sort s m iRow iCol vals lws off noff cs pre SO L1 L2 LP R1 R2 SZ) as (perm & la & E & PM & _ & Z0 & PV & PF & PL & PR & K & _).
  exists perm, la, (map (fun p => nth p vals 0) perm). repeat (split; [assumption|]). assumption.
Qed.
Print Assumptions C34_packed_matrix.
(** Four rows, rows 1 and 3 empty, entries unordered with a repeated position. *)
Example C34_example :
  sort_ok isort /\ in_range 4 true [3; 1; 3; 1]%Z /\
  (do ' (p, la) <- TMat2RowPMat isort false 4 4 [3; 1; 3; 1]%Z [2; 1; 0; 1]%Z (fresh 11) 0 0 true; do a <- permute [10; 20; 30; 40] p;
   do r1 <- packed_row la a 0; do r2 <- packed_row la a 1; do r3 <- packed_row la a 2; do r4 <- packed_row la a 3; Ok (r1, r2, r3, r4)) =
  Ok ([], [(2%Z, 40); (2%Z, 20)], [], [(1%Z, 30); (3%Z, 10)]).
Proof. split; [exact isort_ok|]. split; [repeat constructor; cbn; lia|]. vm_compute. reflexivity. Qed.

(** ** C35 *)
Theorem C35_refuted : ~ C35_full.
Proof. intros H. destruct (H 1%Z) as ((A & _) & _). discriminate A. Qed.
Print Assumptions C35_refuted.
(** Every code but 1 has its documented status, and what is told to the problem agrees with what is returned;
    code 1 (unbounded) is reported infeasible by both wrappers. *)
Theorem C35_partial : forall c,
  (c <> 1%Z -> fst (filter_status c) = code_meaning c /\ fst (bqpd_status c) = qp_code_meaning c) /\
  (c = 1%Z -> fst (filter_status c) = provenInfeasible /\ fst (bqpd_status c) = provenInfeasible) /\
  agrees (fst (filter_status c)) (snd (filter_status c)) /\ agrees (fst (bqpd_status c)) (snd (bqpd_status c)).
Proof.
  intros c. unfold filter_status, bqpd_status, code_meaning, qp_code_meaning, filter_switch, bqpd_switch.
  cbn [do_switch existsb].
  destruct (Z.eqb_spec c 0) as [->|]; [repeat split; intros; try reflexivity; discriminate|].
  destruct (Z.eqb_spec c 1) as [->|]; [repeat split; intros; try reflexivity; contradiction|].
  destruct (Z.eqb_spec c 2) as [->|]; [repeat split; intros; try reflexivity; discriminate|].
  destruct (Z.eqb_spec c 3) as [->|]; [repeat split; intros; try reflexivity; discriminate|].
  destruct (Z.eqb_spec c 4) as [->|]; [repeat split; intros; try reflexivity; discriminate|].
  destruct (Z.eqb_spec c 5) as [->|]; [repeat split; intros; try reflexivity; discriminate|].
  destruct (Z.eqb_spec c 6) as [->|]; [repeat split; intros; try reflexivity; discriminate|].
  destruct (Z.eqb_spec c 8) as [->|]; [repeat split; intros; try reflexivity; discriminate|].
  destruct (Z.eqb_spec c 7) as [->|]; [repeat split; intros; try reflexivity; discriminate|].
  cbn [orb]. replace (2 <=? c)%Z with (1 <? c)%Z by (destruct (Z.ltb_spec 1 c), (Z.leb_spec 2 c); lia).
  assert (A : ((1 <? c) && (c <=? 4))%bool%Z = false) by (destruct (Z.ltb_spec 1 c), (Z.leb_spec c 4); cbn [andb]; lia).
  assert (B : ((1 <? c) && (c <=? 3))%bool%Z = false) by (destruct (Z.ltb_spec 1 c), (Z.leb_spec c 3); cbn [andb]; lia).
  rewrite A, B. destruct (Z.eqb_spec c 9); [|destruct (Z.eqb_spec c 10)]; repeat split; intros; try reflexivity; contradiction.
Qed.
Print Assumptions C35_partial.
Example C35_example : map (fun c => fst (filter_status c)) [0; 1; 3; 6; 7; 9; 42]%Z =
  [solvedOptimal; provenInfeasible; provenInfeasible; iterationLimit; externalException; sException; sException].
Proof. vm_compute. reflexivity. Qed.

(** ** C65: multipliers reported after an SQP solve *)
(** filterSQP returns one multiplier per variable and constraint with  grad f = J^T lam_g + lam_x,  lam_x >= 0 at a lower
    bound, <= 0 at an upper bound, 0 inside.  The multipliers reported satisfy the sign and complementarity conditions and
    the stationarity condition  grad f + J^T lambda - z_L + z_U = 0  of the interface. *)
Theorem C65_sqp_multipliers : forall n m xl xu gl gu x lx lg, length xl = n -> length xu = n -> length gl = m -> length gu = m ->
  length x = n -> length lx = n -> length lg = m ->
  (forall i, (i < n)%nat -> filter_sign (nth i xl 0) (nth i xu 0) (nth i x 0) (nth i lx 0)) ->
  exists zl zu ml, filter_report n m x (xl ++ gl ++ xu ++ gu) (lx ++ lg) = Ok (zl, zu, ml) /\
    length zl = n /\ length zu = n /\ length ml = m /\
    (forall i, (i < n)%nat -> 0 <= nth i zl 0 /\ 0 <= nth i zu 0 /\
       (0 < nth i zl 0 -> nth i x 0 == nth i xl 0) /\ (0 < nth i zu 0 -> nth i x 0 == nth i xu 0)) /\
    (forall gf (J : nat -> list Q) j, (j < n)%nat -> nth j gf 0 == dot lg (J j) + nth j lx 0 ->
       nth j gf 0 + dot ml (J j) - nth j zl 0 + nth j zu 0 == 0).
Proof.
  intros n m xl xu gl gu x lx lg A B C D E F G S.
  rewrite (filter_report_ok n m xl xu gl gu x lx lg A B C D E F G).
  destruct (bound_mult_nth 1 x xl lx ltac:(lia) ltac:(lia)) as (L1 & N1).
  destruct (bound_mult_nth (-(1)) x xu lx ltac:(lia) ltac:(lia)) as (L2 & N2).
  eexists _, _, _. split; [reflexivity|]. split; [lia|]. split; [lia|]. split; [rewrite map_length; exact G|]. split.
  - intros i H. rewrite N1, N2 by lia. destruct (mult_split _ _ _ _ (S i H)) as (A1 & A2 & A3 & A4 & _). auto.
  - intros gf J j H ST. rewrite N1, N2 by lia. destruct (mult_split _ _ _ _ (S j H)) as (_ & _ & _ & _ & A5).
    cbv zeta in A5. unfold dot in *. rewrite qsum_opp_combine.
    set (zl := if Qeq_bool (nth j x 0) (nth j xl 0) then _ else _) in *. set (zu := if Qeq_bool (nth j x 0) (nth j xu 0) then _ else _) in *. lra.
Qed.
Print Assumptions C65_sqp_multipliers.
Example C65_example : filter_report 3 1 [0; 5; 2] ([0; 0; 0] ++ [1] ++ [9; 5; 9] ++ [1]) ([3; -(4); 0] ++ [7]) = Ok ([3; 0; 0], [0; 4; 0], [-(7)]) /\
  filter_sign 0 9 0 3 /\ filter_sign 0 5 5 (-(4)) /\ filter_sign 0 9 2 0.
Proof. split; [vm_compute; reflexivity|]. unfold filter_sign. repeat split; intros; try reflexivity; exfalso; lra. Qed.

(** ** C66: derivatives handed to the SQP and QP solvers *)
(** Whatever the order of the Jacobian entries: row 0 of the matrix given to filterSQP is the objective gradient, row R the R-th
    constraint gradient. *)
Theorem C66_sqp_first_derivatives : forall sort n m iRow iCol (cs : bool) grad jac, sort_ok sort -> length iCol = length iRow ->
  length jac = length iRow -> length grad = n -> in_range m cs iRow ->
  exists perm la a, filter_la sort n m iRow iCol cs = Ok (perm, la) /\ filter_a n la perm grad jac = Ok a /\
    packed_row la a 0 = Ok (combine (map Z.of_nat (seq 1 n)) grad) /\
    (forall R, (1 <= R <= m)%nat -> exists ents, packed_row la a R = Ok ents /\ Permutation ents (row_of (if cs then 1 else 0) R (triplets iRow iCol jac))).
Proof. exact filter_data. Qed.
Print Assumptions C66_sqp_first_derivatives.
(** The Hessian given to filterSQP is the lower triangle of the Hessian of the Lagrangian evaluated with the interface's multipliers
    (the opposite of the solver's) and objective factor 1, or 0 in the feasibility phase. *)
Theorem C66_sqp_hessian : forall sort n m phase iRow iCol (cs : bool) (eval_h : Q -> list Q -> list Q) lam, sort_ok sort ->
  length iCol = length iRow -> (forall s l, length l = m -> length (eval_h s l) = length iRow) -> length lam = (n + m)%nat ->
  in_range n cs iRow -> in_range n cs iCol ->
  exists perm st hs ws, filter_hstruct sort n iRow iCol cs = Ok (perm, st) /\
    filter_hess n m phase (length iRow) st perm eval_h lam = Ok (hs, ws) /\
    forall R, (1 <= R <= n)%nat -> exists ents, packed_row hs ws (R - 1) = Ok ents /\
      Permutation ents (row_of (if cs then 1 else 0) R (map lower (triplets iRow iCol (eval_h (if Nat.eqb phase 1 then 0 else 1) (map Qopp (skipn n lam)))))).
Proof. exact filter_hess_ok. Qed.
Print Assumptions C66_sqp_hessian.
(** The quadratic solver gets the nonzero gradient entries as row 0 and the constraint rows. *)
Theorem C66_qp_data : forall sort n m iRow iCol jac grad, sort_ok sort -> length iCol = length iRow -> length jac = length iRow -> length grad = n ->
  in_range m true iRow ->
  exists la a, bqpd_data sort m iRow iCol jac grad = Ok (la, a) /\
    packed_row la a 0 = Ok (filter (fun e => negb (Qeq_bool (snd e) 0)) (combine (map Z.of_nat (seq 1 n)) grad)) /\
    (forall R, (1 <= R <= m)%nat -> exists ents, packed_row la a R = Ok ents /\ Permutation ents (row_of 1 R (triplets iRow iCol jac))).
Proof. exact bqpd_data_ok. Qed.
Print Assumptions C66_qp_data.
Example C66_example :
  (do ' (p, la) <- filter_la isort 3 2 [1; 0; 1]%Z [2; 1; 0]%Z true; do a <- filter_a 3 la p [7; 0; 9] [1; 2; 3];
   do g <- packed_row la a 0; do r1 <- packed_row la a 1; do r2 <- packed_row la a 2; Ok (g, r1, r2)) =
  Ok ([(1%Z, 7); (2%Z, 0); (3%Z, 9)], [(2%Z, 2)], [(1%Z, 3); (3%Z, 1)]) /\
  (do ' (la, a) <- bqpd_data isort 2 [1; 0; 1]%Z [2; 1; 0]%Z [1; 2; 3] [7; 0; 9];
   do g <- packed_row la a 0; do r1 <- packed_row la a 1; do r2 <- packed_row la a 2; Ok (g, r1, r2)) =
  Ok ([(1%Z, 7); (3%Z, 9)], [(2%Z, 2)], [(1%Z, 3); (3%Z, 1)]) /\
  (do ' (p, st) <- filter_hstruct isort 2 [0; 0; 1]%Z [1; 0; 1]%Z true; do ' (hs, ws) <- filter_hess 2 1 2 3 st p (fun s l => [s; qsum l; 5]) [0; 0; 4];
   do r1 <- packed_row hs ws 0; do r2 <- packed_row hs ws 1; Ok (r1, r2)) =
  Ok ([(1%Z, -(4) + 0)], [(1%Z, 1); (2%Z, 5)]).
Proof. repeat split; vm_compute; reflexivity. Qed.

(** ** C67: warm start differences *)
Definition wsA : fws := new_ws [1] [2] [10; 20; 30]%Z def_istat.
Definition wsB : fws := new_ws [3] [4] [10; 25; 30]%Z def_istat.
Definition wsC : fws := new_ws [3] [4] [10]%Z def_istat.
(** False when the two integer arrays differ in length. *)
Theorem C67_refuted : ~ C67_full.
Proof. intros H. specialize (H wsA wsC eq_refl eq_refl). vm_compute in H. discriminate. Qed.
Print Assumptions C67_refuted.
(** Applying the difference to the older warm start gives the newer one exactly when their integer arrays have the same length;
    in particular for all warm starts taken from solves of the same problem with the same options. *)
Theorem C67_partial : forall new old, w_empty new = w_empty old ->
  ((do d <- generateDiff new old; applyDiff d old) = Ok new <-> length (w_lws new) = length (w_lws old)).
Proof.
  intros new old E. rewrite <- diff_roundtrip. rewrite <- E. destruct new; reflexivity.
Qed.
Print Assumptions C67_partial.
(** A chain of differences, as stored along a branch of the search tree. *)
Fixpoint rebuild (w : fws) (chain : list fws) (cur : fws) : outcome fws :=
  match chain with
  | [] => Ok cur
  | w' :: chain' => do d <- generateDiff w' w; do cur' <- applyDiff d cur; rebuild w' chain' cur'
  end.
Theorem C67_chain : forall chain w, Forall (fun w' => length (w_lws w') = length (w_lws w) /\ w_empty w' = w_empty w) chain ->
  rebuild w chain w = Ok (last chain w).
Proof.
  induction chain as [|w' chain IH]; intros w F; [reflexivity|]. apply Forall_cons_iff in F. destruct F as ((L & E) & F).
  cbn [rebuild]. pose proof (proj2 (C67_partial w' w E) L) as H. apply bind_ok in H. destruct H as (d & D & A). rewrite D. cbn [bind]. rewrite A. cbn [bind].
  rewrite IH.
  - destruct chain; [reflexivity|]. change (last (w' :: f :: chain) w) with (last (f :: chain) w). f_equal. clear. revert f. induction chain as [|g chain IH]; intros f; [reflexivity|]. exact (IH g).
  - eapply Forall_impl; [|exact F]. intros a (A1 & A2). split; congruence.
Qed.
Print Assumptions C67_chain.
Example C67_example : (do d <- generateDiff wsB wsA; do w <- applyDiff d wsA; Ok (d_lws d, w)) = Ok ([(1%nat, 5%Z)], wsB).
Proof. vm_compute. reflexivity. Qed.

(** ** C68: where a solve starts *)
(** The solver's own "empty" warm start is not recognised as empty: the next solve starts from memory never written. *)
Theorem C68_refuted : ~ C68_full.
Proof.
  intros H. specialize (H 1%nat [SetWarm (Some getEmptyWarmStart); Solve [5] [6]]).
  assert (OK : ops_ok 1 false [SetWarm (Some getEmptyWarmStart); Solve [5] [6]]) by (repeat split; left; reflexivity).
  specialize (H OK). vm_compute in H. discriminate.
Qed.
Print Assumptions C68_refuted.
Theorem C68_empty_refuted : forall n x0 sol, (0 < n)%nat -> fs_run n [SetWarm (Some getEmptyWarmStart); Solve x0 sol] fs_init = Uninit.
Proof. intros [|n] x0 sol H; [lia|]. reflexivity. Qed.
Print Assumptions C68_empty_refuted.
(** With full warm starts only: in any sequence of calls every solve starts from the last warm start set since the last
    disabling, or from the problem's starting point when there is none. *)
Theorem C68_partial : forall n ops, (0 < n)%nat -> ops_ok n false ops -> Forall (full_ws n) ops -> fs_run n ops fs_init = Ok (expected None ops).
Proof.
  intros n ops N OK FU. apply (fs_run_ok n N ops fs_init); [|exact OK|exact FU].
  split; [intros w H; discriminate|intros c H; discriminate].
Qed.
Print Assumptions C68_partial.
Example C68_example : fs_run 1 [Solve [5] [6]; SetWarm (Some (new_ws [7] [] [] def_istat)); Resolve [5] [8]; SetWarm None; Resolve [5] [8]; Disable; Solve [5] [6]] fs_init =
  Ok [([5], 0%Z); ([7], (-1)%Z); ([7], (-1)%Z); ([5], 0%Z)].
Proof. vm_compute. reflexivity. Qed.
