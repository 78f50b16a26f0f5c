(** Theorems: outer-approximation cuts and the linear relaxation
    (C16-C21, C57, C58). *)
From Verif Require Import Base Arr Nlp OA_Model OA_Spec OA_Proofs OA_Proofs2 OA_Proofs3 OA_Proofs4 OA_Proofs5.
#[local] Open Scope Q_scope.

Definition w0 (x : list Q) := nth 0 x 0.
Definition w1 (x : list Q) := nth 1 x 0.
(** min x0^2 with x0^2 + x1 <= 4 (nonlinear) and 0 <= x0 + 2 x1 <= 10 (linear). *)
Definition exO : nlp := mkNlp 2 2 1 [Fin 0; Fin (-1)] [Fin 10; Fin 10] [MInf; Fin 0] [Fin 4; Fin 10] [false; true] [true; false]
  [1; 2] [0; 0] (fun x => w0 x * w0 x) (fun x => [2 * w0 x; 0]) (fun x => [w0 x * w0 x + w1 x; w0 x + 2 * w1 x])
  [(1, 1); (1, 2); (2, 1); (2, 2)]%nat (fun x => [2 * w0 x; 1; 1; 2]) [(1, 1)]%nat (fun x s l => [2 * s + 2 * nth 0 l 0]).
Definition exE (level : nat) (relax : Q) : oaenv :=
  mkOaenv [Fin 0; Fin (-1)] [Fin 10; Fin 10] [3; 0] (1 # 100000000) (1 # 100000000000000000) relax level false.
Example C16_hypotheses_met : nlp_ok exO /\ env_ok exO (exE 0 0) /\ NoDup (p_jst exO) /\ nonlinear_rows exO = [0%nat].
Proof.
  split; [constructor; simpl; intros; try reflexivity; repeat constructor|].
  split; [constructor; simpl; try reflexivity; discriminate|].
  split; [|reflexivity]. simpl. repeat constructor; simpl; intuition congruence.
Qed.
Lemma square_nonneg a : 0 <= a * a.
Proof. destruct (Qlt_le_dec a 0); nra. Qed.
(** ... and the curvature hypothesis: row 0 lies above its linearisations. *)
Example C16_curved_met : forall x0 x1 y0 y1, under exO [x0; x1] 0 [y0; y1].
Proof.
  intros. unfold under, gi, rowlin, dense. cbn [p_g p_jst p_jv p_n p_off exO seq map combine nth w0 w1 fst snd plus Nat.eqb andb qsum].
  pose proof (square_nonneg (x0 - y0)). lra.
Qed.

(** ** C16 *)
(** Every nonlinear row gives one cut: valid for all points of the box that satisfy a
    row of the right curvature, equal to the linearisation moved only at small
    coefficients, and exactly the linearisation if there is none. *)
Theorem C16_rows : forall P e x, nlp_ok P -> env_ok P e -> length x = p_n P -> NoDup (p_jst P) ->
  exists cs, getOuterApproximation P e x 0 None 0 = Ok cs /\
    Forall2 (fun i c => valid_oa P e x i c /\ tight_oa P e x i c /\ exact_oa P e x i c) (nonlinear_rows P) cs.
Proof.
  intros P e x OK EN LX ND. destruct (oa_rows_spec P e x OK EN LX) as [SP TOT]. destruct (TOT ND) as (ss & E).
  unfold getOuterApproximation. rewrite E. cbn [bind]. rewrite filter_none. cbn [bind oa_obj Nat.eqb negb andb orb].
  eexists. split; [reflexivity|]. rewrite app_nil_r. specialize (SP ss E). clear - SP OK EN.
  induction SP as [|i s l ss R SP IH]; constructor; [|exact IH].
  split; [apply row_cut_valid; assumption|split; [apply row_cut_tight; assumption|apply row_cut_exact; assumption]].
Qed.
Print Assumptions C16_rows.
(** With a point to separate, an objective cut, any threshold and log level, every cut
    that comes out is such a row cut or a valid objective cut. *)
Theorem C16_all : forall P e x go x2 theta cs, nlp_ok P -> env_ok P e -> length x = p_n P ->
  getOuterApproximation P e x go x2 theta = Ok cs -> forall c, In c cs ->
  (exists i, In i (nonlinear_rows P) /\ valid_oa P e x i c /\ tight_oa P e x i c /\ exact_oa P e x i c) \/
  (go <> 0%nat /\ valid_obj P e obj_vtiny x (c_row c) (c_lb c) (c_ub c)).
Proof.
  intros P e x go x2 theta cs OK EN LX H c I. unfold getOuterApproximation in H.
  apply bind_ok in H. destruct H as (ss & E & H). apply bind_ok in H. destruct H as (c1 & E1 & H).
  apply bind_ok in H. destruct H as (os & E2 & H). injection H as <-. apply in_app_iff in I. destruct I as [I|I].
  - left. destruct (filter_sub _ _ _ _ _ E1 c I) as (s & Is & ->).
    destruct (oa_rows_spec P e x OK EN LX) as [SP _]. destruct (Forall2_in_r _ _ _ _ (SP ss E) Is) as (i & Ii & R).
    exists i. split; [exact Ii|]. split; [apply row_cut_valid; assumption|split; [apply row_cut_tight; assumption|apply row_cut_exact; assumption]].
  - right. unfold oa_obj in E2. destruct go as [|go].
    { cbn [Nat.eqb negb andb orb] in E2. injection E2 as <-. destruct I. }
    split; [discriminate|]. destruct (_ || _)%bool in E2; [|injection E2 as <-; destruct I].
    apply bind_ok in E2. destruct E2 as (s & E2 & E3). apply bind_ok in E3. destruct E3 as (g & _ & E3). injection E3 as <-.
    destruct g; [|destruct I]. destruct I as [<-|[]]. unfold obj_cut in E2. apply bind_ok in E2. destruct E2 as (s0 & A & E2).
    apply bind_ok in E2. destruct E2 as (row & B & E2). injection E2 as <-. cbn [c_row c_lb c_ub].
    apply (obj_valid P e x _ _ _ s0 row OK EN LX A B).
Qed.
Print Assumptions C16_all.
(** The single-constraint version gives the same cut without right-hand side relaxation. *)
Theorem C16_single : forall P e x i c, nlp_ok P -> env_ok P e -> length x = p_n P -> (i < p_m P)%nat ->
  getConstraintOuterApproximation P e x i (row_entries P x i) (gi P i x) = Ok c ->
  valid_oa P e x i c /\ (e_relax e == 0 -> exact_oa P e x i c).
Proof.
  intros P e x i c OK EN LX HI H. unfold getConstraintOuterApproximation in H.
  rewrite (rd_nth i (p_gl P) MInf) in H by (rewrite (ok_gl _ OK); exact HI). cbn [bind] in H.
  rewrite (rd_nth i (p_gu P) PInf) in H by (rewrite (ok_gu _ OK); exact HI). cbn [bind] in H.
  rewrite (rd_nth i (e_duals e) 0) in H by (rewrite (en_du _ _ EN); exact HI). cbn [bind] in H.
  assert (RC : row_cut P e x i c).
  { unfold row_cut. revert H. change (nth i (p_gl P) MInf) with (glow P i). change (nth i (p_gu P) PInf) with (gup P i).
    generalize (oa_init (glow P i) (gup P i) (gi P i x) (nth i (e_duals e) 0)).
    assert (CO : forall cv, In cv (row_entries P x i) -> (fst cv < p_n P)%nat)
      by (intros [cc v] I; apply (entries_col P x i cc v OK I)).
    induction (row_entries P x i) as [|[cc v] l IH]; intros s H; [exact H|]. cbn [one_loop] in H. cbn [foldM].
    assert (E : oa_step P e x ((i, cc), v) s = cfs (e_tiny e) (e_vtiny e) (glow P i) (gup P i) (e_cl e) (e_cu e) x (cc, v) s).
    { pose proof (CO _ (or_introl eq_refl)) as B. cbn [fst] in B. unfold oa_step, cfs. cbn [fst snd].
      rewrite (rd_nth cc (e_cl e) MInf) by (rewrite (en_cl _ _ EN); exact B). cbn [bind].
      rewrite (rd_nth cc (e_cu e) PInf) by (rewrite (en_cu _ _ EN); exact B). cbn [bind].
      rewrite (rd_nth i (p_gl P) MInf) by (rewrite (ok_gl _ OK); exact HI). cbn [bind].
      rewrite (rd_nth i (p_gu P) PInf) by (rewrite (ok_gu _ OK); exact HI). cbn [bind].
      rewrite (rd_nth cc x 0) by (rewrite LX; exact B). cbn [bind]. reflexivity. }
    rewrite <- E. apply bind_ok in H. destruct H as (s' & E' & H). rewrite E'. cbn [bind].
    apply (IH (fun cv I => CO cv (or_intror I)) s' H). }
  set (e0 := mkOaenv (e_cl e) (e_cu e) (e_duals e) (e_tiny e) (e_vtiny e) 0 (e_level e) (e_linobj e)).
  assert (EN0 : env_ok P e0) by (constructor; try apply EN; apply Qle_refl).
  assert (RC0 : row_cut P e0 x i c) by exact RC. split.
  - intros y B R C. destruct (row_cut_valid P e0 x i c OK EN0 RC0 y B R C) as [V1 V2]. split; [exact V1|].
    cbn [oa_finish c_ub c_row] in V2. rewrite relax_zero in V2 by reflexivity. exact V2.
  - intros _. pose proof (row_cut_exact P e0 x i c OK RC0) as X. intros NS _ y LY.
    destruct (X NS (Qeq_refl 0) y LY) as (A & B & C & D). cbn [oa_finish c_ub c_lb c_row] in A, B, C, D.
    split; [intros U; specialize (A U); rewrite relax_zero in A by reflexivity; exact A|].
    split; [exact B|]. split; [|exact D]. intros U. specialize (C U). destruct (c_ub c); try discriminate C; reflexivity.
Qed.
Print Assumptions C16_single.
Example C16_example :
  (do cs <- getOuterApproximation exO (exE 0 0) [1; 0] 0 None 0;
   Ok (map (fun c => (c_row c, c_lb c, match c_ub c with Fin u => Qred u | _ => 0 end)) cs)) = Ok [([(0%nat, 2 * 1); (1%nat, 1)], MInf, 5)].
Proof. vm_compute. reflexivity. Qed.

(** ** C17 *)
Definition exS : nlp := mkNlp 1 0 0 [Fin 0] [Fin 1] [] [] [] [false] [1] []
  (fun x => (1 # 1000000000) * w0 x) (fun _ => [1 # 1000000000]) (fun _ => []) [] (fun _ => []) [] (fun _ _ _ => []).
Definition exSe : oaenv := mkOaenv [Fin 0] [Fin 1] [] (1 # 100000000) (1 # 100000000000000000) 0 0 false.
Lemma exS_ok : nlp_ok exS /\ env_ok exS exSe.
Proof. split; constructor; simpl; intros; try reflexivity; repeat constructor; discriminate. Qed.
Theorem C17_refuted : ~ C17_full.
Proof.
  intros F. destruct exS_ok as [OK EN].
  destruct (getOuterApproximation exS exSe [1] 2 None 0) as [[|c [|c' l]]| | | | | | |] eqn:E; try (vm_compute in E; discriminate).
  assert (E' := E). vm_compute in E'. injection E' as <-.
  destruct (F exS exSe [1] _ OK EN eq_refl E eq_refl) as [_ T].
  { intros y L. destruct y as [|y0 [|]]; try discriminate. unfold obj_under, objlin. cbn [p_f p_gf p_n exS seq map qsum nth w0]. lra. }
  specialize (T 0). assert (X : (1 # 1000000000) * 1 <= 0); [|vm_compute in X; exact (X eq_refl)].
  apply T. split; [exact Logic.I|]. vm_compute. discriminate.
Qed.
Print Assumptions C17_refuted.
(** Over the box and up to negligible coefficients the cut is valid; it is exact when
    no coefficient is small; in general it is weaker at x* by at most what the removed
    coefficients contribute over the box. *)
Theorem C17_objective_partial : forall P e x, nlp_ok P -> env_ok P e -> length x = p_n P ->
  exists c, obj_cut P e x = Ok c /\
    (forall go x2, go = 2%nat \/ (go <> 0%nat /\ e_linobj e = false) -> x2 = None ->
       forall theta, oa_obj P e x go x2 theta = Ok [c]) /\
    valid_obj P e obj_vtiny x (c_row c) (c_lb c) (c_ub c) /\
    exact_obj P (e_tiny e) x (c_row c) (c_lb c) (c_ub c) /\
    (obj_vtiny <= e_tiny e -> tight_obj P e (e_tiny e) x (c_row c) (c_ub c)).
Proof.
  intros P e x OK EN LX. destruct (obj_run P e x (e_tiny e) obj_vtiny (Fin (- p_f P x)) OK EN LX) as (s & row & A & B & _).
  assert (OC : obj_cut P e x = Ok (mkCut row MInf (c_ub s))).
  { unfold obj_cut. rewrite A. cbn [bind]. rewrite B. reflexivity. }
  eexists. split; [exact OC|]. split.
  - intros go x2 G -> theta. unfold oa_obj. assert (X : (Nat.eqb go 2 || (negb (Nat.eqb go 0) && negb (e_linobj e)))%bool = true).
    { destruct G as [->|[G ->]]; [reflexivity|]. destruct go; [congruence|]. cbn [negb Nat.eqb andb]. apply orb_true_r. }
    rewrite X, OC. reflexivity.
  - cbn [c_row c_lb c_ub]. exact (obj_valid P e x _ _ _ s row OK EN LX A B).
Qed.
Print Assumptions C17_objective_partial.
Example C17_example :
  (do c <- obj_cut exO (exE 0 0) [3; 0]; Ok (c_row c, c_lb c, match c_ub c with Fin u => Qred u | _ => 0 end)) =
  Ok ([(0%nat, 2 * 3); (2%nat, -(1))], MInf, 9) /\
  (forall x0 x1 y0 y1, obj_under exO [x0; x1] [y0; y1]).
Proof.
  split; [vm_compute; reflexivity|]. intros. unfold obj_under, objlin. cbn [p_f p_gf p_n exO seq map nth w0 w1 qsum].
  pose proof (square_nonneg (x0 - y0)). lra.
Qed.

(** ** C18 *)
Theorem C18_refuted : ~ C18_full.
Proof.
  intros F. specialize (F exO (exE 0 0) [1; 0] 0%nat (Some [0; 0]) 1 0%nat 1%nat).
  vm_compute in F. discriminate.
Qed.
Print Assumptions C18_refuted.
(** The result is the same at all levels if no point is given, and the same at all
    positive levels; a positive level can only leave out cuts generated at level 0. *)
Theorem C18_same_partial : forall P e x go x2 theta k1 k2, (k1 = 0 <-> k2 = 0)%nat \/ x2 = None ->
  getOuterApproximation P (at_level e k1) x go x2 theta = getOuterApproximation P (at_level e k2) x go x2 theta.
Proof. exact level_same. Qed.
Print Assumptions C18_same_partial.
Theorem C18_sub_partial : forall P e x go x2 theta k cs cs0,
  getOuterApproximation P (at_level e k) x go x2 theta = Ok cs ->
  getOuterApproximation P (at_level e 0) x go x2 theta = Ok cs0 -> sublist cs cs0.
Proof. exact level_sub. Qed.
Print Assumptions C18_sub_partial.
Example C18_example :
  (do cs <- getOuterApproximation exO (exE 1 0) [1; 0] 0 (Some [0; 0]) 1; Ok (length cs)) = Ok 0%nat /\
  (do cs <- getOuterApproximation exO (exE 0 0) [1; 0] 0 (Some [0; 0]) 1; Ok (length cs)) = Ok 1%nat.
Proof. split; vm_compute; reflexivity. Qed.

(** ** C19 *)
Theorem C19_refuted : ~ C19_full.
Proof.
  intros F. specialize (F (1 # 1000000000) (Fin 0) (Fin 1) MInf (Fin 0) 0 MInf (Fin 0) (1 # 100000000) (1 # 100000000000000000)).
  specialize (F _ _ _ ltac:(vm_compute; discriminate) ltac:(split; congruence) eq_refl).
  destruct (F 0 0) as [_ U]; try exact Logic.I; try (vm_compute; discriminate). vm_compute in U. exact (U eq_refl).
Qed.
Print Assumptions C19_refuted.
(** The interface's own removal is safe... *)
Theorem C19_interface_partial : forall v cl cu rl ru x lb ub tiny vtiny lb' ub',
  vtiny <= Qabs v -> sides_match rl ru lb ub ->
  clean_nnz v cl cu rl ru x lb ub tiny vtiny = (false, lb', ub') -> removal_safe v cl cu x lb ub lb' ub'.
Proof. exact clean_safe. Qed.
Print Assumptions C19_interface_partial.
(** ... the quadratic code's is, for a column with no upper bound and a nonnegative
    lower bound, when the coefficient stays in the row as it does there... *)
Theorem C19_shift_partial : forall v l rl ru x lb ub tiny vtiny v' lb' ub',
  0 <= l -> vtiny <= Qabs v -> sides_match rl ru lb ub ->
  q_clean v (Fin l) PInf rl ru x lb ub tiny vtiny = (false, v', lb', ub') ->
  v' = v /\ shift_safe v (Fin l) PInf x lb ub lb' ub'.
Proof. exact q_clean_shift. Qed.
Print Assumptions C19_shift_partial.
(** ... and the nonlinear rows are never touched by the removal. *)
Theorem C19_nonlinear_rows : forall P tiny vt x, nlp_ok P -> length x = p_n P ->
  exists rs, q_rows P tiny vt x = Ok rs /\ length rs = p_m P /\
    forall i, In i (nonlinear_rows P) -> q_exact P x i (nth i rs ([], (MInf, PInf))).
Proof. exact q_rows_exact. Qed.
Print Assumptions C19_nonlinear_rows.
Example C19_example :
  clean_nnz (1 # 1000000000) (Fin 0) (Fin 1) MInf (Fin 0) 0 MInf (Fin 0) (1 # 100000000) (1 # 100000000000000000) =
    (false, MInf, Fin (0 + (1 # 1000000000) * (0 - 0))) /\
  q_clean (-1 # 1000000000) (Fin 2) PInf (Fin 0) PInf 3 (Fin 1) PInf (1 # 100000000) (1 # 100000000000000000) =
    (true, - (1 # 100000000), Fin 1, PInf) /\
  q_clean (1 # 1000000000) (Fin 2) PInf (Fin 0) PInf 3 (Fin 1) PInf (1 # 100000000) (1 # 100000000000000000) =
    (false, 1 # 1000000000, Fin (1 + (1 # 1000000000) * (3 - 2)), PInf).
Proof. repeat split; vm_compute; reflexivity. Qed.

(** ** C20 *)
Definition exB : nlp := mkNlp 1 1 0 [Fin 0] [Fin 10] [MInf] [Fin 1] [false] [false] [0] [0]
  (fun _ => 0) (fun _ => [0]) (fun x => [w0 x]) [(0, 0)]%nat (fun _ => [1]) [] (fun _ _ _ => []).
Definition exBe (lin : bool) : oaenv := mkOaenv [Fin 0] [Fin 10] [1] (1 # 100000000) (1 # 100000000000000000) 0 0 lin.
Lemma exB_ok lin : nlp_ok exB /\ env_ok exB (exBe lin) /\ duals_sane exB (exBe lin).
Proof.
  split; [|split]; [constructor; simpl; intros; try reflexivity; repeat constructor|constructor; simpl; try reflexivity; discriminate|].
  intros i I _. destruct I as [<-|[]]. split; [intros _; exists 1; split; reflexivity|]. intros H. vm_compute in H. discriminate.
Qed.
Theorem C20_refuted : ~ C20_full.
Proof.
  intros F. destruct (exB_ok false) as (OK & EN & DS).
  destruct (F exB (exBe false) [0] true OK EN eq_refl DS) as (c & E & V).
  { intros [|[|i]]; simpl; discriminate. }
  vm_compute in E. injection E as <-.
  destruct (V [1] 0) as [_ U].
  - split; repeat constructor; vm_compute; discriminate.
  - intros i [<-|[]]. split; [split; vm_compute; try exact Logic.I; discriminate|].
    split; intros _; vm_compute; discriminate.
  - vm_compute; discriminate.
  - vm_compute; discriminate.
  - vm_compute in U. exact (U eq_refl).
Qed.
Print Assumptions C20_refuted.
(** Valid when the objective part is not added (linear objective, or the NLP was not
    proved optimal); negative multipliers are fine if their rows have no small
    aggregated coefficient. *)
Theorem C20_rows_partial : forall P e x opt, nlp_ok P -> env_ok P e -> length x = p_n P -> duals_sane P e -> bd_good P e x ->
  e_linobj e = true \/ opt = false ->
  exists c, getBendersCut P e x opt = Ok c /\ benders_valid P e x c.
Proof. exact benders_rows. Qed.
Print Assumptions C20_rows_partial.
(** Valid when no nonlinear row has a multiplier above 1e-6 in absolute value. *)
Theorem C20_objective_partial : forall P e x opt, nlp_ok P -> env_ok P e -> length x = p_n P ->
  (forall i, In i (nonlinear_rows P) -> Qabs (nth i (e_duals e) 0) <= bd_tol) ->
  exists c, getBendersCut P e x opt = Ok c /\ benders_valid P e x c.
Proof. exact benders_objective. Qed.
Print Assumptions C20_objective_partial.
Example C20_example : bd_good exB (exBe true) [0] /\
  (do c <- getBendersCut exB (exBe true) [0] true; Ok (map (fun p => (fst p, Qred (snd p))) (c_row c), match c_ub c with Fin u => Qred u | _ => 7 end)) = Ok ([(0%nat, 1)], 1).
Proof. split; [intros i [<-|[]] _; left; reflexivity|vm_compute; reflexivity]. Qed.

(** ** C21 *)
Definition exL : nlp := mkNlp 1 2 0 [Fin (-10)] [Fin 10] [Fin 0; Fin (-5)] [Fin 1; Fin 6] [false; true] [false] [0] [0; 0]
  (fun x => w0 x) (fun _ => [1]) (fun x => [w0 x; w0 x]) [(0, 0); (1, 0)]%nat (fun _ => [1; 1]) [] (fun _ _ _ => []).
Definition exLe (d : Q) : oaenv := mkOaenv [Fin (-10)] [Fin 10] [d; 0] (1 # 100000000) (1 # 100000000000000000) 0 0 true.
Lemma exL_ok d : nlp_ok exL /\ env_ok exL (exLe d).
Proof. split; constructor; simpl; intros; try reflexivity; repeat constructor; discriminate. Qed.
Theorem C21_refuted : ~ C21_full.
Proof.
  intros F. destruct (exL_ok 0) as [OK EN].
  destruct (extractLinearRelaxation exL (exLe 0) [0] false) as [L| | | | | | |] eqn:E; try (vm_compute in E; discriminate).
  destruct (F exL (exLe 0) [0] L OK EN eq_refl E) as [_ R]. vm_compute in E. injection E as <-.
  destruct (R 0%nat) as [_ [B _]]; [vm_compute; repeat constructor|]. discriminate B.
Qed.
Print Assumptions C21_refuted.
(** The rows of the matrix are those of the constraints kept, in order, but the bounds
    in position k are those of constraint k; so every row before the first skipped one
    is attached to its own bounds. *)
Theorem C21_rows_partial : forall P e x, nlp_ok P -> env_ok P e -> length x = p_n P ->
  exists L, extractLinearRelaxation P e x false = Ok L /\
    length (l_rows L) = length (kept_rows P e) /\
    l_cl L = e_cl e /\ l_cu L = e_cu e /\ l_int L = p_int P /\
    (forall k, (k < length (kept_rows P e))%nat ->
       own_row P x (nth k (kept_rows P e) 0%nat) (nth k (l_rows L) []) /\
       (skipped P e k = false -> own_bounds P e x k (nth k (l_lo L) MInf) (nth k (l_up L) PInf))) /\
    (forall k, (k < p_m P)%nat -> (forall j, (j <= k)%nat -> skipped P e j = false) ->
       own_row P x k (nth k (l_rows L) []) /\ own_bounds P e x k (nth k (l_lo L) MInf) (nth k (l_up L) PInf)).
Proof. exact relaxation_rows. Qed.
Print Assumptions C21_rows_partial.
Example C21_example : kept_rows exL (exLe 0) = [1%nat] /\ kept_rows exL (exLe 1) = [0; 1]%nat /\
  (do L <- extractLinearRelaxation exL (exLe 1) [0] false; Ok (l_rows L, l_lo L)) = Ok ([[(0%nat, 1)]; [(0%nat, 1)]], [MInf; Fin (-5)]).
Proof. repeat split; vm_compute; reflexivity. Qed.

(** ** C57 *)
Definition exG : nlp := mkNlp 1 1 0 [Fin 0] [Fin 10] [MInf] [Fin (4 # 1000000000)] [false] [false] [5] [0]
  (fun x => w0 x) (fun _ => [1]) (fun x => [(1 # 1000000000) * w0 x]) [(0, 0)]%nat (fun _ => [1 # 1000000000]) [] (fun _ _ _ => []).
Definition exGe : oaenv := mkOaenv [Fin 5] [Fin 10] [1] (1 # 100000000) (1 # 100000000000000000) 0 0 true.
Lemma exG_ok : nlp_ok exG /\ env_ok exG exGe.
Proof. split; constructor; simpl; intros; try reflexivity; repeat constructor; discriminate. Qed.
Theorem C57_refuted : ~ C57_full.
Proof.
  intros F. destruct exG_ok as [OK EN].
  destruct (getOuterApproximation exG exGe [5] 0 None 0) as [cs| | | | | | |] eqn:E; try (vm_compute in E; discriminate).
  pose proof (F exG exGe [5] cs OK EN eq_refl E) as R. vm_compute in E. injection E as <-.
  inversion R as [|i c l l' V R' A B]. subst. destruct (V [0]) as [_ U].
  - split; repeat constructor; vm_compute; discriminate.
  - split; vm_compute; try exact Logic.I; discriminate.
  - split; intros _; vm_compute; discriminate.
  - vm_compute in U. exact (U eq_refl).
Qed.
Print Assumptions C57_refuted.
(** A row none of whose coefficients is small gives a cut that is valid everywhere;
    and any cut is valid on the original box if it was built with the original bounds. *)
Theorem C57_global_partial : forall P e x i c, nlp_ok P -> env_ok P e -> length x = p_n P ->
  no_small P (e_tiny e) x i -> e_relax e == 0 -> exact_oa P e x i c ->
  forall y, length y = p_n P -> row_ok P i y -> curved P e x i y -> cut_holds 0 c y.
Proof.
  intros P e x i c OK EN LX NS R X y LY [RL RU] [CU CL]. destruct (X NS R y LY) as (A & B & C & D).
  assert (DU : uses_up P e i \/ ~ uses_up P e i).
  { unfold uses_up. destruct (gup P i); destruct (glow P i); destruct (Qlt_le_dec 0 (nth i (e_duals e) 0)) as [H|H];
      try (right; intros [H1 _]; congruence); try (left; split; [congruence|auto; fail]);
      try (right; intros [_ [H2|H2]]; [congruence|lra]). }
  assert (DL : uses_lo P e i \/ ~ uses_lo P e i).
  { unfold uses_lo. destruct (gup P i); destruct (glow P i); destruct (Qlt_le_dec (nth i (e_duals e) 0) 0) as [H|H];
      try (right; intros [H1 _]; congruence); try (left; split; [congruence|auto; fail]);
      try (right; intros [_ [H2|H2]]; [congruence|lra]). }
  split.
  - destruct DL as [U|U]; [|rewrite (D U); exact Logic.I]. eapply lo_ok_le; [apply (B U)|lra].
    eapply lo_ok_le; [exact RL|]. exact (CL U).
  - destruct DU as [U|U]; [|rewrite (C U); exact Logic.I]. eapply up_ok_le; [apply (A U)|lra].
    eapply up_ok_le; [exact RU|]. exact (CU U).
Qed.
Print Assumptions C57_global_partial.
Theorem C57_root_partial : forall P e x cs, nlp_ok P -> env_ok P e -> length x = p_n P ->
  e_cl e = p_xl P -> e_cu e = p_xu P ->
  getOuterApproximation P e x 0 None 0 = Ok cs -> Forall2 (valid_global P e x) (nonlinear_rows P) cs.
Proof.
  intros P e x cs OK EN LX CL CU H. destruct (oa_rows_spec P e x OK EN LX) as [SP _].
  unfold getOuterApproximation in H. apply bind_ok in H. destruct H as (ss & E & H).
  rewrite filter_none in H. cbn [bind oa_obj Nat.eqb negb andb orb] in H. injection H as <-. rewrite app_nil_r.
  specialize (SP ss E). clear E. induction SP as [|i s l ss R SP IH]; constructor; [|exact IH].
  intros y B. rewrite <- CL, <- CU in B. apply (row_cut_valid P e x i s OK EN R y B).
Qed.
Print Assumptions C57_root_partial.
Example C57_example : no_small exO (e_tiny (exE 0 0)) [1; 0] 0 /\ e_cl (exE 0 0) = p_xl exO /\ e_cu (exE 0 0) = p_xu exO.
Proof.
  split; [|split; reflexivity]. intros c v I.
  cbn in I. repeat (destruct I as [I|I]; [injection I; intros; subst; vm_compute; discriminate|]). destruct I.
Qed.

(** ** C58 *)
Theorem C58_refuted : ~ C58_full.
Proof.
  intros F. destruct (exL_ok 0) as [OK EN].
  destruct (extractLinearRelaxation exL (exLe 0) [0] true) as [L| | | | | | |] eqn:E; try (vm_compute in E; discriminate).
  destruct (F exL (exLe 0) [0] L OK EN eq_refl E [1]) as (z & Z & [_ H] & _).
  - split; repeat constructor; vm_compute; discriminate.
  - intros [|[|i]] H; [split; vm_compute; discriminate..|cbn in H; lia].
  - split; [|split].
    + intros [|[|i]] H L1; [discriminate L1|reflexivity|cbn in H; lia].
    + intros [|[|i]] H L1; [|discriminate L1|cbn in H; lia]. split; intros _; vm_compute; discriminate.
    + reflexivity.
  - vm_compute in E. injection E as <-. destruct z as [|z0 z]; [discriminate Z|]. cbn in Z. injection Z as ->.
    destruct (H 0%nat) as [_ U]; [cbn; lia|]. vm_compute in U. exact (U eq_refl).
Qed.
Print Assumptions C58_refuted.
(** If no row is skipped, and either 0 lies in the box of every column or no
    coefficient of a nonlinear row is small, the relaxation contains every feasible
    point up to negligible coefficients and its objective does not exceed the true one. *)
Theorem C58_contains_partial : forall P e x, nlp_ok P -> env_ok P e -> length x = p_n P ->
  (forall i, (i < p_m P)%nat -> skipped P e i = false) ->
  (zero_in_box e \/ forall i, In i (nonlinear_rows P) -> no_small P (e_tiny e) x i) ->
  exists L, extractLinearRelaxation P e x true = Ok L /\ relaxes P e x (lp_slop P e x) L.
Proof. exact relaxation_contains. Qed.
Print Assumptions C58_contains_partial.
Example C58_example : (forall i, (i < 2)%nat -> skipped exO (exE 0 0) i = false) /\ zero_in_box (exE 0 0) /\
  (do L <- extractLinearRelaxation exO (exE 0 0) [1; 0] true; Ok (length (l_rows L), map Qred (l_obj L))) = Ok (3%nat, [0; 0; 1]).
Proof.
  split; [intros [|[|i]] H; [reflexivity..|lia]|]. split; [split; repeat constructor; vm_compute; discriminate|]. vm_compute. reflexivity.
Qed.
