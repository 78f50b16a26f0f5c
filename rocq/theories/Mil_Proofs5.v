(** Lemmas for the heuristics that solve a MILP: HeuristicDiveMIP. *)
From Verif Require Import Base Arr Nlp Oad_Model Nls_Model Nls_Spec Nls_Proofs Div_Model Div_Spec Div_Proofs Div_Proofs2 Str_Proofs Mil_Model Mil_Spec Mil_Proofs Mil_Proofs2 Mil_Proofs3 Mil_Proofs4.
#[local] Open Scope Q_scope.

Section One.
Variables (sort : sorter) (P : nlp) (vlin : list bool).
Hypotheses (SO : sort_ok sort) (OK : nlp_ok P) (LV : length vlin = p_n P) (SE : single_entries P vlin).
Notation st := (p_jst P).
Notation off := (p_off P).
Notation perm := (sort (matcomp st) (seq 0 (length st))).
Notation lc := (linear_cols vlin).
Notation hl := (map (has_linear st off vlin) (seq 0 (p_m P))).
Definition mcols (jac : list Q) : list (list (nat * Q)) := map (fun c => map (fe st off hl jac) (filter (fun s => Nat.eqb (kc st off s) c) perm)) lc.
Lemma lc_lt (b : list bool) : length b = p_n P -> Forall (fun j => (j < p_n P)%nat) lc.
Proof. intros _. apply Forall_forall. intros j Hj. apply linear_cols_in in Hj. apply nth_in_len in Hj. lia. Qed.
Lemma perm_facts : Permutation (seq 0 (length st)) perm /\ ordered (matcomp st) perm /\ Forall (fun s => (s < length st)%nat) perm.
Proof. destruct (SO (matcomp st) (seq 0 (length st)) (strict_weak_matcomp _)) as (PM & OR). split; [exact PM|]. split; [exact OR|]. apply perm_range, PM. Qed.
Lemma lin_hl c s : (s < length st)%nat -> nth c vlin false = true -> kc st off s = c -> nth (kr st off s) hl false = true.
Proof.
  intros Hs Hc Es. rewrite hl_nth. pose proof (range _ _ _ _ (ok_jst P OK) s Hs) as RG. apply andb_true_iff. split; [apply Nat.ltb_lt; unfold kr; lia|].
  apply (has_linear_iff P vlin _ OK). exists (nth s st (0, 0)%nat), c. unfold kr, kc in *. repeat split; [apply nth_In; exact Hs|lia|lia|exact Hc].
Qed.
Lemma cond_ok : Forall (fun c => (c < p_n P)%nat /\ Forall (fun s => kc st off s = c -> nth (kr st off s) hl false = true) perm /\
    NoDup (map (fun s => rank hl (kr st off s)) (filter (fun s => Nat.eqb (kc st off s) c) perm))) lc.
Proof.
  destruct perm_facts as (PM & OR & FP). apply Forall_forall. intros c Hc. apply linear_cols_in in Hc. pose proof (nth_in_len _ _ Hc) as Lc.
  split; [lia|]. rewrite Forall_forall in FP. split.
  - apply Forall_forall. intros s Hs Es. eapply lin_hl; [exact (FP _ Hs)|exact Hc|exact Es].
  - apply NoDup_map_inj.
    + intros a b Ha Hb E. apply filter_In in Ha, Hb. destruct Ha as (Ha & Ka), Hb as (Hb & Kb). apply Nat.eqb_eq in Ka, Kb.
      specialize (FP a Ha) as La. specialize (FP b Hb) as Lb. apply rank_inj in E; [|eapply lin_hl; eassumption|eapply lin_hl; eassumption].
      pose proof (range _ _ _ _ (ok_jst P OK) a La) as Ra. pose proof (range _ _ _ _ (ok_jst P OK) b Lb) as Rb. unfold kr, kc in *.
      eapply (nodup_filter_inj _ st (0, 0)%nat SE); [exact La|exact Lb|rewrite Ka; exact Hc|].
      destruct (nth a st (0, 0)%nat) as (a1, a2), (nth b st (0, 0)%nat) as (b1, b2). cbn [fst snd] in *. f_equal; lia.
    + apply NoDup_filter. eapply Permutation_NoDup; [exact PM|apply seq_NoDup].
Qed.
Lemma dm_milp_eq b xs x : length xs = p_n P -> length x = p_n P -> length (k_lo b) = p_n P -> length (k_up b) = p_n P ->
  let x0 := with_linear vlin x [] in
  dm_milp sort P vlin b xs x = Ok (x0, mkLmilp (mcols (p_jv P xs)) (map (fun j => nth j (p_gf P x0) 0) lc) (map (fun j => nth j (k_lo b) MInf) lc) (map (fun j => nth j (k_up b) PInf) lc)
     (shift_rows (lin_index 0 hl) (p_gl P) (p_g P x0)) (shift_rows (lin_index 0 hl) (p_gu P) (p_g P x0)) (map (fun j => nth j (p_int P) false) lc)).
Proof.
  intros Ls Lx L1 L2 x0. unfold dm_milp. rewrite positions_true. destruct perm_facts as (PM & OR & FP).
  destruct (dm_packed st off (p_n P) (p_m P) (ok_jst P OK) perm FP OR) as (A & EA & RW & LS & LL & CC). rewrite EA. cbn [bind].
  assert (FL : Forall (fun j => (j < p_n P)%nat) lc) by exact (lc_lt vlin LV).
  destruct (set_all_ok (fun _ => 0) lc x) as (x' & E' & L' & G'); [rewrite Lx; exact FL|]. rewrite E'. cbn [bind].
  assert (x' = x0).
  { apply nth_eq; [unfold x0; rewrite with_linear_length; exact L'|]. intros j. rewrite G'. unfold x0. rewrite with_linear_zero by lia.
    destruct (existsb (Nat.eqb j) lc) eqn:EX.
    - apply existsb_exists in EX. destruct EX as (k & K1 & K2). apply Nat.eqb_eq in K2. subst k. apply linear_cols_in in K1. rewrite K1. reflexivity.
    - destruct (nth j vlin false) eqn:EV; [|reflexivity]. exfalso. apply linear_cols_in in EV. assert (Y : existsb (Nat.eqb j) lc = true) by (apply existsb_exists; exists j; split; [exact EV|apply Nat.eqb_refl]). congruence. }
  subst x'. assert (Lx0 : length x0 = p_n P) by congruence.
  rewrite (reads_ok (p_gf P x0) 0) by (rewrite (ok_gf P OK x0 Lx0); exact FL). cbn [bind].
  rewrite (reads_ok (k_lo b) MInf) by (rewrite L1; exact FL). cbn [bind]. rewrite (reads_ok (k_up b) PInf) by (rewrite L2; exact FL). cbn [bind].
  rewrite (reads_ok (p_int P) false) by (rewrite (ok_int P OK); exact FL). cbn [bind].
  unfold map_rows. rewrite (dm_columns_ok st off (p_n P) (p_m P) (ok_jst P OK) hl) with (1 := eq_trans (map_length _ _) (seq_length _ _)); try assumption.
  - reflexivity.
  - exact (ok_jv P OK xs Ls).
  - exact cond_ok.
Qed.
Lemma mcols_row jac i y : length jac = length st -> nth i hl false = true ->
  dot (map (fun c => coef c (rank hl i)) (mcols jac)) y == dot (map (dense off st jac i) lc) y.
Proof.
  intros LJ Hi. apply dot_ext. unfold mcols. rewrite map_map. apply F2_map. intros c Hc. destruct perm_facts as (PM & OR & FP).
  apply (dm_coef st off (p_n P) (p_m P) (ok_jst P OK)); [rewrite map_length, seq_length; reflexivity|exact LJ|exact PM| |exact Hi].
  pose proof cond_ok as CO. rewrite Forall_forall in CO. apply CO, Hc.
Qed.
Lemma dm_restriction b xs x : length xs = p_n P -> length x = p_n P -> length (k_lo b) = p_n P -> length (k_up b) = p_n P -> affine P vlin xs x ->
  exists m, dm_milp sort P vlin b xs x = Ok (with_linear vlin x [], m) /\ restriction P vlin b x m.
Proof.
  intros Ls Lx L1 L2 AF. eexists. split; [apply dm_milp_eq; assumption|].
  set (x0 := with_linear vlin x []). assert (Lx0 : length x0 = p_n P) by (unfold x0; rewrite with_linear_length; exact Lx).
  assert (Lh : length hl = p_m P) by (rewrite map_length, seq_length; reflexivity).
  destruct (shift_rows_ok hl (p_gl P) (p_g P x0) 0) as (SL1 & SL2); [rewrite Lh; apply (ok_gl P OK)|rewrite Lh; apply (ok_g P OK _ Lx0)|].
  destruct (shift_rows_ok hl (p_gu P) (p_g P x0) 0) as (SU1 & SU2); [rewrite Lh; apply (ok_gu P OK)|rewrite Lh; apply (ok_g P OK _ Lx0)|].
  split; [reflexivity|]. split.
  - intros y. unfold lfeasible. cbn [l_cols l_lb l_ub l_rl l_ru]. unfold mcols at 1. rewrite map_length.
    assert (ROW : forall i, length y = length lc -> (i < p_m P)%nat -> touches P vlin i ->
      (lo_ok (nth (rank hl i) (shift_rows (lin_index 0 hl) (p_gl P) (p_g P x0)) MInf) (dot (map (fun c => coef c (rank hl i)) (mcols (p_jv P xs))) y) <-> lo_ok (nth i (p_gl P) MInf) (nth i (p_g P (with_linear vlin x y)) 0)) /\
      (up_ok (nth (rank hl i) (shift_rows (lin_index 0 hl) (p_gu P) (p_g P x0)) PInf) (dot (map (fun c => coef c (rank hl i)) (mcols (p_jv P xs))) y) <-> up_ok (nth i (p_gu P) PInf) (nth i (p_g P (with_linear vlin x y)) 0))).
    { intros i Ly Hi To. assert (Hh : nth i hl false = true).
      { rewrite hl_nth. apply andb_true_iff. split; [apply Nat.ltb_lt, Hi|]. apply (has_linear_iff P vlin i OK), To. }
      rewrite (SL2 i MInf Hh), (SU2 i PInf Hh), lo_shift, up_shift. destruct (AF y Ly) as (AG & _). specialize (AG i Hi). fold x0 in AG.
      assert (E : nth i (p_g P x0) 0 + dot (map (fun c => coef c (rank hl i)) (mcols (p_jv P xs))) y == nth i (p_g P (with_linear vlin x y)) 0).
      { rewrite AG, mcols_row; [reflexivity|exact (ok_jv P OK xs Ls)|exact Hh]. }
      split; [apply lo_eq, E|apply up_eq, E]. }
    split.
    + intros (Ly & IB & RR). split; [exact Ly|]. split; [apply bounds_iff; assumption|]. intros i Hi To.
      assert (Hh : nth i hl false = true). { rewrite hl_nth. apply andb_true_iff. split; [apply Nat.ltb_lt, Hi|]. apply (has_linear_iff P vlin i OK), To. }
      assert (Hk : (rank hl i < length (shift_rows (lin_index 0 hl) (p_gl P) (p_g P x0)))%nat) by (rewrite SL1; apply rank_lt, Hh).
      specialize (RR _ Hk). destruct (ROW i Ly Hi To) as (R1 & R2). unfold lrow in RR. cbn [l_cols] in RR. split; [apply R1, RR|apply R2, RR].
    + intros (Ly & IB & RR). split; [exact Ly|]. split; [apply bounds_iff; assumption|]. intros k Hk. unfold lrow. cbn [l_cols]. fold x0 in Hk. rewrite SL1 in Hk.
      destruct (rank_surj hl k Hk) as (i & I1 & I2 & I3). rewrite Lh in I1. subst k.
      assert (To : touches P vlin i). { rewrite hl_nth in I2. apply andb_true_iff in I2. destruct I2 as (_ & I2). apply (has_linear_iff P vlin i OK), I2. }
      destruct (ROW i Ly I1 To) as (R1 & R2). specialize (RR i I1 To). split; [apply R1, RR|apply R2, RR].
  - intros y y' Ly Ly'. cbn [l_obj]. destruct (AF y Ly) as (_ & F1). destruct (AF y' Ly') as (_ & F2). fold x0 in F1, F2. rewrite F1, F2. fold x0. ring.
Qed.
End One.

(** A duplicate entry. *)
Definition Pdup : nlp := mkNlp 1 1 0 [Fin 0] [Fin 1] [MInf] [Fin 1] [true] [true] [0] [0]
  (fun x => nth 0 x 0) (fun _ => [1]) (fun x => [2 * nth 0 x 0]) [(0, 0); (0, 0)]%nat (fun _ => [1; 1]) [] (fun _ _ _ => []).
Lemma Pdup_ok : nlp_ok Pdup.
Proof. constructor; intros; cbn; try reflexivity; repeat constructor; cbn; lia. Qed.
Lemma Pdup_affine : affine Pdup [true] [1 # 2] [1 # 2].
Proof.
  intros y Ly. change (length (linear_cols [true])) with 1%nat in Ly. destruct y as [|v [|w y]]; try discriminate. split.
  - intros i Hi. cbn [p_m Pdup] in Hi. assert (i = O) by lia. subst i. unfold dot. cbn. ring.
  - unfold dot. cbn. ring.
Qed.
Lemma C90_dup : ~ C90_full.
Proof.
  intros H. destruct (H isort Pdup [true] (mkCols [Fin 0] [Fin 1]) [1 # 2] [1 # 2] isort_ok Pdup_ok eq_refl eq_refl eq_refl eq_refl eq_refl Pdup_affine Logic.I) as (m & E & _).
  vm_compute in E. discriminate.
Qed.
