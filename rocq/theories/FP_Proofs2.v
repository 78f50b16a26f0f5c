From Verif Require Import Base Arr Nlp LinObj_Spec LinObj_Proofs FP_Model FP_Spec FP_Proofs.
#[local] Open Scope Q_scope.

Lemma two_blits_at {A} (l1 l2 : list A) k1 k2 k3 : length l1 = k1 -> length l2 = k2 -> k3 = k1 ->
  (do a1 <- ablit 0 l1 (fresh (k1 + k2)); ablit k3 l2 a1) = Ok (map Some (l1 ++ l2)).
Proof. intros L1 L2 ->. rewrite map_app. apply two_blits; assumption. Qed.

Lemma combine_app2 {A B} (a1 a2 : list A) (b1 b2 : list B) : length a1 = length b1 ->
  combine (a1 ++ a2) (b1 ++ b2) = combine a1 b1 ++ combine a2 b2.
Proof. revert b1; induction a1; intros [|b b1] L; simpl in *; try discriminate; [reflexivity|]. f_equal. auto. Qed.
Lemma combine_repeat (r : nat) (l : list nat) : combine (repeat r (length l)) l = map (fun k => (r, k)) l.
Proof. induction l; simpl; [reflexivity|]. f_equal. assumption. Qed.

Section S.
Variables (P : nlp) (F : fp).
Hypotheses (OK : nlp_ok P) (FO : fp_ok P F).
Notation off := (p_off P).

Lemma base_row_zero vs i j : (p_m P <= i)%nat -> dense off (p_jst P) vs i j == 0.
Proof.
  intros L. apply dense_zero. intros rc HI. pose proof (ok_jst P OK) as Fj. rewrite Forall_forall in Fj.
  apply Fj in HI. lia.
Qed.
Lemma dense_other_row r cs vs i j : r <> (i + off)%nat -> dense off (map (fun k => (r, k)) cs) vs i j == 0.
Proof. intros N. apply dense_zero. intros rc HI. apply in_map_iff in HI. destruct HI as (k & <- & _). left. exact N. Qed.
Lemma dense_inds i j inds vals :
  dense off (map (fun k => ((i + off)%nat, k)) (map (fun k => (k + off)%nat) inds))
        (map (fun v => if Qle_bool v (1 # 10) then 1 else -(1)) vals) i j ==
  qsum (map (fun p => if Nat.eqb (fst p) j
                      then if Qle_bool (snd p) (1 # 10) then 1 else -(1) else 0) (combine inds vals)).
Proof.
  unfold dense. revert vals; induction inds as [|k l IH]; intros [|v vals]; simpl; try reflexivity.
  rewrite Nat.eqb_refl. cbn [andb].
  replace (Nat.eqb (k + off) (j + off)) with (Nat.eqb k j).
  - rewrite IH. reflexivity.
  - destruct (Nat.eqb_spec k j), (Nat.eqb_spec (k + off) (j + off)); try reflexivity; lia.
Qed.

(** The cut row block. *)
Definition cut_st (r : nat) : list (nat * nat) := map (fun k => (r, k)) (seq off (p_n P)).
Lemma cut_block g i j r : length g = p_n P -> r = (i + off)%nat -> dense off (cut_st r) g i j == at_ g j.
Proof.
  intros L ->. unfold cut_st. rewrite <- L, dense_row, Nat.eqb_refl.
  destruct (Nat.leb_spec off (j + off)); [|lia]. replace (j + off - off)%nat with j by lia. reflexivity.
Qed.

Lemma lb_inds_ok : lb_inds F = Ok (f_inds F).
Proof.
  unfold lb_inds. destruct FO as (LV & _). rewrite LV, Nat.leb_refl, firstn_all. reflexivity.
Qed.

Definition good_rows : Prop := f_cut F && f_lb F = false \/ p_jst P = [] \/ f_vals F = [].

Lemma three_blits {A} (l1 l2 l3 : list A) k : k = length l1 -> (l1 = [] \/ l3 = []) ->
  (do a1 <- ablit 0 l1 (fresh (length l1 + (length l2 + length l3)));
   do a2 <- ablit k l2 a1; ablit (k + (length l1 + length l2)) l3 a2) = Ok (map Some (l1 ++ l2 ++ l3)).
Proof.
  intros -> D. rewrite !fresh_app. rewrite ablit0_app by apply fresh_length. cbn [bind].
  replace (length l1) with (length (@map A _ Some l1)) at 1 by apply map_length.
  rewrite ablit_app by apply fresh_length. cbn [bind]. destruct D as [-> | ->].
  - simpl app. rewrite ablit_tail; [rewrite !map_app; reflexivity| |apply fresh_length].
    rewrite map_length. reflexivity.
  - cbn [ablit length]. rewrite !map_app. reflexivity.
Qed.

Lemma jac_ok x : length x = p_n P -> good_rows ->
  exists ir jc vs g,
    fp_jac_struct P F (fresh (fp_nnz_jac P F)) (fresh (fp_nnz_jac P F)) = Ok (map Some ir, map Some jc) /\
    fp_jac_vals P F x (fresh (fp_nnz_jac P F)) = Ok (map Some vs) /\
    length vs = fp_nnz_jac P F /\ length ir = fp_nnz_jac P F /\ length jc = fp_nnz_jac P F /\
    fp_eval_grad_f P F x = Ok g /\
    Forall (fun rc => off <= fst rc /\ fst rc < fp_m P F + off /\
                      off <= snd rc /\ snd rc < p_n P + off)%nat (combine ir jc) /\
    forall i j, dense off (combine ir jc) vs i j == full_jac P F x g i j.
Proof.
  intros L G. destruct (gradient_ok P F OK FO x L) as (g & EG & LG & _).
  pose proof (ok_jv P OK x L) as LJ. destruct FO as (LV & FI & _).
  pose proof (seq_shift_off off (p_n P)) as SS.
  unfold fp_jac_struct, fp_jac_vals, fp_nnz_jac, fp_m, full_jac, xrows. rewrite lb_inds_ok, EG, SS.
  assert (BR : Forall (fun rc => off <= fst rc /\ fst rc < p_m P + off /\
                      off <= snd rc /\ snd rc < p_n P + off)%nat (p_jst P)) by apply (ok_jst P OK).
  assert (FG : firstn (p_n P) g = g) by (apply firstn_all2; lia). 
  assert (CR : forall r m', (off <= r)%nat -> (r < m')%nat ->
     Forall (fun rc => off <= fst rc /\ fst rc < m' /\ off <= snd rc /\ snd rc < p_n P + off)%nat
       (map (fun k => (r, k)) (seq off (p_n P)))).
  { intros r m' H1 H2. apply Forall_forall. intros rc HI. apply in_map_iff in HI. destruct HI as (k & <- & HI).
    apply in_seq in HI. simpl. lia. }
  assert (LR : forall r m', (off <= r)%nat -> (r < m')%nat ->
     Forall (fun rc => off <= fst rc /\ fst rc < m' /\ off <= snd rc /\ snd rc < p_n P + off)%nat
       (map (fun k => (r, k)) (map (fun k => (k + off)%nat) (f_inds F)))).
  { intros r m' H1 H2. apply Forall_forall. intros rc HI. apply in_map_iff in HI. destruct HI as (k & <- & HI).
    apply in_map_iff in HI. destruct HI as (k' & <- & HI). rewrite Forall_forall in FI. apply FI in HI. simpl. lia. }
  assert (BW : forall m', (p_m P <= m')%nat -> Forall (fun rc => off <= fst rc /\ fst rc < m' + off /\
                      off <= snd rc /\ snd rc < p_n P + off)%nat (p_jst P)).
  { intros m' Hm. eapply Forall_impl; [|exact BR]. intros; simpl in *; lia. }
  assert (LS : length (lb_signs F) = length (f_vals F)) by (unfold lb_signs; apply map_length).
  destruct (f_cut F) eqn:EC, (f_lb F) eqn:EL; cbn [andb app map].
  - (* both *)
    unfold good_rows in G. rewrite EC, EL in G. simpl in G. destruct G as [G|G]; [discriminate|].
    set (nj := length (p_jst P)). set (ni := length (f_vals F)).
    replace (nj + (p_n P + ni) - p_n P - ni)%nat with nj by lia.
    replace (nj + (p_n P + ni) - ni)%nat with (nj + p_n P)%nat by lia.
    replace (p_m P + 2 - 2)%nat with (p_m P) by lia. replace (p_m P + 2 - 1)%nat with (p_m P + 1)%nat by lia.
    pose (R1 := repeat (p_m P + off)%nat (p_n P)). pose (R2 := repeat (p_m P + 1 + off)%nat ni).
    pose proof (three_blits (map fst (p_jst P)) R1 R2 nj) as H1.
    pose proof (three_blits (map snd (p_jst P)) (seq off (p_n P)) (map (fun i => (i + off)%nat) (f_inds F)) nj) as H2.
    pose proof (three_blits (p_jv P x) g (lb_signs F) nj) as H3.
    unfold R1, R2 in H1. rewrite !map_length, !repeat_length in H1.
    rewrite !map_length, seq_length in H2. rewrite <- LV in H2. rewrite LJ, LG, LS in H3.
    fold nj ni in H1, H2, H3.
    assert (D1 : map fst (p_jst P) = [] \/ repeat (p_m P + 1 + off)%nat ni = []).
    { destruct G as [-> | G]; [left; reflexivity|right; unfold ni; rewrite G; reflexivity]. }
    assert (D2 : map snd (p_jst P) = [] \/ map (fun i => (i + off)%nat) (f_inds F) = []).
    { destruct G as [-> | G]; [left; reflexivity|right].
      rewrite G in LV. destruct (f_inds F); [reflexivity|discriminate]. }
    assert (D3 : p_jv P x = [] \/ lb_signs F = []).
    { destruct G as [G | G]; [left; rewrite G in LJ; destruct (p_jv P x); [reflexivity|discriminate]
      |right; unfold lb_signs; rewrite G; reflexivity]. }
    specialize (H1 eq_refl D1). specialize (H2 eq_refl D2). specialize (H3 eq_refl D3).
    apply bind_ok in H1. destruct H1 as (a1 & E1 & H1). apply bind_ok in H1. destruct H1 as (a2 & E1' & H1).
    apply bind_ok in H2. destruct H2 as (b1 & E2 & H2). apply bind_ok in H2. destruct H2 as (b2 & E2' & H2).
    apply bind_ok in H3. destruct H3 as (c1 & E3 & H3). apply bind_ok in H3. destruct H3 as (c2 & E3' & H3).
    exists (map fst (p_jst P) ++ R1 ++ R2),
           (map snd (p_jst P) ++ seq off (p_n P) ++ map (fun i => (i + off)%nat) (f_inds F)),
           (p_jv P x ++ g ++ lb_signs F), g.
    rewrite E1. cbn [bind]. rewrite E2. cbn [bind]. rewrite E1'. cbn [bind]. rewrite E2'. cbn [bind].
    unfold R1, R2. rewrite H1. cbn [bind]. rewrite H2. split; [reflexivity|].
    rewrite E3. cbn [bind]. rewrite FG, E3'. cbn [bind]. split; [exact H3|].
    split; [rewrite !app_length; lia|]. split; [rewrite !app_length, map_length, !repeat_length; lia|].
    split; [rewrite !app_length, !map_length, seq_length; lia|]. split; [reflexivity|].
    rewrite combine_app2 by (rewrite !map_length; reflexivity). rewrite combine_fst_snd.
    rewrite combine_app2 by (rewrite repeat_length, seq_length; reflexivity).
    replace (repeat (p_m P + off)%nat (p_n P)) with (repeat (p_m P + off)%nat (length (seq off (p_n P))))
      by (rewrite seq_length; reflexivity). rewrite combine_repeat.
    replace (repeat (p_m P + 1 + off)%nat ni) with
      (repeat (p_m P + 1 + off)%nat (length (map (fun i => (i + off)%nat) (f_inds F))))
      by (rewrite map_length; unfold ni; congruence). rewrite combine_repeat.
    split.
    + apply Forall_app. split; [apply BW; lia|]. apply Forall_app. split; [apply CR; lia|apply LR; lia].
    + intros i j. rewrite dense_app by (symmetry; exact LJ).
      rewrite dense_app by (rewrite map_length, seq_length; congruence).
      destruct (Nat.ltb_spec i (p_m P)).
      * rewrite !dense_other_row by lia. ring.
      * rewrite base_row_zero by lia. destruct (i - p_m P)%nat as [|[|q]] eqn:Eq; cbn [nth_error].
        { fold (cut_st (p_m P + off)). rewrite cut_block by (auto; lia). rewrite dense_other_row by lia. simpl. ring. }
        { rewrite dense_other_row by lia. replace (p_m P + 1)%nat with i by lia. unfold lb_signs.
          rewrite dense_inds. simpl. ring. }
        { rewrite !dense_other_row by lia. destruct q; simpl; ring. }
  - (* cutoff only *)
    set (nj := length (p_jst P)).
    replace (nj + p_n P - p_n P)%nat with nj by lia. replace (p_m P + 1 - 1)%nat with (p_m P) by lia.
    pose proof (two_blits_at (map fst (p_jst P)) (repeat (p_m P + off)%nat (p_n P)) nj (p_n P) nj
      (map_length _ _) (repeat_length _ _) eq_refl) as H1.
    pose proof (two_blits_at (map snd (p_jst P)) (seq off (p_n P)) nj (p_n P) nj
      (map_length _ _) (seq_length _ _) eq_refl) as H2.
    pose proof (two_blits_at (p_jv P x) g nj (p_n P) nj LJ LG eq_refl) as H3.
    apply bind_ok in H1. destruct H1 as (a1 & E1 & H1). apply bind_ok in H2. destruct H2 as (b1 & E2 & H2).
    apply bind_ok in H3. destruct H3 as (c1 & E3 & H3).
    do 3 eexists. exists g. rewrite E1, E2, E3. cbn [bind]. rewrite H1, H2. cbn [bind]. split; [reflexivity|].
    rewrite FG. split; [exact H3|].
    split; [rewrite !app_length; lia|]. split; [rewrite !app_length, map_length, !repeat_length; lia|].
    split; [rewrite !app_length, !map_length, seq_length; lia|]. split; [reflexivity|].
    rewrite combine_app2 by (rewrite !map_length; reflexivity). rewrite combine_fst_snd.
    replace (repeat (p_m P + off)%nat (p_n P)) with (repeat (p_m P + off)%nat (length (seq off (p_n P))))
      by (rewrite seq_length; reflexivity). rewrite combine_repeat.
    split.
    + apply Forall_app. split; [apply BW; lia|apply CR; lia].
    + intros i j. rewrite dense_app by (symmetry; exact LJ).
      destruct (Nat.ltb_spec i (p_m P)).
      * rewrite !dense_other_row by lia. ring.
      * rewrite base_row_zero by lia. destruct (i - p_m P)%nat as [|q] eqn:Eq; cbn [nth_error].
        { fold (cut_st (p_m P + off)). rewrite cut_block by (auto; lia). simpl. ring. }
        { rewrite !dense_other_row by lia. destruct q; simpl; ring. }
  - (* local branching only *)
    set (nj := length (p_jst P)). set (ni := length (f_vals F)).
    replace (nj + ni - ni)%nat with nj by lia. replace (p_m P + 1 - 1)%nat with (p_m P) by lia.
    pose proof (two_blits_at (map fst (p_jst P)) (repeat (p_m P + off)%nat ni) nj ni nj
      (map_length _ _) (repeat_length _ _) eq_refl) as H1.
    pose proof (two_blits_at (map snd (p_jst P)) (map (fun i => (i + off)%nat) (f_inds F)) nj ni nj
      (map_length _ _) (eq_trans (map_length _ _) (eq_sym LV)) eq_refl) as H2.
    pose proof (two_blits_at (p_jv P x) (lb_signs F) nj ni nj LJ LS eq_refl) as H3.
    apply bind_ok in H1. destruct H1 as (a1 & E1 & H1). apply bind_ok in H2. destruct H2 as (b1 & E2 & H2).
    apply bind_ok in H3. destruct H3 as (c1 & E3 & H3).
    do 3 eexists. exists g. rewrite E1, E2, E3. cbn [bind]. rewrite H1, H2. cbn [bind]. split; [reflexivity|].
    split; [exact H3|].
    split; [rewrite !app_length; lia|]. split; [rewrite !app_length, map_length, !repeat_length; lia|].
    split; [rewrite !app_length, !map_length; lia|]. split; [reflexivity|].
    rewrite combine_app2 by (rewrite !map_length; reflexivity). rewrite combine_fst_snd.
    replace (repeat (p_m P + off)%nat ni) with
      (repeat (p_m P + off)%nat (length (map (fun i => (i + off)%nat) (f_inds F))))
      by (rewrite map_length; unfold ni; congruence). rewrite combine_repeat.
    split.
    + apply Forall_app. split; [apply BW; lia|apply LR; lia].
    + intros i j. rewrite dense_app by (symmetry; exact LJ).
      destruct (Nat.ltb_spec i (p_m P)).
      * rewrite !dense_other_row by lia. ring.
      * rewrite base_row_zero by lia. destruct (i - p_m P)%nat as [|q] eqn:Eq; cbn [nth_error].
        { replace (p_m P) with i by lia. unfold lb_signs. rewrite dense_inds. simpl. ring. }
        { rewrite !dense_other_row by lia. destruct q; simpl; ring. }
  - exists (map fst (p_jst P)), (map snd (p_jst P)), (p_jv P x), g.
    rewrite (blit_all _ _ (map_length fst (p_jst P))), (blit_all _ _ (map_length snd (p_jst P))), (blit_all _ _ LJ).
    cbn [bind]. split; [reflexivity|]. split; [reflexivity|]. split; [exact LJ|].
    split; [apply map_length|]. split; [apply map_length|]. split; [reflexivity|]. rewrite combine_fst_snd.
    split; [exact BR|]. intros i j. destruct (Nat.ltb_spec i (p_m P)); [reflexivity|].
    rewrite base_row_zero by lia. destruct (i - p_m P)%nat; reflexivity.
Qed.

(** With both extra rows, some integer variable and some original Jacobian
    entry, the structure call writes outside its arrays. *)
Lemma jac_oob : f_cut F = true -> f_lb F = true -> p_jst P <> [] -> f_vals F <> [] ->
  fp_jac_struct P F (fresh (fp_nnz_jac P F)) (fresh (fp_nnz_jac P F)) = OutOfBounds.
Proof.
  intros EC EL NJ NV. unfold fp_jac_struct, fp_nnz_jac. rewrite EC, EL, lb_inds_ok. cbn [andb].
  set (nj := length (p_jst P)). set (ni := length (f_vals F)). set (m := fp_m P F).
  replace (nj + (p_n P + ni) - p_n P - ni)%nat with nj by lia.
  replace (nj + (p_n P + ni) - ni)%nat with (nj + p_n P)%nat by lia.
  rewrite !fresh_app. rewrite !ablit0_app by (rewrite fresh_length; symmetry; apply map_length). cbn [bind].
  replace nj with (length (map Some (map fst (p_jst P)))) at 1 by (rewrite !map_length; reflexivity).
  rewrite ablit_app by (rewrite fresh_length; symmetry; apply repeat_length). cbn [bind].
  replace nj with (length (map Some (map snd (p_jst P)))) at 1 by (rewrite !map_length; reflexivity).
  rewrite ablit_app by (rewrite fresh_length, map_length; symmetry; apply seq_length). cbn [bind].
  rewrite ablit_oob; [reflexivity| |].
  - unfold ni. destruct (f_vals F); [congruence|discriminate].
  - rewrite !app_length, !map_length, !repeat_length, fresh_length. fold nj.
    assert (0 < nj)%nat by (unfold nj; destruct (p_jst P); [congruence|simpl; lia]). lia.
Qed.

(** Hessian: the exact value the code gives. *)
Definition code_hess (Hf : mat) (Hg : list mat) (s : Q) (lam : list Q) : mat := fun i j =>
  (s * (1 - f_lam F) * f_sig F + (if f_cut F then at_ lam (p_m P) else 0)) * Hf i j +
  qsum (map (fun p => fst p * snd p i j) (combine (firstn (p_m P) lam) Hg)) +
  (if f_use F && Nat.eqb (f_norm F) 2 then 2 * f_scale F * f_lam F * s * dcount (f_inds F) i j else 0).

Lemma dense_diag c inds i j :
  dense off (map (fun k => ((k + off)%nat, (k + off)%nat)) inds) (map (fun _ => c) inds) i j ==
  c * dcount inds i j.
Proof.
  unfold dense, dcount. induction inds as [|k l IH]; cbn [map combine qsum count_occ fst snd].
  - destruct (Nat.eqb i j); simpl; ring.
  - rewrite IH. destruct (Nat.eq_dec k i) as [e|N].
    + subst k. rewrite Nat.eqb_refl. cbn [andb]. destruct (Nat.eqb_spec i j).
      * subst j. rewrite Nat.eqb_refl. rewrite Nat2Z.inj_succ. unfold Z.succ. rewrite inject_Z_plus. simpl. ring.
      * destruct (Nat.eqb_spec (i + off) (j + off)); [lia|]. ring.
    + destruct (Nat.eqb_spec (k + off) (i + off)); [lia|]. cbn [andb]. ring.
Qed.
Lemma map_fst_diag : map fst (map (fun k : nat => ((k + off)%nat, (k + off)%nat)) (f_inds F)) = map (fun k => (k + off)%nat) (f_inds F).
Proof. rewrite map_map. reflexivity. Qed.
Lemma map_snd_diag : map snd (map (fun k : nat => ((k + off)%nat, (k + off)%nat)) (f_inds F)) = map (fun k => (k + off)%nat) (f_inds F).
Proof. rewrite map_map. reflexivity. Qed.

Lemma hess_ok x s lam Hf Hg : length x = p_n P -> length lam = fp_m P F ->
  (forall s l i j, length l = p_m P -> dense off (p_hst P) (p_hv P x s l) i j == lag s Hf l Hg i j) ->
  exists ir jc vs,
    fp_hess_struct P F (fresh (fp_nnz_h P F)) (fresh (fp_nnz_h P F)) = Ok (map Some ir, map Some jc) /\
    fp_hess_vals P F x s lam (fresh (fp_nnz_h P F)) = Ok (map Some vs) /\
    length vs = fp_nnz_h P F /\
    forall i j, dense off (combine ir jc) vs i j == code_hess Hf Hg s lam i j.
Proof.
  intros L LL HH. rewrite fp_m_rows in LL.
  assert (X : exists s' ml,
     (if f_cut F && f_lb F then do c <- rd (fp_m P F - 2) lam; Ok (s * (1 - f_lam F) * f_sig F + c, (fp_m P F - 2)%nat)
      else if f_cut F then do c <- rd (fp_m P F - 1) lam; Ok (s * (1 - f_lam F) * f_sig F + c, (fp_m P F - 1)%nat)
      else if f_lb F then Ok (s * (1 - f_lam F) * f_sig F, (fp_m P F - 1)%nat)
      else Ok (s * (1 - f_lam F) * f_sig F, fp_m P F)) = Ok (s', ml) /\ ml = p_m P /\
      s' == s * (1 - f_lam F) * f_sig F + (if f_cut F then at_ lam (p_m P) else 0)).
  { unfold fp_m. unfold xrows in LL. destruct (f_cut F), (f_lb F); cbn [andb app length] in *.
    - rewrite rd_ok by lia. cbn [bind]. do 2 eexists. split; [reflexivity|]. split; [lia|].
      replace (p_m P + 2 - 2)%nat with (p_m P) by lia. reflexivity.
    - rewrite rd_ok by lia. cbn [bind]. do 2 eexists. split; [reflexivity|]. split; [lia|].
      replace (p_m P + 1 - 1)%nat with (p_m P) by lia. reflexivity.
    - do 2 eexists. split; [reflexivity|]. split; [lia|]. ring.
    - do 2 eexists. split; [reflexivity|]. split; [lia|]. ring. }
  destruct X as (s' & ml & EX & -> & ES).
  assert (LF : length (firstn (p_m P) lam) = p_m P) by (rewrite firstn_length; lia).
  pose proof (ok_hv P OK x s' _ L LF) as LH.
  unfold fp_hess_struct, fp_hess_vals. rewrite EX. cbn [bind]. unfold fp_nnz_h, code_hess.
  destruct FO as (LV & FI & _).
  destruct (f_use F && Nat.eqb (f_norm F) 2) eqn:EU.
  - rewrite LV. set (nh := length (p_hst P)). set (ni := length (f_inds F)).
    replace (nh + ni - ni)%nat with nh by lia.
    pose proof (two_blits_at (map fst (p_hst P)) (map (fun i => (i + off)%nat) (f_inds F)) nh ni nh
      (map_length _ _) (map_length _ _) eq_refl) as H1.
    pose proof (two_blits_at (map snd (p_hst P)) (map (fun i => (i + off)%nat) (f_inds F)) nh ni nh
      (map_length _ _) (map_length _ _) eq_refl) as H2.
    pose proof (two_blits_at (p_hv P x s' (firstn (p_m P) lam)) (map (fun _ => 2 * f_scale F * f_lam F * s) (f_inds F)) nh ni nh
      LH (map_length _ _) eq_refl) as H3.
    apply bind_ok in H1. destruct H1 as (a1 & E1 & H1). apply bind_ok in H2. destruct H2 as (b1 & E2 & H2).
    apply bind_ok in H3. destruct H3 as (c1 & E3 & H3).
    do 3 eexists. rewrite E1, E2, E3. cbn [bind]. rewrite H1, H2. split; [reflexivity|]. split; [exact H3|].
    split; [rewrite app_length, map_length; unfold nh, ni; lia|].
    intros i j. rewrite combine_app2 by (rewrite !map_length; reflexivity). rewrite combine_fst_snd.
    rewrite <- map_fst_diag at 1. rewrite <- map_snd_diag. rewrite combine_fst_snd.
    rewrite dense_app by (symmetry; exact LH). rewrite dense_diag. rewrite HH by exact LF.
    unfold lag. rewrite ES. ring.
  - rewrite (blit_all _ _ (map_length fst (p_hst P))), (blit_all _ _ (map_length snd (p_hst P))), (blit_all _ _ LH).
    do 3 eexists. split; [reflexivity|]. split; [reflexivity|]. split; [exact LH|].
    intros i j. rewrite combine_fst_snd, HH by exact LF. unfold lag. rewrite ES. ring.
Qed.

Lemma lag_xrows Hf Hg s lam i j : length lam = fp_m P F -> length Hg = p_m P ->
  lag s (fhess F Hf) lam (Hg ++ map (xhess F Hf) (xrows F)) i j ==
  (s + (if f_cut F then at_ lam (p_m P) else 0)) * fhess F Hf i j +
  qsum (map (fun p => fst p * snd p i j) (combine (firstn (p_m P) lam) Hg)).
Proof.
  intros LL LG. rewrite fp_m_rows in LL. unfold lag.
  rewrite <- (firstn_skipn (p_m P) lam) at 1.
  rewrite combine_app2 by (rewrite firstn_length; lia). rewrite map_app, qsum_app.
  assert (E : qsum (map (fun p => fst p * snd p i j) (combine (skipn (p_m P) lam) (map (xhess F Hf) (xrows F)))) ==
              (if f_cut F then at_ lam (p_m P) else 0) * fhess F Hf i j).
  { assert (A0 : at_ lam (p_m P) = at_ (skipn (p_m P) lam) 0).
    { unfold at_. rewrite <- (firstn_skipn (p_m P) lam) at 1. rewrite app_nth2 by (rewrite firstn_length; lia).
      rewrite firstn_length. replace (p_m P - Nat.min (p_m P) (length lam))%nat with O by lia. reflexivity. }
    assert (SL : length (skipn (p_m P) lam) = length (xrows F)) by (rewrite skipn_length; lia).
    rewrite A0. revert SL. generalize (skipn (p_m P) lam) as t. intros t SL. unfold xrows in *.
    destruct (f_cut F), (f_lb F); destruct t as [|a [|b [|]]]; simpl in SL; try discriminate; unfold at_; simpl; ring. }
  rewrite E. match goal with |- _ + (?a + _) == _ + ?b => change b with a end. ring.
Qed.
Lemma hess_right x s lam Hf Hg : length x = p_n P -> length lam = fp_m P F -> length Hg = p_m P ->
  (forall s l i j, length l = p_m P -> dense off (p_hst P) (p_hv P x s l) i j == lag s Hf l Hg i j) ->
  (f_use F = true /\ f_cut F = false) \/ (f_use F = false /\ (1 - f_lam F) * f_sig F == 1) ->
  exists ir jc vs,
    fp_hess_struct P F (fresh (fp_nnz_h P F)) (fresh (fp_nnz_h P F)) = Ok (map Some ir, map Some jc) /\
    fp_hess_vals P F x s lam (fresh (fp_nnz_h P F)) = Ok (map Some vs) /\
    forall i j, dense off (combine ir jc) vs i j ==
                lag s (fhess F Hf) lam (Hg ++ map (xhess F Hf) (xrows F)) i j.
Proof.
  intros L LL LG HH D. destruct (hess_ok x s lam Hf Hg L LL HH) as (ir & jc & vs & E1 & E2 & _ & E3).
  exists ir, jc, vs. split; [exact E1|]. split; [exact E2|]. intros i j. rewrite E3, lag_xrows by assumption.
  unfold code_hess, fhess, wt, dw. destruct D as [(U & C)|(U & W)]; rewrite U.
  - rewrite C. cbn [andb]. destruct (Nat.eqb (f_norm F) 2); ring.
  - cbn [andb]. rewrite <- Qmult_assoc. rewrite W. destruct (Nat.eqb (f_norm F) 2); ring.
Qed.
End S.
