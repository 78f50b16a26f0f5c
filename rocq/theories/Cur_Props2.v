(** C172: the step that strong branching by curvature looks at. *)
From Verif Require Import Base Arr Nlp Cur_Model Cur_Spec Cur_Spec2 Cur_Proofs Cur_Proofs2 Cur_Proofs3 Cur_Proofs4 Cur_Proofs5 Cur_Props.
#[local] Open Scope Q_scope.

Lemma step1_move l u v : move_to l u v (- step1 l u v).
Proof.
  unfold move_to, step1. split; [|split].
  - intros a -> L. rewrite (proj2 (Qltb_lt v a) L). ring.
  - intros b -> L La. destruct l as [|a|]; try (rewrite (proj2 (Qltb_lt b v) L); ring).
    rewrite (proj2 (Qltb_ge v a) (La a eq_refl)), (proj2 (Qltb_lt b v) L). ring.
  - intros La Ub. assert (U : match u with Fin b => if Qltb b v then v - b else 0 | _ => 0 end = 0).
    { destruct u as [|b|]; auto. rewrite (proj2 (Qltb_ge b v) (Ub b eq_refl)). reflexivity. }
    destruct l as [|a|]; rewrite ?U; try reflexivity. rewrite (proj2 (Qltb_ge v a) (La a eq_refl)). reflexivity.
Qed.
Lemma steps_moves x : forall xl xu d, steps xl xu x = Ok d -> moves xl xu x (map Qopp d).
Proof.
  induction x as [|v x IH]; intros xl xu d E; cbn [steps] in E.
  - injection E as <-. split; [reflexivity|]. intros i Hi. cbn in Hi. lia.
  - destruct xl as [|l xl], xu as [|u xu]; try discriminate. apply bind_ok in E as (r & Er & E). injection E as <-. destruct (IH _ _ _ Er) as [L M].
    split; [cbn in *; lia|]. intros [|i] Hi; [apply step1_move|]. apply M. cbn in Hi. lia.
Qed.
(** What is done exactly: the direction taken is the opposite one. *)
Theorem C172_exact_partial : forall P ls u h1 h2 w0 w w1 x du,
  nlp_ok P -> solves ls -> (0 < p_m P)%nat -> follows P Bare (h1 ++ OMark :: h2 ++ [OHot]) -> Forall trial h2 ->
  run P false ls h1 (start P u) = Ok w0 ->
  run P false ls (h1 ++ OMark :: h2) (start P u) = Ok w -> run P false ls [OHot] w = Ok w1 ->
  n_x (w_node w0) = Some x -> n_du (w_node w0) = Some du -> n_stat (w_node w1) = iterationLimit ->
  exists k, moves (n_xl (w_node w)) (n_xu (w_node w)) x (map Qopp k) /\ estimates P (w_node w0) x du k (n_obj (w_node w1)).
Proof.
  intros P ls u h1 h2 w0 w w1 x du OK SO MP F T E0 E E1 Hx Hdu St. destruct (reach_mark P ls u h1 h2 OHot w0 w OK (proj1 SO) MP F T E0 E) as (S0 & _ & M).
  destruct (hot_ok P ls _ w OK (proj1 SO) MP M) as (st & y & e & v & o & e2 & u2 & s & Ey & _ & Es & Ed & Ld & R & C & Y).
  cbn [run step] in E1. rewrite Ey in E1. cbn [bind] in E1. injection E1 as <-. rewrite Hx in Es. injection Es as <-.
  assert (Lx : length x = p_n P).
  { destruct S0 as (_ & x' & du' & A & _ & B & _). rewrite Hx in A. injection A as <-. exact B. }
  pose proof (hotcall_ok P (w_node w0) (c_new (w_csb w)) st S0 Ld) as CO.
  destruct (curvature_ok P ls _ e v OK CO (proj1 SO) MP R) as (o' & e' & u' & C' & _ & D).
  rewrite C in C'. injection C' as <- <- <-. rewrite Y in *. destruct o as [[[pd g] q]|]; [|discriminate]. cbn [n_obj].
  destruct (D pd g q eq_refl) as (-> & _ & Hq & sv & FE & GE & d1 & FX & GX & SV & IF & IG & G & A).
  exists st. split; [apply steps_moves; exact Ed|].
  destruct (good_nearest P ls _ sv FE GE d1 pd FX GX OK CO SO SV IF IG G) as (N1 & N2 & N3).
  assert (KX : k_x (hotcall (w_node w0) (c_new (w_csb w)) st) = x) by (unfold hotcall; cbn; rewrite Hx; reflexivity).
  exists (hotcall (w_node w0) (c_new (w_csb w)) st), pd, d1. split; [exact KX|]. split; [reflexivity|]. split; [reflexivity|]. split; [reflexivity|]. split; [reflexivity|].
  split; [unfold hotcall; cbn [k_zL]; rewrite Hx, Hdu, Lx; reflexivity|]. split; [unfold hotcall; cbn [k_zU]; rewrite Hx, Hdu, Lx; reflexivity|].
  split; [unfold hotcall; cbn [k_lam]; rewrite Hx, Hdu, Lx; reflexivity|]. split; [reflexivity|].
  rewrite KX in *. split; [exact N2|]. split; [exact N3|]. split; [exact N1|]. rewrite Hq. ring.
Qed.
Print Assumptions C172_exact_partial.

Lemma nth_firstn_lt {A} k n (l : list A) d : (k < n)%nat -> nth k (firstn n l) d = nth k l d.
Proof. revert n l. induction k as [|k IH]; intros [|n] [|a l] H; cbn; auto; try lia. apply IH. lia. Qed.
Lemma nth_skipn_eq {A} i j (l : list A) d : nth j (skipn i l) d = nth (i + j) l d.
Proof. revert l. induction i as [|i IH]; intros [|a l]; cbn; auto. destruct j; auto. Qed.
(** ** When nothing but equalities is held the sign does not matter. *)
Lemma at_opp d i : at_ (map Qopp d) i == - at_ d i.
Proof. unfold at_. revert i. induction d as [|a d IH]; intros [|i]; cbn [map nth]; try reflexivity. apply IH. Qed.
Lemma opp_opp n k : dist2 n k (map Qopp (map Qopp k)) == 0.
Proof. unfold dist2. apply sumn_0. intros i _. rewrite !at_opp. ring. Qed.
Lemma dist_opp n a b : dist2 n (map Qopp a) (map Qopp b) == dist2 n a b.
Proof. unfold dist2. apply sumn_ext. intros i _. rewrite !at_opp. ring. Qed.
Lemma dist_opp_r n a b : dist2 n a (map Qopp b) == dist2 n (map Qopp a) b.
Proof. unfold dist2. apply sumn_ext. intros i _. rewrite !at_opp. ring. Qed.
Lemma change_opp P x d r : row_change P x (map Qopp d) r == - row_change P x d r.
Proof.
  unfold row_change. transitivity (sumn (p_n P) (fun c => (-(1)) * (dense (p_off P) (p_jst P) (p_jv P x) r c * at_ d c))).
  - apply sumn_ext. intros i _. rewrite at_opp. ring.
  - rewrite sumn_scal. ring.
Qed.
Lemma form_opp P x lam d : form P x lam (map Qopp d) == form P x lam d.
Proof. unfold form. apply sumn_ext. intros i _. apply sumn_ext. intros j _. rewrite !at_opp. ring. Qed.
Lemma keeps_opp P x (fx gx fx' gx' : nat -> Prop) d : (forall i, (i < p_n P)%nat -> fx' i -> fx i) -> (forall r, (r < p_m P)%nat -> gx' r -> gx r) ->
  keeps P x fx gx d -> keeps P x fx' gx' (map Qopp d).
Proof.
  intros Hf Hg (L & X & G). split; [rewrite map_length; exact L|]. split.
  - intros i Hi H. rewrite at_opp, X by auto. reflexivity.
  - intros r Hr H. rewrite change_opp, G by auto. reflexivity.
Qed.
Lemma nearest_opp P x (fx gx fx' gx' : nat -> Prop) a k : (forall i, (i < p_n P)%nat -> fx' i <-> fx i) -> (forall r, (r < p_m P)%nat -> gx' r <-> gx r) ->
  nearest_in P x fx gx a k -> nearest_in P x fx' gx' (map Qopp a) (map Qopp k).
Proof.
  intros Hf Hg [K N]. split.
  - eapply keeps_opp; [| |exact K]; intros; [apply Hf|apply Hg]; auto.
  - intros z Kz. rewrite dist_opp, dist_opp_r. apply N. eapply keeps_opp; [| |exact Kz]; intros; [apply Hf|apply Hg]; auto.
Qed.
(** If no inequality row and no variable has a multiplier above the tolerances the estimate is that of the move. *)
Theorem C172_partial : forall P ls u h1 h2 w0 w w1 x du,
  nlp_ok P -> solves ls -> (0 < p_m P)%nat -> follows P Bare (h1 ++ OMark :: h2 ++ [OHot]) -> Forall trial h2 ->
  run P false ls h1 (start P u) = Ok w0 ->
  run P false ls (h1 ++ OMark :: h2) (start P u) = Ok w -> run P false ls [OHot] w = Ok w1 ->
  n_x (w_node w0) = Some x -> n_du (w_node w0) = Some du -> n_stat (w_node w1) = iterationLimit ->
  (forall i, (i < 2 * p_n P)%nat -> at_ du i == 0) ->
  (forall r, (r < p_m P)%nat -> ~ var_fixed (n_gl (w_node w0)) (n_gu (w_node w0)) r -> Qabs (at_ du (2 * p_n P + r)) <= 1 # 10000) ->
  exists k, moves (n_xl (w_node w)) (n_xu (w_node w)) x k /\ estimates P (w_node w0) x du k (n_obj (w_node w1)).
Proof.
  intros P ls u h1 h2 w0 w w1 x du OK SO MP F T E0 E E1 Hx Hdu St Z0 Zr.
  destruct (C172_exact_partial P ls u h1 h2 w0 w w1 x du OK SO MP F T E0 E E1 Hx Hdu St) as (k & Mv & c & d & d1 & A1 & A2 & A3 & A4 & A5 & A6 & A7 & A8 & A9 & B1 & B2 & B3 & B4).
  assert (ZL : forall i, (i < p_n P)%nat -> at_ (k_zL c) i == 0).
  { intros i Hi. rewrite A6. unfold at_. rewrite nth_firstn_lt by lia. apply (Z0 i). lia. }
  assert (ZU : forall i, (i < p_n P)%nat -> at_ (k_zU c) i == 0).
  { intros i Hi. rewrite A7. unfold at_. rewrite nth_firstn_lt, nth_skipn_eq by lia. apply (Z0 (p_n P + i)%nat). lia. }
  assert (La : forall r, at_ (k_lam c) r = at_ du (2 * p_n P + r)) by (intros r; rewrite A8; unfold at_; apply nth_skipn_eq).
  assert (HV : forall c' e i, k_xl c' = k_xl c -> k_xu c' = k_xu c -> k_zL c' = k_zL c -> k_zU c' = k_zU c -> (i < p_n P)%nat -> held_var P c' e i <-> var_fixed (k_xl c) (k_xu c) i).
  { intros c' e i Q1 Q2 Q3 Q4 Hi. unfold held_var. rewrite Q1, Q2, Q3, Q4. split; [|auto]. intros [V|(_ & _ & H)]; auto. exfalso. rewrite (ZL i Hi), (ZU i Hi) in H. destruct H as [[_ H]|[_ H]]; lra. }
  assert (HR : forall c' e r, k_x c' = k_x c -> k_gl c' = k_gl c -> k_gu c' = k_gu c -> k_lam c' = k_lam c -> (r < p_m P)%nat -> held_row P c' e r <-> var_fixed (k_gl c) (k_gu c) r).
  { intros c' e r Q0 Q1 Q2 Q3 Hr. unfold held_row. rewrite Q0, Q1, Q2, Q3. split; [|auto]. intros [V|(Ap & H & _)]; auto. exfalso.
    assert (Nf : ~ var_fixed (n_gl (w_node w0)) (n_gu (w_node w0)) r).
    { rewrite A4, A5 in Ap. unfold var_fixed, same_bound, Cur_Spec.apart in *. destruct (nth r (n_gl (w_node w0)) MInf), (nth r (n_gu (w_node w0)) PInf); try contradiction; try tauto. lra. }
    specialize (Zr r Hr Nf). rewrite La in H. lra. }
  exists (map Qopp k). split; auto.
  exists (mkC x (k_newx c) (k_xl c) (k_xu c) (k_gl c) (k_gu c) (k_zL c) (k_zU c) (k_lam c) (map Qopp k)), (map Qopp d), (map Qopp d1). cbn [k_x k_xl k_xu k_gl k_gu k_zL k_zU k_lam k_d].
  do 9 (split; [auto|]). split; [|split; [|split]].
  - intros X. eapply nearest_opp; [| |exact (B1 X)]; intros; reflexivity.
  - intros X. rewrite (B2 X). auto.
  - eapply nearest_opp; [| |exact B3].
    + intros i Hi. pose proof (HV c d1 i eq_refl eq_refl eq_refl eq_refl Hi). pose proof (HV (mkC x (k_newx c) (k_xl c) (k_xu c) (k_gl c) (k_gu c) (k_zL c) (k_zU c) (k_lam c) (map Qopp k)) (map Qopp d1) i eq_refl eq_refl eq_refl eq_refl Hi). tauto.
    + intros r Hr. pose proof (HR c d1 r eq_refl eq_refl eq_refl eq_refl Hr). pose proof (HR (mkC x (k_newx c) (k_xl c) (k_xu c) (k_gl c) (k_gu c) (k_zL c) (k_zU c) (k_lam c) (map Qopp k)) (map Qopp d1) r (eq_sym A1) eq_refl eq_refl eq_refl Hr). tauto.
  - rewrite form_opp. auto.
Qed.
Print Assumptions C172_partial.

(** ** The sign matters *)
(** x0 + x1 <= 1 with multiplier 1 at (1/2, 1/2), Hessian 2 I: rounding x0 up is held back by the row, rounding down is not. *)
Definition P3 : nlp :=
  mkNlp 2 1 0 [Fin 0; Fin 0] [Fin 1; Fin 1] [MInf] [Fin 1] [true] [true; false] [0; 0] [0]
    (fun _ => 0) (fun _ => [0; 0]) (fun x => [at_ x 0 + at_ x 1])
    [(0, 0); (0, 1)]%nat (fun _ => [1; 1]) [(0, 0); (1, 1)]%nat (fun _ s _ => [2 * s; 2 * s]).
Lemma P3_ok : nlp_ok P3.
Proof. constructor; try reflexivity; repeat constructor. Qed.
Definition s3 : op := OSolve [1 # 2; 1 # 2] [0; 0; 0; 0; 1] 0 solvedOptimal (mkU None None).
Definition up3 : op := OBounds [Fin 1; Fin 0] [Fin 1; Fin 1].
Lemma sq_nonneg q : 0 <= q * q.
Proof.
  destruct (Qlt_le_dec q 0).
  - setoid_replace (q * q) with ((-q) * (-q)) by ring. apply Qmult_le_0_compat; lra.
  - apply Qmult_le_0_compat; lra.
Qed.
Theorem C172_refuted : ~ C172_full.
Proof.
  intros H. set (u0 := mkU None None).
  assert (R0 : exists w0, run P3 false ls1 [s3] (start P3 u0) = Ok w0 /\ n_x (w_node w0) = Some [1 # 2; 1 # 2] /\ n_du (w_node w0) = Some [0; 0; 0; 0; 1] /\ n_obj (w_node w0) = 0 /\
     n_gl (w_node w0) = [MInf] /\ n_gu (w_node w0) = [Fin 1]) by (eexists; split; [reflexivity|repeat split]).
  destruct R0 as (w0 & E0 & X0 & D0 & O0 & G0 & G1).
  assert (R1 : exists w w1, run P3 false ls1 ([s3] ++ OMark :: [up3]) (start P3 u0) = Ok w /\ run P3 false ls1 [OHot] w = Ok w1 /\ n_stat (w_node w1) = iterationLimit /\ n_obj (w_node w1) == 1 # 4 /\
     n_xl (w_node w) = [Fin 1; Fin 0] /\ n_xu (w_node w) = [Fin 1; Fin 1]).
  { eexists _, _. split; [vm_compute; reflexivity|]. split; [vm_compute; reflexivity|]. repeat split. }
  destruct R1 as (w & w1 & E & E1 & St & O1 & XL & XU).
  destruct (H P3 ls1 u0 [s3] [up3] w0 w w1 [1 # 2; 1 # 2] [0; 0; 0; 0; 1] P3_ok (checked_solves _) Nat.lt_0_1) as (k & [Lk Mv] & c & d & d1 & A1 & A2 & A3 & A4 & A5 & A6 & A7 & A8 & A9 & _ & B2 & B3 & B4); auto.
  { cbn. repeat split; congruence. }
  { constructor; [exact Logic.I|constructor]. }
  assert (K0 : at_ k 0 == 1 # 2). { destruct (Mv 0%nat ltac:(cbn; lia)) as [M _]. rewrite XL in M. rewrite (M 1 eq_refl ltac:(reflexivity)). reflexivity. }
  assert (K1 : at_ k 1 == 0). { destruct (Mv 1%nat ltac:(cbn; lia)) as (_ & _ & M). rewrite XL, XU in M. apply M; cbn; intros a Ea; inversion Ea; subst; vm_compute; congruence. }
  assert (Nf : ~ exists r, (r < p_m P3)%nat /\ var_fixed (k_gl c) (k_gu c) r).
  { rewrite A4, A5, G0, G1. intros (r & Hr & V). cbn in Hr. assert (r = 0%nat) by lia. subst r. exact V. }
  specialize (B2 Nf). subst d1. destruct B3 as [(Ld & _ & KG) N].
  assert (RC : forall z, row_change P3 [1 # 2; 1 # 2] z 0 == at_ z 0 + at_ z 1) by (intros z; unfold row_change, sumn, dense; cbn -[Qplus Qmult at_]; ring).
  assert (Hh : held_row P3 c k 0).
  { right. rewrite A4, A5, A8, A1, G0, G1, RC, K0, K1. split; [exact Logic.I|]. split; reflexivity. }
  assert (S0 : at_ d 0 + at_ d 1 == 0) by (rewrite <- RC; apply KG; [cbn; lia|exact Hh]).
  assert (Kz : keeps P3 [1 # 2; 1 # 2] (held_var P3 c k) (held_row P3 c k) [1 # 4; - (1 # 4)]).
  { split; [reflexivity|]. split.
    - intros i Hi [V|(X & _)]; [|contradiction]. exfalso. rewrite A2, A3 in V. inversion E0 as [E0']. subst w0. cbn in Hi. assert (Ki : i = 0%nat \/ i = 1%nat) by lia. destruct Ki; subst i; vm_compute in V; discriminate V.
    - intros r Hr _. cbn in Hr. assert (r = 0%nat) by lia. subst r. rewrite RC. reflexivity. }
  specialize (N _ Kz).
  assert (Dz : forall z, dist2 2 z k == (at_ z 0 - at_ k 0) * (at_ z 0 - at_ k 0) + (at_ z 1 - at_ k 1) * (at_ z 1 - at_ k 1)) by (intros z; unfold dist2, sumn; cbn -[Qplus Qmult at_ Qminus]; ring).
  cbn [p_n P3] in N. rewrite !Dz, K0, K1 in N. change (at_ [1 # 4; - (1 # 4)] 0) with (1 # 4) in N. change (at_ [1 # 4; - (1 # 4)] 1) with (- (1 # 4)) in N.
  assert (Fm : form P3 [1 # 2; 1 # 2] (k_lam c) d == 2 * (at_ d 0 * at_ d 0) + 2 * (at_ d 1 * at_ d 1)) by (unfold form, sumn, hess, dense; cbn -[Qplus Qmult at_]; ring).
  rewrite O1, O0, Fm in B4. assert (D1 : at_ d 1 == - at_ d 0) by lra. rewrite D1 in *.
  set (a := at_ d 0) in *. assert (Sq : a * a == 1 # 8) by lra. assert (Ge : 3 # 8 <= a) by lra.
  pose proof (Qmult_le_0_compat (a - (3 # 8)) (a + (3 # 8)) ltac:(lra) ltac:(lra)). lra.
Qed.
Print Assumptions C172_refuted.
Example C172_ex : exists w w1, run P3 false ls1 ([s3] ++ OMark :: [up3]) (start P3 (mkU None None)) = Ok w /\ run P3 false ls1 [OHot] w = Ok w1 /\ n_stat (w_node w1) = iterationLimit.
Proof. eexists _, _. split; [vm_compute; reflexivity|]. split; [vm_compute; reflexivity|reflexivity]. Qed.
