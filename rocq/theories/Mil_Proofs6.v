(** Lemmas for the heuristics that solve a MILP: the run of HeuristicDiveMIP. *)
From Verif Require Import Base Arr Nlp Oad_Model Nls_Model Nls_Spec Nls_Proofs Div_Model Div_Spec Div_Proofs Div_Proofs2 Str_Proofs Mil_Model Mil_Spec Mil_Proofs Mil_Proofs2 Mil_Proofs3 Mil_Proofs4 Mil_Proofs5.
#[local] Open Scope Q_scope.

Lemma dm_dive_ok n S' R tol cs b0 : 0 <= tol -> honest S' -> answers_sized n S' -> length (k_lo b0) = n -> length (k_up b0) = n ->
  Forall (fun i => (i < n)%nat) cs ->
  (forall it b x, length x = n -> length (k_lo b) = n -> length (k_up b) = n ->
     (exists best, R it b x = Ok best) /\ forall j up, R it b x = Ok (Some (j, up)) -> In j cs /\ frac tol (nth j x 0) = true) ->
  forall fuel it b xs x, in_box b x -> tight b0 b -> same_size b0 b -> (forall i, In i cs -> fin_at b i) -> (measure cs b < fuel)%nat -> length xs = n ->
  exists b' xs' x', dm_dive fuel S' R tol cs it b xs x = Ok (b', xs', x') /\ tight b0 b' /\ same_size b0 b' /\ in_box b0 x' /\ length xs' = n.
Proof.
  intros T0 HO AS L1 L2 FC PF. induction fuel as [|fuel IH]; intros it b xs x IB T SS FI M LX; [lia|].
  pose proof IB as IB'. apply in_box_nth in IB'. destruct IB' as (A1 & A2 & A3). pose proof SS as (SS1 & SS2). assert (Lx : length x = n) by lia.
  assert (DONE : in_box b0 x) by exact (tight_part _ _ SS T x IB).
  cbn [dm_dive]. destruct (count_frac_fine tol cs x) as (nf & ->); [rewrite Lx; exact FC|]. cbn [bind]. destruct (Nat.eqb nf 0).
  { exists b, xs, x. repeat split; try assumption; try (apply T); apply IB || apply DONE. }
  destruct (PF it b x) as ((best & PB) & PF2); [lia|lia|lia|]. rewrite PB. cbn [bind]. destruct best as [(j, up)|].
  2:{ exists b, xs, x. split; [reflexivity|]. auto. }
  destruct (PF2 j up PB) as (J1 & J2). assert (LJ : (j < n)%nat) by (rewrite Forall_forall in FC; exact (FC _ J1)).
  rewrite (rd_fine j x 0) by lia. cbn [bind]. set (v := nth j x 0) in *. destruct (A3 j) as (B1 & B2); [lia|]. fold v in B1, B2.
  assert (exists b1, (if up then set_lo j (ce v) b else set_up j (fl v) b) = Ok b1 /\ tight b b1 /\ same_size b b1 /\ Div_Proofs.rounded j v b1) as (b1 & E1 & T1 & S1 & R1).
  { destruct up.
    - destruct (set_lo_fine j (ce v) b) as (b1 & E1); [lia|]. exists b1. split; [exact E1|]. split; [|split].
      + eapply tight_lo; [apply tight_refl|exact E1|]. rewrite lo_ele in B1. eapply ele_trans; [exact B1|]. apply ce_ele.
      + eapply size_lo; [apply same_refl|exact E1].
      + right. apply set_lo_inv in E1. destruct E1 as (_ & _ & _ & E1). rewrite E1, Nat.eqb_refl. reflexivity.
    - destruct (set_up_fine j (fl v) b) as (b1 & E1); [lia|]. exists b1. split; [exact E1|]. split; [|split].
      + eapply tight_up; [apply tight_refl|exact E1|]. rewrite up_ele in B2. eapply ele_trans; [|exact B2]. apply fl_ele.
      + eapply size_up; [apply same_refl|exact E1].
      + left. apply set_up_inv in E1. destruct E1 as (_ & _ & _ & E1). rewrite E1, Nat.eqb_refl. reflexivity. }
  rewrite E1. cbn [bind]. destruct (S' it b1) as (ok, xs1) eqn:ES. pose proof (AS it b1) as LS. rewrite ES in LS. cbn [snd] in LS.
  assert (T01 : tight b0 b1) by (eapply tight_trans; eauto). assert (S01 : same_size b0 b1) by (eapply same_trans; eauto).
  destruct ok.
  - apply HO in ES. assert (FI1 : forall i, In i cs -> fin_at b1 i).
    { intros i Hi. eapply fin_tight; [exact T1|exact ES| |apply FI, Hi]. rewrite LS. rewrite Forall_forall in FC. exact (FC _ Hi). }
    apply IH; try assumption. assert (measure cs b1 < measure cs b)%nat; [|lia]. apply (measure_lt _ _ _ j J1).
    + intros i Hi. apply width_le; auto.
    + eapply width_lt; eauto. lia.
  - exists b1, xs1, x. auto.
Qed.
Lemma put_back_ok lv : NoDup lv -> forall sol x, length sol = length lv -> Forall (fun j => (j < length x)%nat) lv ->
  exists x', put_back lv sol x = Ok x' /\ length x' = length x /\ (forall k, (k < length lv)%nat -> nth (nth k lv 0%nat) x' 0 = nth k sol 0) /\
    forall j, ~ In j lv -> nth j x' 0 = nth j x 0.
Proof.
  induction lv as [|i lv IH]; intros ND [|v sol] x L F; try discriminate.
  - exists x. split; [reflexivity|]. split; [reflexivity|]. split; [intros k Hk; cbn [length] in Hk; lia|auto].
  - apply NoDup_cons_iff in ND. destruct ND as (NI & ND). apply Forall_cons_iff in F. destruct F as (H & F). cbn [put_back].
    destruct (lset_fine i v x 0 H) as (x1 & E1 & L1 & G1). rewrite E1. cbn [bind].
    destruct (IH ND sol x1) as (x2 & E2 & L2 & G2 & G3); [cbn [length] in L; lia|rewrite L1; exact F|]. exists x2. split; [exact E2|]. split; [lia|]. split.
    + intros [|k] Hk; cbn [nth]; [|apply G2; cbn [length] in Hk; lia]. rewrite (G3 i NI), G1, Nat.eqb_refl. reflexivity.
    + intros j Hj. rewrite G3 by (intros K; apply Hj; right; exact K). rewrite G1. destruct (Nat.eqb_spec j i) as [->|]; [|reflexivity]. exfalso. apply Hj. left. reflexivity.
Qed.
Lemma dm_fix_mr tol ints x : forall k i v lb b fe v' lb' b', mr_fix i k tol ints x v lb b = Ok (fe, v', lb', b') -> dm_fix i k tol ints x b = Ok (fe, b').
Proof.
  induction k as [|k IH]; intros i v lb b fe v' lb' b' H; cbn [mr_fix dm_fix] in *; [congruence|].
  apply bind_ok in H. destruct H as (t & -> & H). cbn [bind]. destruct t; [|eapply IH; exact H].
  apply bind_ok in H. destruct H as (w & -> & H). cbn [bind]. destruct (frac tol w); [congruence|].
  destruct (if Qltb (1 # 2) (inject_Z (nearest w)) then _ else _) as (v1, lb1).
  apply bind_ok in H. destruct H as (b1 & -> & H). cbn [bind]. apply bind_ok in H. destruct H as (b2 & -> & H). cbn [bind]. eapply IH; exact H.
Qed.
Lemma mask_nth P vlin i : length (p_int P) = length vlin -> nth i (map (fun p => (fst p && negb (snd p))%bool) (combine (p_int P) vlin)) false = (nth i (p_int P) false && negb (nth i vlin false))%bool.
Proof.
  generalize (p_int P). intros l. revert i vlin. induction l as [|a l IH]; intros i [|b vlin] L; try discriminate; [destruct i; reflexivity|].
  cbn [combine map]. destruct i as [|i]; [reflexivity|]. cbn [nth]. apply IH. cbn [length] in L. lia.
Qed.
Lemma positions_false_in vlin j : In j (positions false vlin) <-> (j < length vlin)%nat /\ nth j vlin false = false.
Proof.
  unfold positions. rewrite int_cols0. split.
  - intros H. pose proof (nth_in_len _ _ H) as L. rewrite map_length in L. split; [exact L|].
    rewrite (nth_indep _ false (Bool.eqb false false)) in H by (rewrite map_length; exact L). rewrite (map_nth (fun b => Bool.eqb b false)) in H. destruct (nth j vlin false); [discriminate H|reflexivity].
  - intros (L & H). rewrite (nth_indep _ false (Bool.eqb false false)) by (rewrite map_length; exact L). rewrite (map_nth (fun b => Bool.eqb b false)), H. reflexivity.
Qed.
Lemma dive_mip_ok sort M S' last R P vlin tol node pass b0 x0 gs val old :
  sort_ok sort -> nlp_ok P -> length vlin = p_n P -> single_entries P vlin -> 0 <= tol -> honest S' -> answers_sized (p_n P) S' -> honest_lmilp M ->
  picks_fractional tol (nl_ints P vlin) R -> sizes (all_ints P) b0 -> in_box b0 x0 -> length gs = p_m P -> rows_open (all_ints P) ->
  bounded_ints (nl_ints P vlin) b0 -> integer_bounds (p_int P) b0 ->
  exists N, forall fuel, (N <= fuel)%nat -> exists r, dive_mip fuel sort M S' last R P vlin tol node pass b0 x0 gs val old = Ok r /\ dive_mip_good P S' b0 val old r.
Proof.
  intros SO OK LV SE T0 HO AS HM PF (Z1 & Z2 & Z3) IB LG RO BI IBD. cbn [all_ints d_ints d_gl d_gu] in Z1, Z2, Z3. rewrite (ok_int P OK) in Z1, Z2.
  pose proof IB as IB'. apply in_box_nth in IB'. destruct IB' as (A1 & A2 & A3). assert (Lx : length x0 = p_n P) by lia.
  set (cs := int_among (positions false vlin) (p_int P)).
  assert (CS : forall i, In i cs <-> nth i (d_ints (nl_ints P vlin)) false = true).
  { intros i. unfold cs, int_among. rewrite filter_In, positions_false_in. cbn [nl_ints d_ints]. rewrite mask_nth by (rewrite (ok_int P OK); lia). rewrite andb_true_iff, negb_true_iff.
    split; [tauto|]. intros (H1 & H2). apply nth_in_len in H1 as H3. rewrite (ok_int P OK) in H3. repeat split; [lia|exact H2|exact H1]. }
  assert (CL : Forall (fun i => (i < p_n P)%nat) cs).
  { apply Forall_forall. intros i Hi. unfold cs, int_among in Hi. apply filter_In in Hi. destruct Hi as (Hi & _). apply positions_false_in in Hi. lia. }
  assert (LM : length (d_ints (nl_ints P vlin)) = p_n P). { cbn [nl_ints d_ints]. rewrite map_length, combine_length, (ok_int P OK). lia. }
  exists (S (measure cs b0)). intros fuel FU. unfold dive_mip. destruct (_ || _)%bool; [eexists; split; [reflexivity|]; cbn; auto|].
  assert (LG' : length gs = length (p_gl P)) by (rewrite (ok_gl P OK); exact LG).
  destruct (adjust_fine (p_gl P) (p_gu P) gs Z3 LG' (length (p_gl P)) 0 (1 # 1000000) (Nat.le_refl _)) as (t & AD). rewrite AD. cbn [bind].
  assert (P6 : 0 <= 1 # 1000000) by lra.
  pose proof (adjust_ok (p_gl P) (p_gu P) gs Z3 (length (p_gl P)) 0 _ t (Nat.le_refl _) P6 AD) as (_ & _ & AD3).
  destruct (box_ok_fine b0 x0 (length (p_int P)) 0) as (bo & BO); try (rewrite (ok_int P OK); lia).
  destruct (rows_ok_fine (p_gl P) (p_gu P) gs t Z3 LG' (length (p_gl P)) 0 (Nat.le_refl _)) as (rr & RR).
  unfold isNlpFeasible. cbn [d_ints d_gl d_gu]. rewrite BO. cbn [bind].
  assert (bo = true) as ->. { apply box_ok_iff in BO. apply BO. intros j Hj. apply A3. rewrite (ok_int P OK) in Hj. lia. }
  rewrite RR. cbn [bind].
  assert (rr = true) as ->. { apply (rows_ok_all (all_ints P)) in RR; [|exact Z3]. apply RR. intros i Hi. apply AD3; [cbn [all_ints d_gl] in Hi; lia|]. apply RO. exact Hi. }
  cbn [chk bind]. fold cs.
  destruct (dm_dive_ok (p_n P) S' R tol cs b0 T0 HO AS Z1 Z2 CL) with (fuel := fuel) (it := 0%nat) (b := b0) (xs := x0) (x := x0) as (b & xs & x & ED & TB & SB & XB & LXS).
  { intros it b x Q1 Q2 Q3. destruct (PF it b x) as (PF1 & PF2); [rewrite LM; assumption..|]. split; [exact PF1|]. intros j up Hj. destruct (PF2 j up Hj) as (J1 & J2).
    split; [apply CS, J1|apply frac_iff, J2]. }
  { exact IB. } { apply tight_refl. } { apply same_refl. }
  { intros i Hi. apply BI. apply CS, Hi. }
  { lia. } { exact Lx. }
  rewrite ED. cbn [bind]. rewrite positions_true.
  apply in_box_nth in XB. destruct XB as (X1 & X2 & X3). assert (Lx' : length x = p_n P) by lia.
  destruct SB as (SB1 & SB2).
  destruct (count_frac_fine tol (int_among (linear_cols vlin) (p_int P)) x) as (nf & ENF).
  { apply Forall_forall. intros i Hi. unfold int_among in Hi. apply filter_In in Hi. destruct Hi as (_ & Hi). apply nth_in_len in Hi. rewrite (ok_int P OK) in Hi. lia. }
  rewrite ENF. cbn [bind].
  assert (MIP : exists fe x', (if Nat.eqb nf 0 then Ok (true, x)
     else do ' (x, m) <- dm_milp sort P vlin b xs x;
          match M m with
          | None => Ok (false, x)
          | Some sol => do x <- put_back (linear_cols vlin) sol x; Ok (true, x)
          end) = Ok (fe, x') /\ (fe = true -> length x' = p_n P /\ forall i, (i < p_n P)%nat -> lo_ok (nlo b0 i) (nth i x' 0) /\ up_ok (nup b0 i) (nth i x' 0))).
  { destruct (Nat.eqb nf 0). { exists true, x. split; [reflexivity|]. intros _. split; [exact Lx'|]. intros i Hi. apply X3. lia. }
    rewrite (dm_milp_eq sort P vlin SO OK LV SE b xs x LXS Lx'); [|lia|lia]. cbn [bind].
    set (m := mkLmilp _ _ _ _ _ _ _). destruct (M m) as [sol|] eqn:EM; [|exists false; eexists; split; [reflexivity|discriminate]].
    apply HM in EM. unfold m in EM. cbn [l_lb l_ub] in EM.
    assert (Lsol : length sol = length (linear_cols vlin)). { destruct EM as (EM1 & _). apply Forall2_len in EM1. rewrite map_length in EM1. lia. }
    assert (FL : Forall (fun j => (j < p_n P)%nat) (linear_cols vlin)) by exact (lc_lt P vlin LV vlin LV).
    destruct (put_back_ok (linear_cols vlin) (linear_cols_nodup vlin) sol (with_linear vlin x [])) as (x' & EP & LP & GP & GN); [exact Lsol|rewrite with_linear_length, Lx'; exact FL|].
    rewrite EP. cbn [bind]. exists true, x'. split; [reflexivity|]. intros _. rewrite with_linear_length in LP. split; [lia|]. intros i Hi.
    pose proof (proj1 (bounds_iff b (linear_cols vlin) sol Lsol) EM) as EM'. clear EM. rename EM' into EM.
    destruct (in_dec Nat.eq_dec i (linear_cols vlin)) as [Ii|Ni].
    - apply (In_nth _ _ 0%nat) in Ii. destruct Ii as (k & K1 & K2). specialize (EM k K1). rewrite K2 in EM. specialize (GP k K1). rewrite K2 in GP. rewrite GP.
      destruct (TB i) as (TB1 & TB2). destruct EM as (EM1 & EM2). fold (nlo b i) in EM1. fold (nup b i) in EM2. rewrite lo_ele in *. rewrite up_ele in *.
      split; [eapply ele_trans; [exact TB1|exact EM1]|eapply ele_trans; [exact EM2|exact TB2]].
    - rewrite (GN i Ni). rewrite with_linear_zero by lia. rewrite linear_cols_in in Ni. destruct (nth i vlin false); [congruence|]. apply X3. lia. }
  destruct MIP as (fe & x' & EMIP & FE). rewrite EMIP. cbn [bind]. destruct fe; [|eexists; split; [reflexivity|]; cbn; auto].
  destruct (FE eq_refl) as (LF & BF).
  destruct (mr_fix_fine tol (p_int P) x' (p_n P) 0 [] 1 b) as ((((fe2, v2), lb2), b2) & EF); [rewrite (ok_int P OK); lia..|].
  rewrite (dm_fix_mr _ _ _ _ _ _ _ _ _ _ _ _ EF). cbn [bind]. destruct fe2; [|eexists; split; [reflexivity|]; cbn; auto].
  apply mr_fix_ok in EF; [|rewrite (ok_int P OK); lia]. destruct EF as (SF & OF & FF). destruct (FF eq_refl) as (F1 & _).
  destruct (S' last b2) as (ok, xr) eqn:ESR. destruct (ok && Qltb (p_f P xr) val)%bool eqn:OV; [|eexists; split; [reflexivity|]; cbn; auto].
  apply andb_true_iff in OV. destruct OV as (-> & OV). apply Qltb_lt in OV. eexists. split; [reflexivity|]. cbn [dive_mip_good].
  assert (FX : forall j, nth j (p_int P) false = true -> fixed_at b2 j (Mil_Spec.rounded x' j)).
  { intros j Hj. apply F1; [|exact Hj]. pose proof (nth_in_len _ _ Hj) as Y. rewrite (ok_int P OK) in Y. lia. }
  assert (T2 : tight b0 b2).
  { intros i. destruct (nth i (p_int P) false) eqn:Ti.
    - destruct (FX i Ti) as (G1 & G2). fold (nlo b2 i) in G1. fold (nup b2 i) in G2. rewrite G1, G2. pose proof (nth_in_len _ _ Ti) as Y. rewrite (ok_int P OK) in Y.
      destruct (BF i Y) as (B1 & B2). destruct (IBD i Ti) as (D1 & D2). destruct (round_in (nlo b0 i) (nup b0 i) (nth i x' 0) D1 D2 B1 B2) as (R1 & R2).
      rewrite <- lo_ele, <- up_ele. split; [exact R1|exact R2].
    - destruct (OF i (or_introl Ti)) as (G1 & G2). rewrite G1, G2. apply TB. }
  assert (S2 : same_size b0 b2) by (eapply same_trans; [split; [exact SB1|exact SB2]|exact SF]).
  pose proof (HO _ _ _ ESR) as IR.
  split; [reflexivity|]. split; [exact OV|]. split; [exact (tight_part _ _ S2 T2 _ IR)|]. split.
  - intros i Ti. exists (Qfloor (nth i x' 0 + (1 # 2))). apply in_box_nth in IR. destruct IR as (I1 & I2 & I3). destruct S2 as (S21 & S22).
    pose proof (nth_in_len _ _ Ti) as Y. rewrite (ok_int P OK) in Y. destruct (I3 i) as (I4 & I5); [lia|]. destruct (FX i Ti) as (G1 & G2). unfold nlo in I4. unfold nup in I5. rewrite G1 in I4. rewrite G2 in I5.
    cbn [lo_ok up_ok] in I4, I5. unfold Mil_Spec.rounded in *. assert (E : nth i xr 0 == inject_Z (Qfloor (nth i x' 0 + (1 # 2)))) by lra. rewrite E. setoid_replace (inject_Z (Qfloor (nth i x' 0 + (1 # 2))) - inject_Z (Qfloor (nth i x' 0 + (1 # 2)))) with 0 by ring. discriminate.
  - exists last, b2. split; [exact ESR|]. split; [|exact (tight_part _ _ S2 T2)]. intros i Ti. eexists. exact (FX i Ti).
Qed.
