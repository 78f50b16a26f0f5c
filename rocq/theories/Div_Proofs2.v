(** Proofs for the diving heuristics: termination (C85), selection rules (C86, C87). *)
From Verif Require Import Base Arr Nlp Oad_Model Oad_Spec Oad_Proofs Oad_Proofs2 Str_Proofs Div_Model Div_Spec Div_Proofs.
#[local] Open Scope Q_scope.

Definition width (b : cols) (i : nat) : nat :=
  match nlo b i, nup b i with Fin l, Fin u => Z.to_nat (Qceiling u - Qfloor l) | _, _ => 0%nat end.
Definition measure (cs : list nat) (b : cols) : nat := fold_right (fun i a => (width b i + a)%nat) 0%nat cs.
Definition fin_at (b : cols) (i : nat) := (exists q, nlo b i = Fin q) /\ exists q, nup b i = Fin q.
Lemma fin_tight b b' x i : tight b b' -> in_box b' x -> (i < length x)%nat -> fin_at b i -> fin_at b' i.
Proof.
  intros T IB L ((l & A) & (u & B)). apply in_box_nth in IB. destruct IB as (_ & _ & IB). destruct (IB i L) as (I1 & I2), (T i) as (T1 & T2).
  rewrite A in T1. rewrite B in T2. split.
  - destruct (nlo b' i); simpl in *; try discriminate; try tauto. eauto.
  - destruct (nup b' i); simpl in *; try discriminate; try tauto. eauto.
Qed.
Lemma width_le b b' i : tight b b' -> fin_at b i -> fin_at b' i -> (width b' i <= width b i)%nat.
Proof.
  intros T ((l & A) & (u & B)) ((l' & A') & (u' & B')). destruct (T i) as (T1 & T2). rewrite A, A' in T1. rewrite B, B' in T2. unfold width. rewrite A, B, A', B'.
  simpl in T1, T2. apply Qltb_ge in T1, T2. apply Qfloor_resp_le in T1. apply Qceiling_resp_le in T2. lia.
Qed.
Lemma width_lt b b' x j tol : 0 <= tol -> tight b b' -> fin_at b j -> fin_at b' j -> in_box b x -> (j < length x)%nat ->
  frac tol (nth j x 0) = true -> rounded j (nth j x 0) b' -> (width b' j < width b j)%nat.
Proof.
  intros T0 T ((l & A) & (u & B)) ((l' & A') & (u' & B')) IB L F RR.
  apply in_box_nth in IB. destruct IB as (_ & _ & IB). destruct (IB j L) as (I1 & I2). rewrite A in I1. rewrite B in I2. simpl in I1, I2.
  destruct (T j) as (T1 & T2). rewrite A, A' in T1. rewrite B, B' in T2. simpl in T1, T2. apply Qltb_ge in T1, T2.
  set (v := nth j x 0) in *. destruct (frac_floor tol v T0 F) as (F1 & F2 & F3).
  apply Qfloor_resp_le in I1, T1. apply Qceiling_resp_le in I2, T2. unfold width. rewrite A, B, A', B'. destruct RR as [RR|RR].
  - rewrite B' in RR. assert (u' = inject_Z (Qfloor v)) by (unfold fl in RR; congruence). subst u'. rewrite Qceiling_Z in *. lia.
  - rewrite A' in RR. assert (l' = inject_Z (Qceiling v)) by (unfold ce in RR; congruence). subst l'. rewrite Qfloor_Z in *. lia.
Qed.
Lemma measure_lt cs b b' j : In j cs -> (forall i, In i cs -> (width b' i <= width b i)%nat) -> (width b' j < width b j)%nat -> (measure cs b' < measure cs b)%nat.
Proof.
  induction cs as [|i cs IH]; intros HI LE LT; [destruct HI|]. cbn [measure fold_right]. fold (measure cs b) (measure cs b').
  assert (G : (measure cs b' <= measure cs b)%nat).
  { clear - LE. induction cs as [|k cs IH]; [simpl; lia|]. cbn [measure fold_right]. fold (measure cs b) (measure cs b').
    assert (measure cs b' <= measure cs b)%nat by (apply IH; intros i' [->|H]; apply LE; simpl; auto).
    pose proof (LE k (or_intror (or_introl eq_refl))). lia. }
  destruct HI as [->|HI]; [lia|]. pose proof (LE i (or_introl eq_refl)).
  assert (measure cs b' < measure cs b)%nat by (apply IH; auto; intros k Hk; apply LE; right; exact Hk). lia.
Qed.
Lemma count_pos tol cs x nf : count_frac tol cs x = Ok nf -> Nat.eqb nf 0 = true -> forall i, In i cs -> frac tol (nth i x 0) = false.
Proof.
  revert nf. induction cs as [|i cs IH]; intros nf H E k HI; [destruct HI|]. cbn [count_frac] in H. apply bind_ok in H. destruct H as (v & R & H).
  apply bind_ok in H. destruct H as (r & R2 & H). apply (rd_inv _ _ _ 0) in R. destruct R as (_ & R).
  destruct (frac tol v) eqn:F; [assert (nf = S r) by congruence; subst; discriminate|]. assert (nf = r) by congruence. subst r.
  destruct HI as [->|HI]; [rewrite R; exact F|eapply IH; eauto].
Qed.

Lemma outer_ends p S' R tol most val : 0 <= tol -> honest S' -> picks_fractional tol p R -> forall fuel it s,
  in_box (s_b s) (s_x s) -> length (s_x s) = length (d_ints p) -> (forall i, In i (int_cols 0 (d_ints p)) -> fin_at (s_b s) i) ->
  (measure (int_cols 0 (d_ints p)) (s_b s) < fuel)%nat ->
  exists s', outer fuel p S' R tol most val it s = Ok s'.
Proof.
  intros T0 HO PF. induction fuel as [|fuel IH]; intros it s IB LX FI M; [lia|]. rewrite outer_step.
  assert (CS : Forall (fun i => (i < length (s_x s))%nat) (int_cols 0 (d_ints p))) by (apply Forall_forall; intros i Hi; rewrite LX; apply int_cols_lt; exact Hi).
  destruct (count_frac_fine tol _ _ CS) as (nf & ->). cbn [bind]. destruct (Nat.eqb nf 0); [eauto|].
  pose proof IB as IB'. apply in_box_nth in IB'. destruct IB' as (A1 & A2 & A3).
  destruct (PF it (s_b s) (s_x s)) as ((best & PB) & PF2); [congruence|congruence|congruence|]. rewrite PB. cbn [bind]. destruct best as [(j, up)|].
  - destruct (PF2 j up PB) as (J1 & J2). apply int_cols0 in J1. assert (LJ : (j < length (s_x s))%nat) by (rewrite LX; apply int_cols_lt; exact J1).
    destruct (round_fine S' tol most (int_cols 0 (d_ints p)) j up s IB CS LJ) as (r & RO). rewrite RO. cbn [bind].
    pose proof (round_ok S' tol most _ j up s r (fun _ => True) IB (fun _ _ => Logic.I) (proj2 (Forall_forall _ _) (fun _ _ => Logic.I)) RO) as K.
    destruct r as [[[[ok xs] k'] log'] b']. cbv beta iota in *. destruct K as (K1 & K2 & K3 & K4 & K5 & K6). destruct ok; [|eauto].
    destruct (Qle_bool val (d_f p xs)); [eauto|]. destruct (K4 eq_refl) as (k2 & K4'). apply HO in K4'.
    assert (LX' : length xs = length (d_ints p)) by (apply in_box_nth in K4'; destruct K4', K2; congruence).
    assert (FI' : forall i, In i (int_cols 0 (d_ints p)) -> fin_at b' i).
    { intros i Hi. eapply fin_tight; [exact K1|exact K4'| |apply FI; exact Hi]. rewrite LX'. apply int_cols_lt. exact Hi. }
    apply IH; simpl; auto.
    apply frac_iff in J2. pose proof (K6 J2) as RR.
    assert (measure (int_cols 0 (d_ints p)) b' < measure (int_cols 0 (d_ints p)) (s_b s))%nat; [|lia].
    apply (measure_lt _ _ _ j J1).
    + intros i Hi. apply width_le; auto.
    + eapply width_lt; eauto.
  - destruct (fix_fine tol (s_x s) (s_b s) most (int_cols 0 (d_ints p))) with (b := s_b s) (done := @nil fixed) as (b1 & done & ->); [|apply same_refl|cbn [bind]; eauto].
    eapply Forall_impl; [|exact CS]. simpl. intros; lia.
Qed.
Lemma dive_ends : C85_claim bounded_ints.
Proof.
  intros p S' R tol pct node howOften pass b0 x0 gs val old (Z1 & Z2 & Z3) RS T0 HO PF BI IB LG RO.
  pose proof IB as IB'. apply in_box_nth in IB'. destruct IB' as (A1 & A2 & A3).
  exists (S (measure (int_cols 0 (d_ints p)) b0)). intros fuel FU. unfold dive. destruct (_ || _)%bool; [eauto|].
  destruct (adjust_fine (d_gl p) (d_gu p) gs Z3 LG (length (d_gl p)) 0 (1 # 1000000) (Nat.le_refl _)) as (t & AD). rewrite AD. cbn [bind].
  assert (P6 : 0 <= 1 # 1000000) by lra.
  pose proof (adjust_ok (d_gl p) (d_gu p) gs Z3 (length (d_gl p)) 0 _ t (Nat.le_refl _) P6 AD) as (_ & _ & AD3).
  destruct (box_ok_fine b0 x0 (length (d_ints p)) 0) as (bo & BO); try lia.
  destruct (rows_ok_fine (d_gl p) (d_gu p) gs t Z3 LG (length (d_gl p)) 0 (Nat.le_refl _)) as (rr & RR).
  unfold isNlpFeasible. rewrite BO. cbn [bind].
  assert (bo = true) as ->. { apply box_ok_iff in BO. apply BO. intros j Hj. apply A3. lia. }
  rewrite RR. cbn [bind].
  assert (rr = true) as ->. { apply rows_ok_all in RR; [|exact Z3]. apply RR. intros i Hi. apply AD3; [lia|]. apply RO. exact Hi. }
  cbn [chk bind].
  destruct (outer_ends p S' R tol (most_fix pct p) val T0 HO PF fuel 0 (mkD 0 [] b0 x0)) as (s & OU); simpl; auto; try lia.
  { intros i Hi. apply int_cols0 in Hi. apply BI. exact Hi. }
  rewrite OU. cbn [bind].
  destruct (outer_ok b0 p S' R tol (most_fix pct p) val HO fuel 0 (mkD 0 [] b0 x0) s) as (B1 & (B2 & B2') & B3 & B4); simpl; auto using tight_refl, same_refl.
  destruct (end_ok_fine (s_b s) (s_x s) tol (d_ints p) (length (d_ints p)) 0) as (e & EN); try lia. rewrite EN. cbn [bind].
  assert (LG' : length (d_g p (s_x s)) = length (d_gl p)) by (apply RS; congruence).
  destruct (rows_ok_fine (d_gl p) (d_gu p) (d_g p (s_x s)) t Z3 LG' (length (d_gl p)) 0 (Nat.le_refl _)) as (r2 & R2). rewrite R2. cbn [bind].
  destruct (_ && _)%bool; eauto.
Qed.

(** An endless dive: one integer variable without lower bound, and a solver that always
    answers half a unit below the upper bound. *)
Definition p1 : dprob := mkDprob [true] [] [] (fun x => nth 0 x 0) (fun _ => []).
Definition S1 : solver := fun _ b => match k_lo b, k_up b with [MInf], [Fin u] => (true, [inject_Z (Qfloor u) - (1 # 2)]) | _, _ => (false, [0]) end.
Definition R1 : rule := fun _ _ x => match x with v :: _ => if frac 0 v then Ok (Some (0%nat, false)) else Ok None | [] => Ok None end.
Lemma S1_honest : honest S1.
Proof.
  intros k [lo up] x. unfold S1. cbn [k_lo k_up]. destruct lo as [|[|l|] [|? ?]]; try discriminate. destruct up as [|[|u|] [|? ?]]; try discriminate.
  intros H. assert (x = [inject_Z (Qfloor u) - (1 # 2)]) by congruence. subst x. split; repeat constructor. simpl. pose proof (Qfloor_le u). lra.
Qed.
Lemma half_frac (k : Z) : frac 0 (inject_Z k - (1 # 2)) = true.
Proof.
  apply frac_iff. intros z. assert (E : inject_Z k - (1 # 2) - inject_Z z == inject_Z (k - z) - (1 # 2)) by (unfold Zminus; rewrite inject_Z_plus, inject_Z_opp; ring).
  rewrite E. destruct (Z.le_gt_cases (k - z) 0) as [L|L].
  - assert (inject_Z (k - z) <= 0) by (change 0 with (inject_Z 0); rewrite <- Zle_Qle; exact L). apply Qabs_case; intros; lra.
  - assert (1 <= inject_Z (k - z)) by (change 1 with (inject_Z 1); rewrite <- Zle_Qle; lia). apply Qabs_case; intros; lra.
Qed.
Lemma R1_picks : picks_fractional 0 p1 R1.
Proof.
  intros it b x L _ _. destruct x as [|v [|? ?]]; try discriminate L. unfold R1. split; [destruct (frac 0 v); eauto|]. intros j up H.
  destruct (frac 0 v) eqn:F; [|discriminate H]. assert (j = 0%nat) by congruence. subst j. split; [reflexivity|]. apply frac_iff. exact F.
Qed.
Lemma endless : forall fuel it k log (z : Z), (z <= 0)%Z ->
  outer fuel p1 S1 R1 0 0 100 it (mkD k log (mkCols [MInf] [Fin (inject_Z z)]) [inject_Z z - (1 # 2)]) = Diverges.
Proof.
  induction fuel as [|fuel IH]; intros it k log z Z0.
  - cbn [outer s_x d_ints p1 int_cols count_frac rd nth_error bind]. rewrite half_frac. reflexivity.
  - rewrite outer_step. cbn [s_x s_b d_ints p1 int_cols count_frac rd nth_error bind]. rewrite half_frac. cbn [Nat.eqb]. cbn [R1]. rewrite half_frac.
    unfold round. cbn [fix_at_bounds s_x s_b s_k s_log rd nth_error bind]. rewrite half_frac. cbn [negb andb length bind k_lo k_up rd nth_error].
    unfold set_up, chk, setUpper, lset. cbn [k_lo k_up length Nat.ltb Nat.leb firstn skipn app bind inner].
    assert (E : Qfloor (inject_Z z - (1 # 2)) = (z - 1)%Z).
    { unfold Qminus, Qplus, Qopp, inject_Z, Qfloor. cbn [Qnum Qden]. symmetry. apply Z.div_unique with (r := 1%Z); [lia|]. lia. }
    unfold S1 at 1. cbn [k_lo k_up fl]. rewrite E. rewrite Qfloor_Z. cbn [d_f p1 nth].
    assert (V : Qle_bool 100 (inject_Z (z - 1) - (1 # 2)) = false).
    { apply Qleb_gt. assert (inject_Z (z - 1) <= 0) by (change 0 with (inject_Z 0); rewrite <- Zle_Qle; lia). lra. }
    cbn [bind nth]. rewrite V. unfold fl. rewrite E. apply IH. lia.
Qed.
Lemma C85_unbounded : ~ C85_full.
Proof.
  intros H. destruct (H p1 S1 R1 0 0 0%nat 100%nat 0%nat (mkCols [MInf] [Fin (inject_Z 0)]) [inject_Z 0 - (1 # 2)] [] 100 []) as (N & HN).
  - repeat split.
  - intros x _. reflexivity.
  - lra.
  - exact S1_honest.
  - exact R1_picks.
  - exact Logic.I.
  - split; repeat constructor. simpl. unfold inject_Z. lra.
  - reflexivity.
  - intros i Hi. simpl in Hi. lia.
  - destruct (HN N (Nat.le_refl _)) as (r & E). revert E. unfold dive.
    change (negb (Nat.eqb (Nat.modulo 0 100) 0) || Nat.ltb 1 0)%bool with false. cbv iota.
    change (adjust 0 (length (d_gl p1)) [] (d_gl p1) (d_gu p1) (1 # 1000000)) with (Ok (1 # 1000000)). cbn [bind].
    change (isNlpFeasible p1 (mkCols [MInf] [Fin (inject_Z 0)]) [inject_Z 0 - (1 # 2)] [] (1 # 1000000)) with (Ok true). cbn [bind chk].
    change (most_fix 0 p1) with 0%nat. rewrite endless by lia. discriminate.
Qed.

(** ** C41 with a solver that leaves the bounds *)
Definition p2 : dprob := mkDprob [true] [] [] (fun x => nth 0 x 0) (fun _ => []).
Definition S2 : solver := fun k _ => match k with O => (true, [73 # 10]) | _ => (true, [7]) end.
Definition R2 : rule := fractional_rule (1 # 1000) (fun _ _ => true) [true].
Lemma C41_false : ~ C41_full.
Proof.
  intros H.
  destruct (H 5%nat p2 S2 R2 (1 # 1000) 0 0%nat 100%nat 1%nat (mkCols [Fin 0] [Fin 5]) [1 # 2] [] 100 [] (mkDR true 7 [7] [mkCols [Fin 0] [Fin 7]; mkCols [Fin 0] [Fin 0]])) as (A & _).
  - repeat split.
  - lra.
  - vm_compute. reflexivity.
  - destruct (A eq_refl) as (_ & (_ & B)). inversion B as [|? ? ? ? B1 B2]. simpl in B1. lra.
Qed.

(** ** The fractional rule *)
Lemma down_frac_spec b x i v : nth i x 0 = v -> down_frac v (nlo b i) = if below (inject_Z (Qfloor v)) (nlo b i) then None else Some (dist x i false).
Proof. intros <-. reflexivity. Qed.
Lemma down_can b x i d : down_frac (nth i x 0) (nlo b i) = Some d -> can_round b x i false /\ d = dist x i false.
Proof.
  unfold down_frac. destruct (below _ _) eqn:B; [discriminate|]. intros H. split; [|unfold dist; congruence]. apply below_ok in B. exact B.
Qed.
Lemma down_cannot b x i : down_frac (nth i x 0) (nlo b i) = None -> ~ can_round b x i false.
Proof. unfold down_frac. destruct (below _ _) eqn:B; [|discriminate]. intros _ C. apply below_ok in C. unfold nlo in B. congruence. Qed.
Lemma up_can b x i d : up_frac (nth i x 0) (nup b i) = Some d -> can_round b x i true /\ d = dist x i true.
Proof.
  unfold up_frac. destruct (above _ _) eqn:B; [discriminate|]. intros H. split; [|unfold dist; congruence]. apply above_ok in B. exact B.
Qed.
Lemma up_cannot b x i : up_frac (nth i x 0) (nup b i) = None -> ~ can_round b x i true.
Proof. unfold up_frac. destruct (above _ _) eqn:B; [|discriminate]. intros _ C. apply above_ok in C. unfold nup in B. congruence. Qed.
Definition holds (tol : Q) (b : cols) (x : list Q) (C : nat -> Prop) (bc : option (nat * bool)) (best : option Q) : Prop :=
  match bc, best with
  | None, None => True
  | Some (j, up), Some q => C j /\ frac tol (nth j x 0) = true /\ can_round b x j up /\ q = dist x j up
  | _, _ => False
  end.
Lemma olt_trans a b c : olt b a = false -> olt c b = false -> olt c a = false.
Proof.
  destruct a, b, c; simpl; intros; try congruence; try reflexivity. apply Qltb_ge in H, H0. apply Qltb_ge. lra.
Qed.
Lemma olt_irr a : olt a a = false.
Proof. destruct a; simpl; [apply Qltb_ge; lra|reflexivity]. Qed.
Lemma olt_asym a b : olt a b = true -> olt b a = false.
Proof. destruct a, b; simpl; intros; try congruence; try reflexivity. apply Qltb_lt in H. apply Qltb_ge. lra. Qed.
Lemma frac_rule_ok tol coin b x (C : nat -> Prop) : forall cs k best bc r, holds tol b x C bc best -> Forall C cs ->
  frac_rule tol coin k cs b x best bc = Ok r ->
  exists best', holds tol b x C r best' /\ olt best best' = false /\
    forall i up, In i cs -> frac tol (nth i x 0) = true -> can_round b x i up -> olt (Some (dist x i up)) best' = false.
Proof.
  induction cs as [|i cs IH]; intros k best bc r HB FC H; cbn [frac_rule] in H.
  - assert (r = bc) by congruence. subst r. exists best. split; [exact HB|]. split; [apply olt_irr|]. intros i up [].
  - pose proof (Forall_inv FC) as CI. apply Forall_inv_tail in FC. apply bind_ok in H. destruct H as (v & R & H). apply (rd_inv _ _ _ 0) in R. destruct R as (_ & R).
    destruct (frac tol v) eqn:F.
    + apply bind_ok in H. destruct H as (l & RL & H). apply bind_ok in H. destruct H as (u & RU & H).
      apply (rd_inv _ _ _ MInf) in RL. destruct RL as (_ & RL). apply (rd_inv _ _ _ PInf) in RU. destruct RU as (_ & RU).
      fold (nlo b i) in RL. fold (nup b i) in RU. subst v l u.
      destruct (down_frac (nth i x 0) (nlo b i)) as [d|] eqn:ED.
      all: destruct (up_frac (nth i x 0) (nup b i)) as [a|] eqn:EA.
      all: first [apply down_can in ED; destruct ED as (ED & ->) | apply down_cannot in ED].
      all: first [apply up_can in EA; destruct EA as (EA & ->) | apply up_cannot in EA].
      all: cbn [olt] in H.
      * set (fu := if Qltb (dist x i false) (dist x i true) then _ else _) in H.
        assert (FU : exists up k', fu = (Some (dist x i up), up, k') /\ can_round b x i up /\ forall up', dist x i up <= dist x i up').
        { unfold fu. destruct (Qltb (dist x i false) (dist x i true)) eqn:Q1.
          - apply Qltb_lt in Q1. eexists _, _. split; [reflexivity|]. split; [exact ED|]. intros [|]; lra.
          - apply Qltb_ge in Q1. destruct (Qltb (dist x i true) (dist x i false)) eqn:Q2.
            + apply Qltb_lt in Q2. eexists _, _. split; [reflexivity|]. split; [exact EA|]. intros [|]; lra.
            + apply Qltb_ge in Q2. destruct (coin k); eexists _, _; (split; [reflexivity|]); (split; [assumption|]); intros [|]; lra. }
        destruct FU as (up & k' & -> & CR & MIN).
        destruct (olt (Some (dist x i up)) best) eqn:O.
        -- destruct (IH _ _ _ _ (conj CI (conj F (conj CR eq_refl)) : holds tol b x C (Some (i, up)) (Some (dist x i up))) FC H) as (best' & I1 & I2 & I3).
           exists best'. split; [exact I1|]. split; [eapply olt_trans; [exact I2|apply olt_asym; exact O]|].
           intros i' up' [<-|HI] F' CR'; [|apply I3; auto]. eapply olt_trans; [exact I2|]. simpl. apply Qltb_ge. apply MIN.
        -- destruct (IH _ _ _ _ HB FC H) as (best' & I1 & I2 & I3). exists best'. split; [exact I1|]. split; [exact I2|].
           intros i' up' [<-|HI] F' CR'; [|apply I3; auto]. eapply olt_trans; [exact I2|]. eapply olt_trans; [exact O|]. simpl. apply Qltb_ge. apply MIN.
      * change (match best with Some q => Qltb (dist x i false) q | None => true end) with (olt (Some (dist x i false)) best) in H.
        destruct (olt (Some (dist x i false)) best) eqn:O.
        -- destruct (IH _ _ _ _ (conj CI (conj F (conj ED eq_refl)) : holds tol b x C (Some (i, false)) (Some (dist x i false))) FC H) as (best' & I1 & I2 & I3).
           exists best'. split; [exact I1|]. split; [eapply olt_trans; [exact I2|apply olt_asym; exact O]|].
           intros i' [|] [<-|HI] F' CR'; try (apply I3; auto; fail); [tauto|exact I2].
        -- destruct (IH _ _ _ _ HB FC H) as (best' & I1 & I2 & I3). exists best'. split; [exact I1|]. split; [exact I2|].
           intros i' [|] [<-|HI] F' CR'; try (apply I3; auto; fail); [tauto|]. eapply olt_trans; [exact I2|exact O].
      * change (match best with Some q => Qltb (dist x i true) q | None => true end) with (olt (Some (dist x i true)) best) in H.
        destruct (olt (Some (dist x i true)) best) eqn:O.
        -- destruct (IH _ _ _ _ (conj CI (conj F (conj EA eq_refl)) : holds tol b x C (Some (i, true)) (Some (dist x i true))) FC H) as (best' & I1 & I2 & I3).
           exists best'. split; [exact I1|]. split; [eapply olt_trans; [exact I2|apply olt_asym; exact O]|].
           intros i' [|] [<-|HI] F' CR'; try (apply I3; auto; fail); [exact I2|tauto].
        -- destruct (IH _ _ _ _ HB FC H) as (best' & I1 & I2 & I3). exists best'. split; [exact I1|]. split; [exact I2|].
           intros i' [|] [<-|HI] F' CR'; try (apply I3; auto; fail); [|tauto]. eapply olt_trans; [exact I2|exact O].
      * assert (H' : exists k', frac_rule tol coin k' cs b x best bc = Ok r) by (destruct (coin k); cbn [olt] in H; eauto).
        destruct H' as (k' & H'). destruct (IH _ _ _ _ HB FC H') as (best' & I1 & I2 & I3). exists best'. split; [exact I1|]. split; [exact I2|].
        intros i' [|] [<-|HI] F' CR'; try (apply I3; auto; fail); tauto.
    + destruct (IH _ _ _ _ HB FC H) as (best' & I1 & I2 & I3). exists best'. split; [exact I1|]. split; [exact I2|].
      intros i' up' [<-|HI] F' CR'; [congruence|apply I3; auto].
Qed.
Lemma frac_rule_fine tol coin b x : forall cs k best bc, Forall (fun i => (i < length x)%nat /\ (i < length (k_lo b))%nat /\ (i < length (k_up b))%nat) cs ->
  exists r, frac_rule tol coin k cs b x best bc = Ok r.
Proof.
  induction cs as [|i cs IH]; intros k best bc F; cbn [frac_rule]; [eauto|]. pose proof (Forall_inv F) as (H1 & H2 & H3). apply Forall_inv_tail in F.
  rewrite (rd_fine i x 0) by exact H1. cbn [bind]. destruct (frac _ _); [|apply IH; exact F].
  rewrite (rd_fine i (k_lo b) MInf), (rd_fine i (k_up b) PInf) by assumption. cbn [bind].
  destruct (if olt _ _ then _ else _) as [[fr up] k']. destruct (olt fr best); apply IH; exact F.
Qed.
Lemma candidate_iff tol ints x i : candidate tol ints x i <-> In i (int_cols 0 ints) /\ frac tol (nth i x 0) = true.
Proof. unfold candidate. rewrite int_cols0, frac_iff. tauto. Qed.
Lemma fractional_rule_ok tol coin ints it b x : length x = length ints -> length (k_lo b) = length ints -> length (k_up b) = length ints ->
  exists best, fractional_rule tol coin ints it b x = Ok best /\
  match best with
  | None => forall i up, candidate tol ints x i -> ~ can_round b x i up
  | Some (j, up) => candidate tol ints x j /\ can_round b x j up /\
      forall i up', candidate tol ints x i -> can_round b x i up' -> dist x j up <= dist x i up'
  end.
Proof.
  intros L1 L2 L3. unfold fractional_rule.
  destruct (frac_rule_fine tol (coin it) b x (int_cols 0 ints) 0 None None) as (r & H).
  { apply Forall_forall. intros i Hi. apply int_cols_lt in Hi. lia. }
  exists r. split; [exact H|].
  assert (FC : Forall (fun i => In i (int_cols 0 ints)) (int_cols 0 ints)) by (apply Forall_forall; auto).
  destruct (frac_rule_ok tol (coin it) b x (fun i => In i (int_cols 0 ints)) _ _ _ _ _ (Logic.I : holds tol b x (fun i => In i (int_cols 0 ints)) None None) FC H) as (best' & I1 & I2 & I3).
  destruct r as [(j, up)|]; destruct best' as [q|]; simpl in I1; try tauto.
  - destruct I1 as (C1 & C2 & C3 & ->). split; [apply candidate_iff; auto|]. split; [exact C3|]. intros i up' CI CR. apply candidate_iff in CI.
    specialize (I3 i up' (proj1 CI) (proj2 CI) CR). simpl in I3. apply Qltb_ge in I3. exact I3.
  - intros i up CI CR. apply candidate_iff in CI. specialize (I3 i up (proj1 CI) (proj2 CI) CR). discriminate.
Qed.
Lemma fractional_picks tol coin p : picks_fractional tol p (fractional_rule tol coin (d_ints p)).
Proof.
  intros it b x L1 L2 L3. destruct (fractional_rule_ok tol coin (d_ints p) it b x L1 L2 L3) as (best & E & M). split; [eauto|].
  intros j up H. assert (best = Some (j, up)) by congruence. subst best. destruct M as (M & _). exact M.
Qed.

(** ** The vector-length rule *)
Definition last_opt (l : list nat) : option nat := match rev l with [] => None | j :: _ => Some j end.
Definition counted (n : nat) (pre : list nat) (a : arr nat) : Prop :=
  length a = n /\ forall j, (j < n)%nat -> nth_error a j = Some (if Nat.eqb (occurrences pre j) 0 then None else Some (occurrences pre j)).
Lemma occ_last pre j i : occurrences (pre ++ [j]) i = (occurrences pre i + if Nat.eqb j i then 1 else 0)%nat.
Proof.
  unfold occurrences. induction pre as [|k pre IH]; simpl.
  - destruct (Nat.eq_dec j i), (Nat.eqb_spec j i); congruence.
  - destruct (Nat.eq_dec k i); rewrite IH; lia.
Qed.
Lemma aset_nth {A} i (v : A) a : (i < length a)%nat -> exists a', aset i v a = Ok a' /\ length a' = length a /\ forall j, nth_error a' j = if Nat.eqb j i then Some (Some v) else nth_error a j.
Proof.
  revert i; induction a as [|c a IH]; intros i L; simpl in L; [lia|]. destruct i as [|i]; cbn [aset].
  - eexists. split; [reflexivity|]. split; [reflexivity|]. intros [|j]; reflexivity.
  - destruct (IH i) as (a' & -> & L' & N); [lia|]. cbn [bind]. eexists. split; [reflexivity|]. split; [simpl; lia|]. intros [|j]; [reflexivity|]. apply N.
Qed.
Lemma col_len_ok n : forall js pre a, grouped (pre ++ js) -> Forall (fun j => (j < n)%nat) js -> counted n pre a ->
  exists a', col_len js (last_opt pre) a = Ok a' /\ counted n (pre ++ js) a'.
Proof.
  induction js as [|j js IH]; intros pre a G F (L & C); cbn [col_len].
  - rewrite app_nil_r. eexists. split; [reflexivity|split; assumption].
  - pose proof (Forall_inv F) as LJ. cbv beta in LJ. apply Forall_inv_tail in F.
    assert (NX : last_opt (pre ++ [j]) = Some j) by (unfold last_opt; rewrite rev_app_distr; reflexivity).
    assert (GX : grouped ((pre ++ [j]) ++ js)) by (rewrite <- app_assoc; exact G).
    replace (pre ++ j :: js) with ((pre ++ [j]) ++ js) by (rewrite <- app_assoc; reflexivity).
    rewrite <- NX.
    destruct (match last_opt pre with Some q => Nat.eqb q j | None => false end) eqn:E.
    + assert (IN : In j pre).
      { unfold last_opt in E. destruct (rev pre) as [|q r] eqn:RV; [discriminate|]. apply Nat.eqb_eq in E. subst q. apply in_rev. rewrite RV. left. reflexivity. }
      assert (P : (occurrences pre j > 0)%nat) by (apply count_occ_In; exact IN).
      pose proof (C j LJ) as CJ. destruct (Nat.eqb_spec (occurrences pre j) 0) as [Z|Z]; [lia|].
      unfold aget. rewrite CJ. cbn [bind]. destruct (aset_nth j (S (occurrences pre j)) a) as (a' & -> & L' & N); [lia|]. cbn [bind].
      apply IH; auto. split; [lia|]. intros i Hi. rewrite N, occ_last. rewrite (Nat.eqb_sym j i). destruct (Nat.eqb_spec i j) as [->|NE].
      * rewrite Nat.add_1_r. reflexivity.
      * rewrite Nat.add_0_r. apply C. exact Hi.
    + assert (NI : ~ In j pre).
      { intros IN. destruct pre as [|p0 pre0] using rev_ind; [destruct IN|]. clear IHpre0. unfold last_opt in E. rewrite rev_app_distr in E. simpl in E.
        apply in_app_or in IN. destruct IN as [IN|[->|[]]]; [|rewrite Nat.eqb_refl in E; discriminate].
        apply in_split in IN. destruct IN as (u & w & ->).
        assert (Q1 : Forall (fun k => k = j) (w ++ [p0])). { apply (G u j (w ++ [p0]) js). rewrite <- !app_assoc. reflexivity. }
        apply Forall_app in Q1. destruct Q1 as (_ & Q1). apply Forall_inv in Q1. subst p0. rewrite Nat.eqb_refl in E. discriminate. }
      assert (P : occurrences pre j = 0%nat) by (apply count_occ_not_In; exact NI).
      destruct (aset_nth j 1%nat a) as (a' & -> & L' & N); [lia|]. cbn [bind].
      apply IH; auto. split; [lia|]. intros i Hi. rewrite N, occ_last. rewrite (Nat.eqb_sym j i). destruct (Nat.eqb_spec i j) as [->|NE].
      * rewrite P. reflexivity.
      * rewrite Nat.add_0_r. apply C. exact Hi.
Qed.
Lemma columnLength_ok n js : grouped js -> Forall (fun j => (j < n)%nat) js -> exists a, columnLength n js = Ok a /\ counted n js a.
Proof.
  intros G F. unfold columnLength. apply (col_len_ok n js [] (fresh n)); auto. split; [apply fresh_length|]. intros j Hj. unfold fresh.
  replace (occurrences [] j) with 0%nat by reflexivity. simpl Nat.eqb. apply nth_error_repeat. exact Hj.
Qed.
Section Len.
Variables (tol : Q) (js : list nat) (gf : list Q -> list Q) (b : cols) (x : list Q) (a : arr nat).
Definition dirn (i : nat) : bool := Qle_bool 0 (nth i (gf x) 0).
Definition kept (C : nat -> Prop) (bc : option (nat * bool)) (best : ext) : Prop :=
  match bc with
  | None => best = Fin dmax
  | Some (j, up) => C j /\ frac tol (nth j x 0) = true /\ up = dirn j /\ best = Fin (cost js gf x j up)
  end.
Lemma len_rule_ok (C : nat -> Prop) : forall cs best bc, kept C bc best ->
  Forall (fun i => C i /\ can_round b x i true /\ can_round b x i false /\ nth_error a i = Some (Some (occurrences js i)) /\
     (i < length x)%nat /\ (i < length (gf x))%nat /\ (i < length (k_lo b))%nat /\ (i < length (k_up b))%nat) cs ->
  exists r best', len_rule tol a cs (gf x) b x best bc = Ok r /\ kept C r best' /\ ele best' best /\
    forall i, In i cs -> frac tol (nth i x 0) = true -> ele best' (Fin (cost js gf x i (dirn i))).
Proof.
  induction cs as [|i cs IH]; intros best bc K F; cbn [len_rule].
  - exists bc, best. split; [reflexivity|]. split; [exact K|]. split; [apply ele_refl|]. intros i [].
  - pose proof (Forall_inv F) as (F1 & F2 & F3 & F4 & F5 & F6 & F7 & F8). apply Forall_inv_tail in F.
    rewrite (rd_fine i x 0) by exact F5. cbn [bind]. destruct (frac tol (nth i x 0)) eqn:FR.
    + rewrite (rd_fine i (gf x) 0), (rd_fine i (k_lo b) MInf), (rd_fine i (k_up b) PInf) by assumption. cbn [bind].
      fold (nlo b i) (nup b i).
      destruct (down_frac (nth i x 0) (nlo b i)) as [d|] eqn:ED; [|apply down_cannot in ED; tauto]. apply down_can in ED. destruct ED as (_ & ->).
      destruct (up_frac (nth i x 0) (nup b i)) as [c|] eqn:EA; [|apply up_cannot in EA; tauto]. apply up_can in EA. destruct EA as (_ & ->).
      cbn [olt]. rewrite !andb_true_r.
      assert (E : (if Qle_bool 0 (nth i (gf x) 0) then (times (nth i (gf x) 0) (Some (dist x i true)), true)
                   else if Qltb (nth i (gf x) 0) 0 then (times (nth i (gf x) 0) (Some (dist x i false)), false)
                   else (times (nth i (gf x) 0) (Some (dist x i true)), true)) = (Fin (nth i (gf x) 0 * dist x i (dirn i)), dirn i)).
      { unfold dirn. destruct (Qle_bool 0 (nth i (gf x) 0)) eqn:G; [reflexivity|]. apply Qleb_gt in G. apply Qltb_lt in G. rewrite G. reflexivity. }
      rewrite E. unfold aget. rewrite F4. cbn [bind]. cbn [score].
      change (Fin ((nth i (gf x) 0 * dist x i (dirn i) + (1 # 1000000)) / inject_Z (Z.of_nat (S (occurrences js i))))) with (Fin (cost js gf x i (dirn i))).
      destruct (ext_ltb (Fin (cost js gf x i (dirn i))) best) eqn:O.
      * destruct (IH (Fin (cost js gf x i (dirn i))) (Some (i, dirn i)) (conj F1 (conj FR (conj eq_refl eq_refl))) F) as (r & best' & I0 & I1 & I2 & I3).
        exists r, best'. split; [exact I0|]. split; [exact I1|]. split; [eapply ele_trans; [exact I2|apply ext_lt_asym; exact O]|].
        intros i' [<-|HI] F'; [exact I2|apply I3; auto].
      * destruct (IH best bc K F) as (r & best' & I0 & I1 & I2 & I3). exists r, best'. split; [exact I0|]. split; [exact I1|]. split; [exact I2|].
        intros i' [<-|HI] F'; [eapply ele_trans; [exact I2|exact O]|apply I3; auto].
    + destruct (IH best bc K F) as (r & best' & I0 & I1 & I2 & I3). exists r, best'. split; [exact I0|]. split; [exact I1|]. split; [exact I2|].
      intros i' [<-|HI] F'; [congruence|apply I3; auto].
Qed.
End Len.
Lemma int_floor q z v : q == inject_Z z -> q <= v -> q <= inject_Z (Qfloor v).
Proof.
  intros E L. rewrite E in L |- *. apply Qfloor_resp_le in L. rewrite Qfloor_Z in L. rewrite <- Zle_Qle. exact L.
Qed.
Lemma int_ceil q z v : q == inject_Z z -> v <= q -> inject_Z (Qceiling v) <= q.
Proof.
  intros E L. rewrite E in L |- *. apply Qceiling_resp_le in L. rewrite Qceiling_Z in L. rewrite <- Zle_Qle. exact L.
Qed.
Lemma both_round ints b x i : integer_bounds ints b -> in_box b x -> nth i ints false = true -> (i < length x)%nat -> can_round b x i true /\ can_round b x i false.
Proof.
  intros IB BX I L. destruct (IB i I) as (B1 & B2). apply in_box_nth in BX. destruct BX as (_ & _ & BX). destruct (BX i L) as (X1 & X2). split; simpl.
  - unfold nup in X2. destruct (nth i (k_up b) PInf); simpl in X2 |- *; auto. destruct (B2 q eq_refl) as (z & E). eapply int_ceil; eauto.
  - unfold nlo in X1. destruct (nth i (k_lo b) MInf); simpl in X1 |- *; auto. destruct (B1 q eq_refl) as (z & E). eapply int_floor; eauto.
Qed.
Lemma vectorLength_ok : C87_claim (fun ints js b _ => grouped js /\ (forall i, nth i ints false = true -> In i js) /\ integer_bounds ints b).
Proof.
  intros tol ints js gf it b x T0 L1 L2 L3 L4 J BX CO (G & OC & IB). unfold vectorLength_rule.
  destruct (columnLength_ok (length ints) js G J) as (a & -> & (LA & CA)). cbn [bind].
  assert (FC : Forall (fun i => In i (int_cols 0 ints) /\ can_round b x i true /\ can_round b x i false /\ nth_error a i = Some (Some (occurrences js i)) /\
     (i < length x)%nat /\ (i < length (gf x))%nat /\ (i < length (k_lo b))%nat /\ (i < length (k_up b))%nat) (int_cols 0 ints)).
  { apply Forall_forall. intros i Hi. pose proof (int_cols_lt _ _ Hi) as LI. split; [exact Hi|]. apply int_cols0 in Hi.
    destruct (both_round ints b x i IB BX Hi) as (R1 & R2); [lia|]. split; [exact R1|]. split; [exact R2|]. split.
    - rewrite (CA i LI). pose proof (OC i Hi) as OI. apply (count_occ_In Nat.eq_dec) in OI. unfold occurrences. destruct (Nat.eqb_spec (count_occ Nat.eq_dec js i) 0); [lia|reflexivity].
    - lia. }
  destruct (len_rule_ok tol js gf b x a (fun i => In i (int_cols 0 ints)) (int_cols 0 ints) (Fin dmax) None eq_refl FC) as (r & best' & H & K & E1 & E2).
  exists r. split; [exact H|].
  assert (WD : forall i up, nth i ints false = true -> wanted b gf x i up -> up = dirn gf x i).
  { intros i up Hi (W1 & W2). assert (LI : (i < length x)%nat) by (rewrite L1; apply int_cols_lt, int_cols0; exact Hi).
    destruct (both_round ints b x i IB BX Hi LI) as (R1 & R2). unfold dirn. destruct up.
    - destruct W2 as [W2|W2]; [|tauto]. symmetry. apply Qleb_le. exact W2.
    - destruct W2 as [W2|W2]; [|tauto]. symmetry. apply Qleb_gt. exact W2. }
  destruct r as [(j, up)|]; simpl in K.
  - destruct K as (K1 & K2 & -> & ->). split; [apply candidate_iff; auto|]. pose proof K1 as K1'. apply int_cols0 in K1.
    assert (LI : (j < length x)%nat) by (rewrite L1; apply int_cols_lt; exact K1').
    destruct (both_round ints b x j IB BX K1 LI) as (R1 & R2). split.
    + unfold wanted, dirn. destruct (Qle_bool 0 (nth j (gf x) 0)) eqn:G0; split; auto; left; [apply Qleb_le; exact G0|apply Qleb_gt; exact G0].
    + intros i up' CI W. apply candidate_iff in CI. destruct CI as (CI & CF). rewrite (WD i up' (proj1 (int_cols0 _ _) CI) W). specialize (E2 i CI CF). simpl in E2. apply Qltb_ge in E2. exact E2.
  - subst best'. intros i CI. apply candidate_iff in CI. destruct CI as (CI & CF). specialize (E2 i CI CF). simpl in E2. apply Qltb_ge in E2.
    specialize (CO i (dirn gf x i) (proj1 (int_cols0 _ _) CI)). lra.
Qed.
(** A Jacobian stored by rows: variable 0 occurs in both constraints, but is counted once. *)
Lemma C87_false : ~ C87_full.
Proof.
  intros H. pose (ints := [true; true]). pose (b := mkCols [Fin 0; Fin 0] [Fin 1; Fin 1]). pose (x := [1 # 2; 1 # 2]). pose (gf := fun _ : list Q => [2; 3 # 2]).
  destruct (H (1 # 10) ints [0; 1; 0]%nat gf 0%nat b x) as (best & E & M).
  - lra.
  - reflexivity.
  - reflexivity.
  - reflexivity.
  - reflexivity.
  - repeat constructor.
  - split; repeat constructor; simpl; lra.
  - intros [|[|i]] up Hi; [destruct up; reflexivity|destruct up; reflexivity|]. destruct i; discriminate Hi.
  - exact Logic.I.
  - assert (E' : vectorLength_rule (1 # 10) ints [0; 1; 0]%nat gf 0%nat b x = Ok (Some (1%nat, true))) by (vm_compute; reflexivity).
    rewrite E' in E. assert (best = Some (1%nat, true)) by congruence. subst best. destruct M as (_ & _ & M).
    specialize (M 0%nat true). assert (cost [0; 1; 0]%nat gf x 0 true < cost [0; 1; 0]%nat gf x 1 true) as L by (vm_compute; reflexivity).
    assert (cost [0; 1; 0]%nat gf x 1 true <= cost [0; 1; 0]%nat gf x 0 true); [|lra]. apply M.
    + split; [reflexivity|]. apply frac_iff. reflexivity.
    + split; [vm_compute; discriminate|]. left. vm_compute. discriminate.
Qed.
