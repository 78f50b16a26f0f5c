(** Proofs for the diving heuristics. *)
From Verif Require Import Base Arr Nlp Oad_Model Oad_Spec Oad_Proofs Oad_Proofs2 Str_Proofs Div_Model Div_Spec.
#[local] Open Scope Q_scope.

Notation ele a b := (ext_ltb b a = false).
Lemma below_ok v l : below v l = false <-> lo_ok l v.
Proof. destruct l; simpl; [tauto|apply Qltb_ge|]. split; [discriminate|tauto]. Qed.
Lemma above_ok v u : above v u = false <-> up_ok u v.
Proof. destruct u; simpl; [|apply Qltb_ge|tauto]. split; [discriminate|tauto]. Qed.
Lemma lo_ele l v : lo_ok l v <-> ele l (Fin v).
Proof. destruct l; simpl; [tauto| |]. symmetry; apply Qltb_ge. split; [tauto|discriminate]. Qed.
Lemma up_ele u v : up_ok u v <-> ele (Fin v) u.
Proof. destruct u; simpl; [|symmetry; apply Qltb_ge|tauto]. split; [tauto|discriminate]. Qed.
Lemma ele_trans a b c : ele a b -> ele b c -> ele a c.
Proof. apply ext_le_le. Qed.
Lemma ele_refl a : ele a a.
Proof. apply ext_irr. Qed.
Lemma lo_plus l v t : lo_ok (eplus l (- t)) v <-> lo_ok l (v + t).
Proof. destruct l; simpl; try tauto. split; intros; lra. Qed.
Lemma up_plus u v t : up_ok (eplus u t) v <-> up_ok u (v - t).
Proof. destruct u; simpl; try tauto. split; intros; lra. Qed.
Lemma row_iff v l u t : (below v (eplus l (- t)) || above v (eplus u t))%bool = false <-> row_within t l u v.
Proof. rewrite orb_false_iff, below_ok, above_ok, lo_plus, up_plus. unfold row_within. tauto. Qed.

(** floor(v + 1/2) is a nearest integer *)
Lemma nearest_best v (z : Z) : Qabs (inject_Z (nearest v) - v) <= Qabs (v - inject_Z z).
Proof.
  unfold nearest. pose proof (Qfloor_le (v + (1 # 2))) as A. pose proof (Qlt_floor (v + (1 # 2))) as B.
  set (k := Qfloor (v + (1 # 2))) in *. rewrite inject_Z_plus in B. change (inject_Z 1) with 1 in B.
  destruct (Z.eq_dec z k) as [->|N]. { setoid_replace (v - inject_Z k) with (- (inject_Z k - v)) by ring. rewrite Qabs_opp. lra. }
  assert (H : inject_Z z + 1 <= inject_Z k \/ inject_Z k + 1 <= inject_Z z).
  { destruct (Z.lt_ge_cases z k) as [L|L].
    - left. change 1 with (inject_Z 1). rewrite <- inject_Z_plus, <- Zle_Qle. lia.
    - right. change 1 with (inject_Z 1). rewrite <- inject_Z_plus, <- Zle_Qle. lia. }
  apply Qabs_case; apply Qabs_case; intros; destruct H; lra.
Qed.
Lemma frac_iff tol v : frac tol v = true <-> forall z : Z, tol < Qabs (v - inject_Z z).
Proof.
  unfold frac. rewrite Qltb_lt. split; intros H.
  - intros z. pose proof (nearest_best v z). lra.
  - specialize (H (nearest v)). setoid_replace (inject_Z (nearest v) - v) with (- (v - inject_Z (nearest v))) by ring. rewrite Qabs_opp. exact H.
Qed.
Lemma frac_not tol v : frac tol v = false -> exists z : Z, Qabs (v - inject_Z z) <= tol.
Proof.
  unfold frac. intros H. apply Qltb_ge in H. exists (nearest v).
  setoid_replace (v - inject_Z (nearest v)) with (- (inject_Z (nearest v) - v)) by ring. rewrite Qabs_opp. exact H.
Qed.
Lemma frac_floor tol v : 0 <= tol -> frac tol v = true -> inject_Z (Qfloor v) < v /\ v < inject_Z (Qceiling v) /\ (Qceiling v = Qfloor v + 1)%Z.
Proof.
  intros T F. pose proof (proj1 (frac_iff tol v) F) as F'.
  assert (NI : forall z : Z, ~ v == inject_Z z).
  { intros z E. specialize (F' z). rewrite E in F'. setoid_replace (inject_Z z - inject_Z z) with 0 in F' by ring. rewrite Qabs_pos in F' by lra. lra. }
  pose proof (Qfloor_le v) as A. pose proof (Qle_ceiling v) as B. pose proof (Qlt_floor v) as C. pose proof (Qceiling_lt v) as D.
  assert (E1 : inject_Z (Qfloor v) < v) by (destruct (Qle_lt_or_eq _ _ A) as [X|X]; [exact X|symmetry in X; apply NI in X; tauto]).
  assert (E2 : v < inject_Z (Qceiling v)) by (destruct (Qle_lt_or_eq _ _ B) as [X|X]; [exact X|apply NI in X; tauto]).
  repeat split; auto.
  assert (G1 : inject_Z (Qfloor v) < inject_Z (Qceiling v)) by lra.
  assert (G2 : inject_Z (Qceiling v - 1) < inject_Z (Qfloor v + 1)) by lra.
  rewrite <- Zlt_Qlt in G1, G2. lia.
Qed.

(** ** Reading and writing bounds *)
Definition nlo (b : cols) i := nth i (k_lo b) MInf.
Definition nup (b : cols) i := nth i (k_up b) PInf.
Lemma set_lo_inv i e b b' : set_lo i e b = Ok b' -> (i < length (k_lo b))%nat /\ length (k_lo b') = length (k_lo b) /\ k_up b' = k_up b /\
  forall j, nlo b' j = if Nat.eqb j i then e else nlo b j.
Proof.
  unfold set_lo, chk, setLower. destruct (Nat.ltb i _); simpl; [|discriminate]. intros H. apply bind_ok in H. destruct H as (l & E & H).
  assert (b' = mkCols l (k_up b)) by congruence. subst b'. apply (lset_inv _ _ _ _ MInf) in E. destruct E as (E1 & E2 & E3).
  repeat split; auto.
Qed.
Lemma set_up_inv i e b b' : set_up i e b = Ok b' -> (i < length (k_up b))%nat /\ length (k_up b') = length (k_up b) /\ k_lo b' = k_lo b /\
  forall j, nup b' j = if Nat.eqb j i then e else nup b j.
Proof.
  unfold set_up, chk, setUpper. destruct (Nat.ltb i _); simpl; [|discriminate]. intros H. apply bind_ok in H. destruct H as (l & E & H).
  assert (b' = mkCols (k_lo b) l) by congruence. subst b'. apply (lset_inv _ _ _ _ PInf) in E. destruct E as (E1 & E2 & E3).
  repeat split; auto.
Qed.
Lemma set_lo_fine i e b : (i < length (k_lo b))%nat -> exists b', set_lo i e b = Ok b'.
Proof.
  intros H. unfold set_lo, chk, setLower. apply Nat.ltb_lt in H as H'. rewrite H'. simpl. rewrite lset_ok by exact H. simpl. eauto.
Qed.
Lemma set_up_fine i e b : (i < length (k_up b))%nat -> exists b', set_up i e b = Ok b'.
Proof.
  intros H. unfold set_up, chk, setUpper. apply Nat.ltb_lt in H as H'. rewrite H'. simpl. rewrite lset_ok by exact H. simpl. eauto.
Qed.

Definition same_size (b b' : cols) := length (k_lo b') = length (k_lo b) /\ length (k_up b') = length (k_up b).
(** Bounds no wider than those of [b0]. *)
Definition tight (b0 b : cols) := forall i, ele (nlo b0 i) (nlo b i) /\ ele (nup b i) (nup b0 i).
Lemma tight_refl b : tight b b.
Proof. intros i. split; apply ele_refl. Qed.
Lemma tight_trans a b c : tight a b -> tight b c -> tight a c.
Proof. intros H K i. destruct (H i), (K i). split; eapply ele_trans; eauto. Qed.
Lemma in_box_nth b x : in_box b x <-> length (k_lo b) = length x /\ length (k_up b) = length x /\
  forall i, (i < length x)%nat -> lo_ok (nlo b i) (nth i x 0) /\ up_ok (nup b i) (nth i x 0).
Proof.
  unfold in_box, in_bounds. split.
  - intros (A & B). pose proof (Forall2_len _ _ _ A) as LA. pose proof (Forall2_len _ _ _ B) as LB. repeat split; auto.
    + apply (Forall2_nth_inv _ _ _ MInf 0 A). lia.
    + apply (Forall2_nth_inv _ _ _ PInf 0 B). lia.
  - intros (A & B & C). split.
    + apply (Forall2_nth _ _ _ MInf 0); [exact A|]. intros i Hi. apply C. lia.
    + apply (Forall2_nth _ _ _ PInf 0); [exact B|]. intros i Hi. apply C. lia.
Qed.
Lemma tight_part b0 b : same_size b0 b -> tight b0 b -> part_of b0 b.
Proof.
  intros (S1 & S2) T x H. apply in_box_nth in H. destruct H as (A & B & C). apply in_box_nth. split; [lia|]. split; [lia|].
  intros i Hi. destruct (C i Hi) as (C1 & C2), (T i) as (T1 & T2). rewrite lo_ele in *. rewrite up_ele in *.
  split; [eapply ele_trans; [exact T1|exact C1]|eapply ele_trans; [exact C2|exact T2]].
Qed.
Lemma tight_lo b0 b b' i e : tight b0 b -> set_lo i e b = Ok b' -> ele (nlo b0 i) e -> tight b0 b'.
Proof.
  intros T E H j. apply set_lo_inv in E. destruct E as (_ & _ & E2 & E3). rewrite E3. unfold nup. rewrite E2. split; [|apply (T j)].
  destruct (Nat.eqb_spec j i) as [->|_]; [exact H|apply (T j)].
Qed.
Lemma tight_up b0 b b' i e : tight b0 b -> set_up i e b = Ok b' -> ele e (nup b0 i) -> tight b0 b'.
Proof.
  intros T E H j. apply set_up_inv in E. destruct E as (_ & _ & E2 & E3). rewrite E3. unfold nlo. rewrite E2. split; [apply (T j)|].
  destruct (Nat.eqb_spec j i) as [->|_]; [exact H|apply (T j)].
Qed.
Lemma size_lo b0 b b' i e : same_size b0 b -> set_lo i e b = Ok b' -> same_size b0 b'.
Proof. intros (A & B) E. apply set_lo_inv in E. destruct E as (_ & E1 & E2 & _). split; [congruence|]. rewrite E2. exact B. Qed.
Lemma size_up b0 b b' i e : same_size b0 b -> set_up i e b = Ok b' -> same_size b0 b'.
Proof. intros (A & B) E. apply set_up_inv in E. destruct E as (_ & E1 & E2 & _). split; [rewrite E2; exact A|congruence]. Qed.

(** ** The tests *)
Lemma rows_ok_iff gl gu gs t : length gu = length gl -> forall k i r, (i + k <= length gl)%nat -> rows_ok i k gs gl gu t = Ok r ->
  (r = true <-> forall j, (i <= j < i + k)%nat -> row_within t (nth j gl MInf) (nth j gu PInf) (nth j gs 0)) /\
  (r = true -> (i + k <= length gs)%nat \/ k = 0%nat).
Proof.
  intros LU. induction k as [|k IH]; intros i r L H; cbn [rows_ok] in H.
  - assert (r = true) by congruence. subst. split; [split; [intros; lia|auto]|right; lia].
  - apply bind_ok in H. destruct H as (v & E1 & H). apply (rd_inv _ _ _ 0) in E1. destruct E1 as (E1 & E1').
    apply bind_ok in H. destruct H as (l & E2 & H). apply (rd_inv _ _ _ MInf) in E2. destruct E2 as (E2 & E2').
    apply bind_ok in H. destruct H as (u & E3 & H). apply (rd_inv _ _ _ PInf) in E3. destruct E3 as (E3 & E3').
    destruct (below v (eplus l (- t)) || above v (eplus u t))%bool eqn:B.
    + assert (r = false) by congruence. subst r. split; [|discriminate]. split; [discriminate|]. intros C.
      specialize (C i). subst. assert (C' := C ltac:(lia)). apply row_iff in C'. congruence.
    + apply row_iff in B. apply IH in H; [|lia]. destruct H as (IH1 & IH2). split.
      * rewrite IH1. split; intros C j Hj.
        -- destruct (Nat.eq_dec j i) as [->|N]; [subst; exact B|apply C; lia].
        -- apply C; lia.
      * intros R. left. destruct (IH2 R); lia.
Qed.
Lemma rows_ok_fine gl gu gs t : length gu = length gl -> length gs = length gl -> forall k i, (i + k <= length gl)%nat -> exists r, rows_ok i k gs gl gu t = Ok r.
Proof.
  intros LU LS. induction k as [|k IH]; intros i L; cbn [rows_ok]; [eauto|].
  rewrite (rd_fine i gs 0), (rd_fine i gl MInf), (rd_fine i gu PInf) by lia. cbn [bind].
  destruct (_ || _)%bool; [eauto|]. apply IH. lia.
Qed.
Lemma rows_ok_all p t gs r : length (d_gu p) = length (d_gl p) -> rows_ok 0 (length (d_gl p)) gs (d_gl p) (d_gu p) t = Ok r ->
  (r = true <-> rows_within p t gs).
Proof.
  intros LU H. apply rows_ok_iff in H; [|exact LU|lia]. destruct H as (H & _). rewrite H. unfold rows_within. split; intros C i Hi; apply C; lia.
Qed.

Definition row_open (l u : ext) := exists w, lo_ok l w /\ up_ok u w.
Lemma adjust_ok gl gu gs : length gu = length gl -> forall k i t t', (i + k <= length gl)%nat -> 0 <= t -> adjust i k gs gl gu t = Ok t' ->
  t <= t' /\ (forall t2, t <= t2 -> (forall j, (i <= j < i + k)%nat -> row_within t2 (nth j gl MInf) (nth j gu PInf) (nth j gs 0)) -> t' <= t2) /\
  (forall j, (i <= j < i + k)%nat -> row_open (nth j gl MInf) (nth j gu PInf) -> row_within t' (nth j gl MInf) (nth j gu PInf) (nth j gs 0)).
Proof.
  intros LU. induction k as [|k IH]; intros i t t' L T0 H; cbn [adjust] in H.
  - assert (t' = t) by congruence. subst. repeat split; intros; try lra; try lia.
  - apply bind_ok in H. destruct H as (v & E1 & H). apply (rd_inv _ _ _ 0) in E1. destruct E1 as (E1 & E1').
    apply bind_ok in H. destruct H as (l & E2 & H). apply (rd_inv _ _ _ MInf) in E2. destruct E2 as (E2 & E2').
    apply bind_ok in H. destruct H as (u & E3 & H). apply (rd_inv _ _ _ PInf) in E3. destruct E3 as (E3 & E3').
    set (t1 := if below v (eplus l (- t)) then _ else _) in H.
    assert (T1 : t <= t1).
    { unfold t1. destruct (below v (eplus l (- t))) eqn:B.
      - destruct l; simpl in B |- *; try lra. apply Qltb_lt in B. lra.
      - destruct (above v (eplus u t)) eqn:A; [|lra]. destruct u; simpl in A |- *; try lra. apply Qltb_lt in A. lra. }
    apply IH in H; [|lia|lra]. destruct H as (H1 & H2 & H3).
    assert (T2 : forall t2, t <= t2 -> row_within t2 l u v -> t1 <= t2).
    { intros t2 G (W1 & W2). unfold t1. destruct (below v (eplus l (- t))) eqn:B.
      - destruct l; simpl in B, W1 |- *; try tauto; try lra.
      - destruct (above v (eplus u t)) eqn:A; [|lra]. destruct u; simpl in A, W2 |- *; try tauto; try lra. }
    assert (T3 : row_open l u -> forall t2, t1 <= t2 -> row_within t2 l u v).
    { intros (w & W1 & W2) t2 G. unfold t1 in G.
      destruct (below v (eplus l (- t))) eqn:B.
      - split.
        + destruct l; simpl in B, W1, G |- *; try tauto; try lra.
        + assert (t <= t2) by (change (if true then match l with Fin q => q - v | _ => t end else t) with (match l with Fin q => q - v | _ => t end) in G; unfold t1 in T1; destruct l; simpl in *; lra).
          destruct l; simpl in B, W1; try discriminate; try tauto. apply Qltb_lt in B. destruct u; simpl in W2 |- *; try tauto. lra.
      - apply below_ok, lo_plus in B. destruct (above v (eplus u t)) eqn:A.
        + assert (t <= t2) by (unfold t1 in T1; destruct u; simpl in *; lra).
          split; [destruct l; simpl in B |- *; try tauto; lra|]. destruct u; simpl in A, W2, G |- *; try tauto; lra.
        + apply above_ok, up_plus in A. split; [destruct l; simpl in B |- *; try tauto; lra|destruct u; simpl in A |- *; try tauto; lra]. }
    subst v l u. split; [lra|]. split.
    + intros t2 G W. apply H2; [apply T2; [exact G|apply W; lia]|intros j Hj; apply W; lia].
    + intros j Hj OP. destruct (Nat.eq_dec j i) as [->|N]; [apply T3; auto|apply H3; [lia|exact OP]].
Qed.
Lemma adjust_fine gl gu gs : length gu = length gl -> length gs = length gl -> forall k i t, (i + k <= length gl)%nat -> exists t', adjust i k gs gl gu t = Ok t'.
Proof.
  intros LU LS. induction k as [|k IH]; intros i t L; cbn [adjust]; [eauto|].
  rewrite (rd_fine i gs 0), (rd_fine i gl MInf), (rd_fine i gu PInf) by lia. cbn [bind]. apply IH. lia.
Qed.
Lemma box_ok_iff b x : forall k i r, box_ok i k x b = Ok r ->
  (r = true <-> forall j, (i <= j < i + k)%nat -> lo_ok (nlo b j) (nth j x 0) /\ up_ok (nup b j) (nth j x 0)).
Proof.
  induction k as [|k IH]; intros i r H; cbn [box_ok] in H.
  - assert (r = true) by congruence. subst. split; [intros; lia|auto].
  - apply bind_ok in H. destruct H as (v & E1 & H). apply (rd_inv _ _ _ 0) in E1. destruct E1 as (E1 & E1').
    apply bind_ok in H. destruct H as (l & E2 & H). apply (rd_inv _ _ _ MInf) in E2. destruct E2 as (E2 & E2').
    apply bind_ok in H. destruct H as (u & E3 & H). apply (rd_inv _ _ _ PInf) in E3. destruct E3 as (E3 & E3').
    subst. destruct (_ || _)%bool eqn:B.
    + assert (r = false) by congruence. subst r. split; [discriminate|]. intros C. destruct (C i) as (C1 & C2); [lia|].
      apply below_ok in C1. apply above_ok in C2. unfold nlo, nup in C1, C2. rewrite C1, C2 in B. discriminate.
    + apply orb_false_iff in B. destruct B as (B1 & B2). apply below_ok in B1. apply above_ok in B2.
      apply IH in H. rewrite H. split; intros C j Hj.
      * destruct (Nat.eq_dec j i) as [->|N]; [split; assumption|apply C; lia].
      * apply C; lia.
Qed.
Lemma box_ok_fine b x : forall k i, (i + k <= length x)%nat -> (i + k <= length (k_lo b))%nat -> (i + k <= length (k_up b))%nat -> exists r, box_ok i k x b = Ok r.
Proof.
  induction k as [|k IH]; intros i L1 L2 L3; cbn [box_ok]; [eauto|].
  rewrite (rd_fine i x 0), (rd_fine i (k_lo b) MInf), (rd_fine i (k_up b) PInf) by lia. cbn [bind].
  destruct (_ || _)%bool; [eauto|]. apply IH; lia.
Qed.
Lemma end_ok_iff b x tol ints : forall k i r, end_ok i k tol ints x b = Ok r ->
  (r = true <-> forall j, (i <= j < i + k)%nat -> (lo_ok (nlo b j) (nth j x 0) /\ up_ok (nup b j) (nth j x 0)) /\ (nth j ints false = true -> frac tol (nth j x 0) = false)).
Proof.
  induction k as [|k IH]; intros i r H; cbn [end_ok] in H.
  - assert (r = true) by congruence. subst. split; [intros; lia|auto].
  - apply bind_ok in H. destruct H as (v & E1 & H). apply (rd_inv _ _ _ 0) in E1. destruct E1 as (E1 & E1').
    apply bind_ok in H. destruct H as (l & E2 & H). apply (rd_inv _ _ _ MInf) in E2. destruct E2 as (E2 & E2').
    apply bind_ok in H. destruct H as (u & E3 & H). apply (rd_inv _ _ _ PInf) in E3. destruct E3 as (E3 & E3').
    apply bind_ok in H. destruct H as (w & E4 & H). apply (rd_inv _ _ _ false) in E4. destruct E4 as (E4 & E4').
    subst. destruct (_ || _)%bool eqn:B.
    + assert (r = false) by congruence. subst r. split; [discriminate|]. intros C. destruct (C i) as ((C1 & C2) & _); [lia|].
      apply below_ok in C1. apply above_ok in C2. unfold nlo, nup in C1, C2. rewrite C1, C2 in B. discriminate.
    + apply orb_false_iff in B. destruct B as (B1 & B2). apply below_ok in B1. apply above_ok in B2.
      destruct (_ && _)%bool eqn:F.
      * assert (r = false) by congruence. subst r. split; [discriminate|]. intros C. destruct (C i) as (_ & C2); [lia|].
        apply andb_true_iff in F. destruct F as (F1 & F2). rewrite C2 in F2 by exact F1. discriminate.
      * apply IH in H. rewrite H. split; intros C j Hj.
        -- destruct (Nat.eq_dec j i) as [->|N]; [|apply C; lia]. split; [split; assumption|]. intros F1. rewrite F1 in F. exact F.
        -- apply C; lia.
Qed.
Lemma end_ok_fine b x tol ints : forall k i, (i + k <= length x)%nat -> (i + k <= length (k_lo b))%nat -> (i + k <= length (k_up b))%nat -> (i + k <= length ints)%nat ->
  exists r, end_ok i k tol ints x b = Ok r.
Proof.
  induction k as [|k IH]; intros i L1 L2 L3 L4; cbn [end_ok]; [eauto|].
  rewrite (rd_fine i x 0), (rd_fine i (k_lo b) MInf), (rd_fine i (k_up b) PInf), (rd_fine i ints false) by lia. cbn [bind].
  destruct (_ || _)%bool; [eauto|]. destruct (_ && _)%bool; [eauto|]. apply IH; lia.
Qed.

(** ** Integer columns *)
Lemma int_cols_in ints : forall i j, In j (int_cols i ints) <-> (i <= j)%nat /\ nth (j - i) ints false = true.
Proof.
  induction ints as [|b ints IH]; intros i j; cbn [int_cols].
  - simpl. split; [tauto|]. intros (_ & H). destruct (j - i)%nat; discriminate.
  - assert (E : (i < j)%nat -> (j - i = S (j - S i))%nat) by lia.
    destruct b.
    + simpl In. rewrite IH. split.
      * intros [->|(A & B)]; [split; [lia|]; rewrite Nat.sub_diag; reflexivity|]. split; [lia|]. rewrite E by lia. exact B.
      * intros (A & B). destruct (Nat.eq_dec i j) as [->|N]; [auto|]. right. split; [lia|]. rewrite E in B by lia. exact B.
    + rewrite IH. split.
      * intros (A & B). split; [lia|]. rewrite E by lia. exact B.
      * intros (A & B). destruct (Nat.eq_dec i j) as [->|N]; [rewrite Nat.sub_diag in B; discriminate|]. split; [lia|]. rewrite E in B by lia. exact B.
Qed.
Lemma int_cols0 ints j : In j (int_cols 0 ints) <-> nth j ints false = true.
Proof. rewrite int_cols_in. rewrite Nat.sub_0_r. intuition lia. Qed.
Lemma int_cols_lt ints j : In j (int_cols 0 ints) -> (j < length ints)%nat.
Proof.
  rewrite int_cols0. intros H. destruct (Nat.lt_ge_cases j (length ints)) as [L|L]; [exact L|]. rewrite nth_overflow in H by exact L. discriminate.
Qed.
Lemma count_frac_fine tol cs x : Forall (fun j => (j < length x)%nat) cs -> exists r, count_frac tol cs x = Ok r.
Proof.
  induction 1 as [|j cs H F IH]; cbn [count_frac]; [eauto|]. rewrite (rd_fine j x 0) by exact H. cbn [bind].
  destruct IH as (r & ->). cbn [bind]. eauto.
Qed.

(** ** Fixing at bounds *)
Section Fix.
Variables (tol : Q) (x : list Q) (b0 b1 : cols).
(** Both ends of every interval are inside the interval of [b0]. *)
Definition ends (b : cols) := forall i, (ele (nlo b0 i) (nlo b i) /\ ele (nlo b i) (nup b0 i)) /\ (ele (nlo b0 i) (nup b i) /\ ele (nup b i) (nup b0 i)).
Definition good_fix (r : fixed) :=
  (if x_atLower r then ele (x_orig r) (nup b0 (x_col r)) else ele (nlo b0 (x_col r)) (x_orig r)) /\
  (exists v, rd (x_col r) x = Ok v /\ frac tol v = false) /\ (x_col r < length (k_lo b0))%nat /\ (x_col r < length (k_up b0))%nat.
Lemma ends_tight b : ends b -> tight b0 b.
Proof. intros H i. destruct (H i). tauto. Qed.
Lemma fix_ok most cs : forall b done b' done', ends b -> same_size b0 b -> Forall good_fix done ->
  fix_at_bounds tol most cs x b done = Ok (b', done') ->
  ends b' /\ same_size b0 b' /\ Forall good_fix done' /\
  (forall j, (forall v, rd j x = Ok v -> frac tol v = true) -> nlo b' j = nlo b j /\ nup b' j = nup b j).
Proof.
  induction cs as [|i cs IH]; intros b done b' done' E SZ F H; cbn [fix_at_bounds] in H.
  - assert (b' = b /\ done' = done) as (-> & ->) by (split; congruence). auto.
  - apply bind_ok in H. destruct H as (v & R & H).
    destruct (negb (frac tol v) && Nat.ltb (length done) most)%bool eqn:C; [|exact (IH _ _ _ _ E SZ F H)].
    apply andb_true_iff in C. destruct C as (C & _). apply negb_true_iff in C.
    apply bind_ok in H. destruct H as (l & RL & H). apply bind_ok in H. destruct H as (u & RU & H).
    apply (rd_inv _ _ _ MInf) in RL. destruct RL as (LL & RL). apply (rd_inv _ _ _ PInf) in RU. destruct RU as (LU & RU).
    destruct (E i) as ((E1 & E2) & (E3 & E4)). unfold nlo in E1, E2. unfold nup in E3, E4. rewrite RL in E1, E2. rewrite RU in E3, E4.
    apply bind_ok in H. destruct H as ((b2, d2) & P & H).
    assert (P' : ends b2 /\ same_size b0 b2 /\ Forall good_fix d2 /\
                 (forall j, (forall v, rd j x = Ok v -> frac tol v = true) -> nlo b2 j = nlo b j /\ nup b2 j = nup b j)).
    { destruct (near tol l v && ext_neb l u)%bool.
      - apply bind_ok in P. destruct P as (b3 & P & P2). assert (b2 = b3 /\ d2 = done ++ [mkFixed i u true]) as (-> & ->) by (split; congruence).
        pose proof (size_up _ _ _ _ _ SZ P) as SZ'. apply set_up_inv in P. destruct P as (P1 & P3 & P4 & P5).
        split; [|split; [exact SZ'|split]].
        + intros j. rewrite P5. unfold nlo. rewrite P4. split; [apply (E j)|]. destruct (Nat.eqb_spec j i) as [->|_]; [split; assumption|apply (E j)].
        + apply Forall_app. split; [exact F|]. constructor; [|constructor]. destruct SZ. split; [exact E4|]. split; [eauto|]. simpl. lia.
        + intros j Hj. unfold nlo. rewrite P4, P5. split; [reflexivity|]. destruct (Nat.eqb_spec j i) as [->|_]; [|reflexivity].
          apply Hj in R. congruence.
      - destruct (near tol u v && ext_neb l u)%bool.
        + apply bind_ok in P. destruct P as (b3 & P & P2). assert (b2 = b3 /\ d2 = done ++ [mkFixed i l false]) as (-> & ->) by (split; congruence).
          pose proof (size_lo _ _ _ _ _ SZ P) as SZ'. apply set_lo_inv in P. destruct P as (P1 & P3 & P4 & P5).
          split; [|split; [exact SZ'|split]].
          * intros j. rewrite P5. unfold nup. rewrite P4. split; [|apply (E j)]. destruct (Nat.eqb_spec j i) as [->|_]; [split; assumption|apply (E j)].
          * apply Forall_app. split; [exact F|]. constructor; [|constructor]. destruct SZ. split; [exact E1|]. split; [eauto|]. simpl. lia.
          * intros j Hj. unfold nup. rewrite P4, P5. split; [|reflexivity]. destruct (Nat.eqb_spec j i) as [->|_]; [|reflexivity].
            apply Hj in R. congruence.
        + assert (b2 = b /\ d2 = done) as (-> & ->) by (split; congruence). auto. }
    destruct P' as (Q1 & Q2 & Q3 & Q4). destruct (Nat.eqb (length d2) most).
    + assert (b' = b2 /\ done' = d2) as (-> & ->) by (split; congruence). auto.
    + destruct (IH _ _ _ _ Q1 Q2 Q3 H) as (I1 & I2 & I3 & I4). split; [|split; [|split]]; auto.
      intros j Hj. destruct (I4 j Hj) as (-> & ->). apply Q4. exact Hj.
Qed.
Lemma fix_fine most cs : Forall (fun i => (i < length x)%nat /\ (i < length (k_lo b0))%nat /\ (i < length (k_up b0))%nat) cs -> forall b done, same_size b0 b ->
  exists b' done', fix_at_bounds tol most cs x b done = Ok (b', done').
Proof.
  induction 1 as [|i cs (H1 & H2 & H3) F IH]; intros b done SZ; cbn [fix_at_bounds]; [eauto|].
  rewrite (rd_fine i x 0) by exact H1. cbn [bind]. destruct (_ && _)%bool; [|apply IH; exact SZ].
  destruct SZ as (S1 & S2). rewrite (rd_fine i (k_lo b) MInf), (rd_fine i (k_up b) PInf) by lia. cbn [bind].
  set (P := if (near _ _ _ && _)%bool then _ else _).
  assert (PF : exists b2 d2, P = Ok (b2, d2) /\ same_size b0 b2).
  { unfold P. destruct (_ && _)%bool; [|destruct (_ && _)%bool].
    - destruct (set_up_fine i (nth i (k_lo b) MInf) b) as (b2 & E); [lia|]. rewrite E. cbn [bind]. eexists _, _. split; [reflexivity|].
      eapply size_up; [|exact E]. split; assumption.
    - destruct (set_lo_fine i (nth i (k_up b) PInf) b) as (b2 & E); [lia|]. rewrite E. cbn [bind]. eexists _, _. split; [reflexivity|].
      eapply size_lo; [|exact E]. split; assumption.
    - eexists _, _. split; [reflexivity|split; assumption]. }
  destruct PF as (b2 & d2 & -> & SZ2). cbn [bind]. destruct (Nat.eqb _ _); [eauto|]. apply IH. exact SZ2.
Qed.
Lemma unfix_ok l : forall b b', tight b0 b -> same_size b0 b -> Forall good_fix l -> unfix l b = Ok b' ->
  tight b0 b' /\ same_size b0 b' /\ forall j, (forall v, rd j x = Ok v -> frac tol v = true) -> nlo b' j = nlo b j /\ nup b' j = nup b j.
Proof.
  induction l as [|r l IH]; intros b b' T SZ F H; cbn [unfix] in H.
  - assert (b' = b) by congruence. subst. auto.
  - pose proof (Forall_inv F) as (G1 & (v & G2 & G3) & _). apply Forall_inv_tail in F. apply bind_ok in H. destruct H as (b2 & P & H).
    assert (P' : tight b0 b2 /\ same_size b0 b2 /\ forall j, (forall v, rd j x = Ok v -> frac tol v = true) -> nlo b2 j = nlo b j /\ nup b2 j = nup b j).
    { destruct (x_atLower r).
      - split; [eapply tight_up; eauto|]. split; [eapply size_up; eauto|]. apply set_up_inv in P. destruct P as (P1 & P3 & P4 & P5).
        intros j Hj. unfold nlo. rewrite P4, P5. split; [reflexivity|]. destruct (Nat.eqb_spec j (x_col r)) as [->|_]; [|reflexivity].
        apply Hj in G2. congruence.
      - split; [eapply tight_lo; eauto|]. split; [eapply size_lo; eauto|]. apply set_lo_inv in P. destruct P as (P1 & P3 & P4 & P5).
        intros j Hj. unfold nup. rewrite P4, P5. split; [|reflexivity]. destruct (Nat.eqb_spec j (x_col r)) as [->|_]; [|reflexivity].
        apply Hj in G2. congruence. }
    destruct P' as (Q1 & Q2 & Q3). destruct (IH _ _ Q1 Q2 F H) as (I1 & I2 & I3). split; [|split]; auto.
    intros j Hj. destruct (I3 j Hj) as (-> & ->). apply Q3. exact Hj.
Qed.
Lemma unfix_fine l : Forall good_fix l -> forall b, same_size b0 b -> exists b', unfix l b = Ok b' /\ same_size b0 b'.
Proof.
  induction 1 as [|r l (_ & _ & G1 & G2) F IH]; intros b SZ; cbn [unfix]; [eauto|]. pose proof SZ as (S1 & S2).
  destruct (x_atLower r).
  - destruct (set_up_fine (x_col r) (x_orig r) b) as (b2 & E); [lia|]. rewrite E. cbn [bind]. apply IH. eapply size_up; eauto.
  - destruct (set_lo_fine (x_col r) (x_orig r) b) as (b2 & E); [lia|]. rewrite E. cbn [bind]. apply IH. eapply size_lo; eauto.
Qed.

(** ** The inner loop *)
(** Variable [j] has been rounded. *)
Definition rounded (j : nat) (v : Q) (b : cols) := nup b j = fl v \/ nlo b j = ce v.
Definition rounded' (up : bool) (j : nat) (v : Q) (b : cols) := if up then nlo b j = ce v else nup b j = fl v.
Variables (S' : solver) (j : nat) (v : Q) (orig : ext).
Hypothesis Hlo : ele (nlo b0 j) (ce v).
Hypothesis Hup : ele (fl v) (nup b0 j).
Variable P0 : cols -> Prop.
Hypothesis HP0 : forall b, part_of b0 b -> P0 b.
Lemma inner_ok : forall fuel up0 up done k log b r,
  (if up0 : bool then ele (nlo b0 j) orig else ele orig (nup b0 j)) ->
  tight b0 b -> same_size b0 b -> Forall good_fix done -> Forall P0 log ->
  inner fuel S' j v orig up0 up done k log b = Ok r ->
  let '(ok, xs, k', log', b') := r in
  tight b0 b' /\ same_size b0 b' /\ Forall P0 log' /\ (ok = true -> exists k2, S' k2 b' = (true, xs)) /\
  ((forall w, rd j x = Ok w -> frac tol w = true) -> rounded' up j v b -> rounded j v b').
Proof.
  induction fuel as [|fuel IH]; intros up0 up done k log b r O T SZ F L H; cbn [inner] in H; [discriminate|].
  destruct (S' k b) as (ok, xs) eqn:SE. destruct ok.
  - assert (r = (true, xs, S k, b :: log, b)) by congruence. subst r. cbv iota beta. split; [|split; [|split; [|split]]]; auto.
    + constructor; [|exact L]. apply HP0, tight_part; assumption.
    + intros _. exists k. exact SE.
    + intros _ RR. unfold rounded', rounded in *. destruct up; auto.
  - assert (L' : Forall P0 (b :: log)) by (constructor; [apply HP0, tight_part; assumption|exact L]).
    destruct done as [|r0 done].
    + destruct (Bool.eqb up up0) eqn:EB.
      * apply eqb_prop in EB. subst up0. apply bind_ok in H. destruct H as (b2 & P & H).
        assert (P' : tight b0 b2 /\ same_size b0 b2 /\ rounded' (negb up) j v b2).
        { destruct up.
          - apply bind_ok in P. destruct P as (b3 & P1 & P2). 
            assert (T3 : tight b0 b3) by (eapply tight_lo; eauto). assert (Z3 : same_size b0 b3) by (eapply size_lo; eauto).
            split; [eapply tight_up; eauto|]. split; [eapply size_up; eauto|]. apply set_up_inv in P2. simpl. destruct P2 as (_ & _ & _ & ->).
            rewrite Nat.eqb_refl. reflexivity.
          - apply bind_ok in P. destruct P as (b3 & P1 & P2). 
            assert (T3 : tight b0 b3) by (eapply tight_lo; eauto). assert (Z3 : same_size b0 b3) by (eapply size_lo; eauto).
            split; [eapply tight_up; eauto|]. split; [eapply size_up; eauto|]. apply set_up_inv in P2. simpl. destruct P2 as (_ & _ & P2 & _).
            unfold nlo. rewrite P2. apply set_lo_inv in P1. destruct P1 as (_ & _ & _ & P1). specialize (P1 j). rewrite Nat.eqb_refl in P1. exact P1. }
        destruct P' as (Q1 & Q2 & Q3). pose proof (IH up (negb up) [] (S k) (b :: log) b2 r O Q1 Q2 (Forall_nil _) L' H) as I.
        destruct r as [[[[ok xs'] k'] log'] b']. cbv beta iota in *. destruct I as (I1 & I2 & I3 & I4 & I5). repeat (split; [assumption|]). intros A _. apply I5; auto.
      * assert (r = (false, xs, S k, b :: log, b)) by congruence. subst r. cbv iota beta. split; [|split; [|split; [|split]]]; auto; [discriminate|].
        intros _ RR. unfold rounded', rounded in *. destruct up; auto.
    + apply bind_ok in H. destruct H as (b2 & P & H). destruct (unfix_ok _ _ _ T SZ F P) as (Q1 & Q2 & Q3).
      pose proof (IH up0 up [] (S k) (b :: log) b2 r O Q1 Q2 (Forall_nil _) L' H) as I.
      destruct r as [[[[ok xs'] k'] log'] b']. cbv beta iota in *. destruct I as (I1 & I2 & I3 & I4 & I5). repeat (split; [assumption|]). intros A RR. apply I5; [exact A|].
      destruct (Q3 j A) as (E1 & E2). unfold rounded' in *. rewrite E1, E2. exact RR.
Qed.
Definition phase (up0 up : bool) (done : list fixed) : nat := ((match done with [] => 0 | _ => 1 end) + (if Bool.eqb up up0 then 1 else 0) + 1)%nat.
Lemma inner_fine (Hj1 : (j < length (k_lo b0))%nat) (Hj2 : (j < length (k_up b0))%nat) : forall fuel up0 up done k log b,
  (phase up0 up done <= fuel)%nat -> same_size b0 b -> Forall good_fix done ->
  exists r, inner fuel S' j v orig up0 up done k log b = Ok r.
Proof.
  induction fuel as [|fuel IH]; intros up0 up done k log b FU SZ F. { unfold phase in FU. lia. }
  cbn [inner]. destruct (S' k b) as ([|], xs); [eauto|]. destruct done as [|r0 done].
  - destruct (Bool.eqb up up0) eqn:EB; [|eauto]. apply eqb_prop in EB. subst up0. unfold phase in FU. rewrite eqb_reflx in FU.
    assert (PF : forall e1 e2, exists b2, (do b <- set_lo j e1 b; set_up j e2 b) = Ok b2 /\ same_size b0 b2).
    { intros e1 e2. pose proof SZ as (S1 & S2). destruct (set_lo_fine j e1 b) as (b3 & E3); [lia|]. rewrite E3. cbn [bind].
      pose proof (size_lo _ _ _ _ _ SZ E3) as SZ3. destruct SZ3 as (S3 & S4). destruct (set_up_fine j e2 b3) as (b4 & E4); [lia|].
      exists b4. split; [exact E4|]. eapply size_up; [|exact E4]. split; assumption. }
    destruct up.
    + destruct (PF orig (fl v)) as (b2 & -> & Z2). cbn [bind]. apply IH; [|exact Z2|constructor]. unfold phase. simpl. lia.
    + destruct (PF (ce v) orig) as (b2 & -> & Z2). cbn [bind]. apply IH; [|exact Z2|constructor]. unfold phase. simpl. lia.
  - destruct (unfix_fine _ F b SZ) as (b2 & E2 & Z2). rewrite E2. cbn [bind]. unfold phase in FU. apply IH; [|exact Z2|constructor].
    unfold phase. lia.
Qed.
End Fix.

Lemma box_ends b x : in_box b x -> ends b b.
Proof.
  intros H. apply in_box_nth in H. destruct H as (A & B & C). intros i.
  assert (E : ele (nlo b i) (nup b i)).
  { destruct (Nat.lt_ge_cases i (length x)) as [L|L].
    - destruct (C i L) as (C1 & C2). apply lo_ele in C1. apply up_ele in C2. eapply ele_trans; eauto.
    - unfold nlo, nup. rewrite !nth_overflow by lia. reflexivity. }
  repeat split; try apply ele_refl; exact E.
Qed.
Lemma fl_ele v : ele (fl v) (Fin v).
Proof. apply lo_ele. simpl. apply Qfloor_le. Qed.
Lemma ce_ele v : ele (Fin v) (ce v).
Proof. apply up_ele. simpl. apply Qle_ceiling. Qed.
Lemma same_refl b : same_size b b.
Proof. split; reflexivity. Qed.
Lemma same_trans a b c : same_size a b -> same_size b c -> same_size a c.
Proof. intros (A & B) (C & D). split; congruence. Qed.
Lemma part_trans a b c : part_of a b -> part_of b c -> part_of a c.
Proof. intros A B x H. apply A, B, H. Qed.

(** One round of the outer loop, from the choice of the variable to the end of the inner loop. *)
Definition round (S' : solver) (tol : Q) (most : nat) (cs : list nat) (j : nat) (up : bool) (s : dstate) : outcome (bool * list Q * nat * list cols * cols) :=
  do ' (b, done) <- fix_at_bounds tol most cs (s_x s) (s_b s) [];
  do v <- rd j (s_x s);
  do ' (orig, b) <- (if up then do l <- rd j (k_lo b); do b <- set_lo j (ce v) b; Ok (l, b)
                     else do u <- rd j (k_up b); do b <- set_up j (fl v) b; Ok (u, b));
  inner 4 S' j v orig up up done (s_k s) (s_log s) b.
Lemma round_ok S' tol most cs j up s r (P0 : cols -> Prop) : in_box (s_b s) (s_x s) -> (forall b, part_of (s_b s) b -> P0 b) -> Forall P0 (s_log s) ->
  round S' tol most cs j up s = Ok r ->
  let '(ok, xs, k', log', b') := r in
  tight (s_b s) b' /\ same_size (s_b s) b' /\ Forall P0 log' /\ (ok = true -> exists k2, S' k2 b' = (true, xs)) /\
  (j < length (s_x s))%nat /\ (frac tol (nth j (s_x s) 0) = true -> rounded j (nth j (s_x s) 0) b').
Proof.
  intros IB HP L H. unfold round in H. apply bind_ok in H. destruct H as ((b1, done) & F & H).
  destruct (fix_ok tol (s_x s) (s_b s) _ _ _ _ _ _ (box_ends _ _ IB) (same_refl _) (Forall_nil _) F) as (E1 & Z1 & G1 & K1).
  apply bind_ok in H. destruct H as (v & R & H). apply (rd_inv _ _ _ 0) in R. destruct R as (LJ & R).
  apply bind_ok in H. destruct H as ((orig, b2) & C & H).
  pose proof IB as IB'. apply in_box_nth in IB'. destruct IB' as (A1 & A2 & A3). destruct (A3 j LJ) as (A4 & A5). apply lo_ele in A4. apply up_ele in A5.
  rewrite R in A4, A5.
  assert (Hlo : ele (nlo (s_b s) j) (ce v)) by (eapply ele_trans; [exact A4|apply ce_ele]).
  assert (Hup : ele (fl v) (nup (s_b s) j)) by (eapply ele_trans; [apply fl_ele|exact A5]).
  assert (C' : (if up then ele (nlo (s_b s) j) orig else ele orig (nup (s_b s) j)) /\ tight (s_b s) b2 /\ same_size (s_b s) b2 /\ rounded' up j v b2).
  { pose proof (ends_tight _ _ E1 j) as (T1 & T2). destruct up.
    - apply bind_ok in C. destruct C as (l & C1 & C). apply bind_ok in C. destruct C as (b3 & C2 & C).
      assert (orig = l /\ b2 = b3) as (-> & ->) by (split; congruence). apply (rd_inv _ _ _ MInf) in C1. destruct C1 as (_ & C1).
      split; [rewrite <- C1; exact T1|]. split; [eapply tight_lo; eauto; apply ends_tight; exact E1|]. split; [eapply size_lo; eauto|].
      apply set_lo_inv in C2. destruct C2 as (_ & _ & _ & C2). simpl. rewrite C2, Nat.eqb_refl. reflexivity.
    - apply bind_ok in C. destruct C as (l & C1 & C). apply bind_ok in C. destruct C as (b3 & C2 & C).
      assert (orig = l /\ b2 = b3) as (-> & ->) by (split; congruence). apply (rd_inv _ _ _ PInf) in C1. destruct C1 as (_ & C1).
      split; [rewrite <- C1; exact T2|]. split; [eapply tight_up; eauto; apply ends_tight; exact E1|]. split; [eapply size_up; eauto|].
      apply set_up_inv in C2. destruct C2 as (_ & _ & _ & C2). simpl. rewrite C2, Nat.eqb_refl. reflexivity. }
  destruct C' as (O & T & Z & RR).
  pose proof (inner_ok tol (s_x s) (s_b s) S' j v orig Hlo Hup P0 HP 4 up up done (s_k s) (s_log s) b2 r O T Z G1 L H) as I.
  destruct r as [[[[ok xs] k'] log'] b']. cbv beta iota in *. destruct I as (I1 & I2 & I3 & I4 & I5).
  repeat (split; [assumption|]). rewrite R. intros FR. apply I5; [|exact RR]. intros w W. apply (rd_inv _ _ _ 0) in W. destruct W as (_ & W). congruence.
Qed.
Lemma round_fine S' tol most cs j up s : in_box (s_b s) (s_x s) -> Forall (fun i => (i < length (s_x s))%nat) cs -> (j < length (s_x s))%nat ->
  exists r, round S' tol most cs j up s = Ok r.
Proof.
  intros IB CS LJ. unfold round. pose proof IB as IB'. apply in_box_nth in IB'. destruct IB' as (A1 & A2 & A3).
  destruct (fix_fine tol (s_x s) (s_b s) most cs) with (b := s_b s) (done := @nil fixed) as (b1 & done & F); [|apply same_refl|].
  { eapply Forall_impl; [|exact CS]. simpl. intros; lia. }
  destruct (fix_ok tol (s_x s) (s_b s) _ _ _ _ _ _ (box_ends _ _ IB) (same_refl _) (Forall_nil _) F) as (E1 & Z1 & G1 & K1).
  rewrite F. cbn [bind]. rewrite (rd_fine j (s_x s) 0) by exact LJ. cbn [bind]. destruct Z1 as (Z1 & Z2).
  assert (PF : exists orig b2, (if up then do l <- rd j (k_lo b1); do b <- set_lo j (ce (nth j (s_x s) 0)) b1; Ok (l, b)
     else do u <- rd j (k_up b1); do b <- set_up j (fl (nth j (s_x s) 0)) b1; Ok (u, b)) = Ok (orig, b2) /\ same_size (s_b s) b2).
  { destruct up.
    - rewrite (rd_fine j (k_lo b1) MInf) by lia. cbn [bind]. destruct (set_lo_fine j (ce (nth j (s_x s) 0)) b1) as (b2 & E); [lia|]. rewrite E. cbn [bind].
      eexists _, _. split; [reflexivity|]. eapply size_lo; [|exact E]. split; assumption.
    - rewrite (rd_fine j (k_up b1) PInf) by lia. cbn [bind]. destruct (set_up_fine j (fl (nth j (s_x s) 0)) b1) as (b2 & E); [lia|]. rewrite E. cbn [bind].
      eexists _, _. split; [reflexivity|]. eapply size_up; [|exact E]. split; assumption. }
  destruct PF as (orig & b2 & -> & Z3). cbn [bind]. apply (inner_fine tol (s_x s) (s_b s)); auto; try lia.
  unfold phase. rewrite eqb_reflx. destruct done; simpl; lia.
Qed.
Lemma outer_step fuel p S' R tol most val it s :
  outer (S fuel) p S' R tol most val it s =
  do nf <- count_frac tol (int_cols 0 (d_ints p)) (s_x s);
  if Nat.eqb nf 0 then Ok s else
  do best <- R it (s_b s) (s_x s);
  match best with
  | None => do ' (b, done) <- fix_at_bounds tol most (int_cols 0 (d_ints p)) (s_x s) (s_b s) []; Ok (mkD (s_k s) (s_log s) b (s_x s))
  | Some (j, up) =>
      do ' (ok, xs, k, log, b) <- round S' tol most (int_cols 0 (d_ints p)) j up s;
      if (ok : bool) then
        if Qle_bool val (d_f p xs) then Ok (mkD k log b xs) else outer fuel p S' R tol most val (S it) (mkD k log b xs)
      else Ok (mkD k log b (s_x s))
  end.
Proof.
  cbn [outer]. destruct (count_frac _ _ _); cbn [bind]; try reflexivity. destruct (Nat.eqb a 0); [reflexivity|].
  destruct (R it (s_b s) (s_x s)) as [[[j up]|]| | | | | | |]; cbn [bind]; try reflexivity. unfold round.
  destruct (fix_at_bounds _ _ _ _ _ _) as [[b done]| | | | | | |]; cbn [bind]; try reflexivity.
  destruct (rd j (s_x s)); cbn [bind]; try reflexivity.
  match goal with |- bind ?A _ = bind (bind ?B _) _ => change B with A; destruct A as [[orig b2]| | | | | | |]; cbn [bind]; reflexivity end.
Qed.
Lemma outer_ok B0 p S' R tol most val : honest S' -> forall fuel it s s',
  tight B0 (s_b s) -> same_size B0 (s_b s) -> in_box (s_b s) (s_x s) -> Forall (part_of B0) (s_log s) ->
  outer fuel p S' R tol most val it s = Ok s' ->
  tight B0 (s_b s') /\ same_size B0 (s_b s') /\ Forall (part_of B0) (s_log s') /\ length (s_x s') = length (k_lo B0).
Proof.
  intros HO. induction fuel as [|fuel IH]; intros it s s' T Z IB L H;
    (assert (LX : length (s_x s) = length (k_lo B0)) by (apply in_box_nth in IB; destruct Z, IB; congruence)).
  - cbn [outer] in H. apply bind_ok in H. destruct H as (nf & _ & H). destruct (Nat.eqb nf 0); [|discriminate].
    assert (s' = s) by congruence. subst. auto.
  - rewrite outer_step in H. apply bind_ok in H. destruct H as (nf & _ & H). destruct (Nat.eqb nf 0).
    { assert (s' = s) by congruence. subst. auto. }
    apply bind_ok in H. destruct H as (best & _ & H). destruct best as [(j, up)|].
    + apply bind_ok in H. destruct H as (r & RO & H).
      pose proof (round_ok S' tol most _ j up s r (part_of B0) IB (fun b Hb => part_trans _ _ _ (tight_part _ _ Z T) Hb) L RO) as K.
      destruct r as [[[[ok xs] k'] log'] b']. cbv beta iota in *. destruct K as (K1 & K2 & K3 & K4 & K5 & K6).
      assert (T' : tight B0 b') by (eapply tight_trans; eauto). assert (Z' : same_size B0 b') by (eapply same_trans; eauto).
      destruct ok.
      * assert (LX' : length xs = length (k_lo B0)) by (destruct (K4 eq_refl) as (k2 & K4'); apply HO, in_box_nth in K4'; destruct Z', K4'; congruence).
        destruct (Qle_bool val (d_f p xs)).
        -- assert (s' = mkD k' log' b' xs) by congruence. subst. auto.
        -- destruct (K4 eq_refl) as (k2 & K4'). eapply IH; [| | | |exact H]; auto. simpl. eapply HO, K4'.
      * assert (s' = mkD k' log' b' (s_x s)) by congruence. subst. auto.
    + apply bind_ok in H. destruct H as ((b1, done) & F & H). assert (s' = mkD (s_k s) (s_log s) b1 (s_x s)) by congruence. subst s'. simpl.
      destruct (fix_ok tol (s_x s) (s_b s) _ _ _ _ _ _ (box_ends _ _ IB) (same_refl _) (Forall_nil _) F) as (E1 & Z1 & G1 & K1).
      split; [eapply tight_trans; [exact T|apply ends_tight; exact E1]|]. split; [eapply same_trans; eauto|]. split; [exact L|exact LX].
Qed.

(** ** The heuristic *)
Lemma dive_cases fuel p S' R tol pct node howOften pass b0 x0 gs val old r :
  sizes p b0 -> 0 <= tol ->
  dive fuel p S' R tol pct node howOften pass b0 x0 gs val old = Ok r ->
  (r_found r = true -> better_solution p tol val gs r) /\
  (r_found r = false -> r_value r = val /\ r_better r = old) /\
  (honest S' -> length x0 = length (d_ints p) -> (r_found r = true -> in_box b0 (r_better r)) /\ Forall (part_of b0) (r_log r)).
Proof.
  intros (Z1 & Z2 & Z3) T0 H. unfold dive in H. destruct (_ || _)%bool.
  { assert (r = mkDR false val old []) by congruence. subst r. simpl. repeat split; try discriminate; auto. }
  apply bind_ok in H. destruct H as (t & AD & H). apply bind_ok in H. destruct H as (fe & FE & H).
  apply bind_ok in H. destruct H as (u & CK & H). destruct fe; [|discriminate CK]. clear CK u.
  apply bind_ok in H. destruct H as (s & OU & H). apply bind_ok in H. destruct H as (e & EN & H). apply bind_ok in H. destruct H as (rr & RO & H).
  unfold isNlpFeasible in FE. apply bind_ok in FE. destruct FE as (bo & BO & FE). destruct bo; [|discriminate FE].
  apply rows_ok_all in FE; [|exact Z3]. apply proj1 in FE. specialize (FE eq_refl).
  assert (P6 : 0 <= 1 # 1000000) by lra.
  pose proof (adjust_ok (d_gl p) (d_gu p) gs Z3 (length (d_gl p)) 0 _ t (Nat.le_refl _) P6 AD) as (AD1 & AD2 & _).
  apply rows_ok_all in RO; [|exact Z3]. apply end_ok_iff in EN.
  assert (HB : honest S' -> length x0 = length (d_ints p) -> tight b0 (s_b s) /\ same_size b0 (s_b s) /\ Forall (part_of b0) (s_log s) /\ length (s_x s) = length (k_lo b0)).
  { intros HO LX. eapply (outer_ok b0); [exact HO| | | | |exact OU]; simpl.
    - apply tight_refl.
    - apply same_refl.
    - apply in_box_nth. split; [lia|]. split; [lia|]. apply box_ok_iff in BO. apply proj1 in BO. intros i Hi. apply BO; [reflexivity|lia].
    - constructor. }
  destruct (e && rr && Qltb (d_f p (s_x s)) val)%bool eqn:C.
  - assert (r = mkDR true (d_f p (s_x s)) (s_x s) (s_log s)) by congruence. subst r. simpl. apply andb_true_iff in C. destruct C as (C & C3).
    apply andb_true_iff in C. destruct C as (C1 & C2). apply Qltb_lt in C3. apply proj1 in EN. specialize (EN C1). apply proj1 in RO. specialize (RO C2).
    split; [|split; [discriminate|]].
    + intros _. split; [|split; [|split]]; simpl; auto.
      * intros i Hi. apply frac_not. apply EN; [|exact Hi]. destruct (Nat.lt_ge_cases i (length (d_ints p))); [lia|]. rewrite nth_overflow in Hi by assumption. discriminate.
      * exists t. split; [|exact RO]. split; [exact AD1|]. split; [exact FE|]. intros t' B1 B2. apply AD2; [exact B1|]. intros j Hj. apply B2. lia.
    + intros HO LX. destruct (HB HO LX) as (B1 & B2 & B3 & LS). split; [|exact B3]. intros _.
      apply (tight_part _ _ B2 B1). apply in_box_nth. destruct B2. split; [lia|]. split; [lia|]. intros i Hi. apply EN. lia.
  - assert (r = mkDR false val old (s_log s)) by congruence. subst r. simpl. split; [discriminate|]. split; [auto|]. intros HO LX. split; [discriminate|]. apply HB; auto.
Qed.
