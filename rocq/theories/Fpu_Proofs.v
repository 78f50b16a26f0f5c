(** Proofs about the feasibility pump heuristic. *)
From Verif Require Import Base Arr Oad_Model Fpu_Model Fpu_Spec.
From Verif Require Loc_Proofs.
#[local] Open Scope Q_scope.

(** ** Rounding of a number *)
Lemma nearest_near v z : Qabs (v - inject_Z z) < 1 # 2 -> nearest v = z.
Proof.
  intros H. apply Qabs_Qlt_condition in H. unfold nearest. pose proof (Qfloor_le (v + (1 # 2))) as A. pose proof (Qlt_floor (v + (1 # 2))) as B.
  set (f := Qfloor (v + (1 # 2))) in *.
  assert (A' : inject_Z f < inject_Z (z + 1)) by (rewrite inject_Z_plus; change (inject_Z 1) with 1; lra).
  assert (B' : inject_Z z < inject_Z (f + 1)) by lra.
  rewrite <- Zlt_Qlt in A', B'. lia.
Qed.
Lemma nearest_dist v : Qabs (inject_Z (nearest v) - v) <= 1 # 2.
Proof.
  unfold nearest. pose proof (Qfloor_le (v + (1 # 2))) as A. pose proof (Qlt_floor (v + (1 # 2))) as B.
  rewrite inject_Z_plus in B. change (inject_Z 1) with 1 in B. apply Qabs_Qle_condition. split; lra.
Qed.
Lemma isint_true tol v : isint tol v = true -> integral tol v.
Proof. unfold isint. intros H. apply Qleb_le in H. exists (nearest v). rewrite Qabs_Qminus. exact H. Qed.
Lemma isint_conv tol v : tol < 1 # 2 -> integral tol v -> isint tol v = true.
Proof.
  intros T (z & H). unfold isint. apply Qleb_le. rewrite (nearest_near v z) by lra. rewrite Qabs_Qminus. exact H.
Qed.
Lemma integral_Z tol z : 0 <= tol -> integral tol (inject_Z z).
Proof. intros T. exists z. rewrite (Qabs_wd _ 0) by ring. exact T. Qed.
Lemma integral_shift tol v z : integral tol v -> integral tol (v + inject_Z z).
Proof. intros (k & H). exists (k + z)%Z. rewrite (Qabs_wd _ (v - inject_Z k)); [exact H|]. rewrite inject_Z_plus. ring. Qed.
Lemma integral_wd tol v w : v == w -> integral tol v -> integral tol w.
Proof. intros E (k & H). exists k. rewrite <- E. exact H. Qed.
Lemma integral_step tol v (b : bool) : integral tol v -> integral tol (if b then v + 1 else v - 1).
Proof. intros H. destruct b; [exact (integral_shift tol v 1 H)|exact (integral_shift tol v (-1) H)]. Qed.
Lemma adjust_integral tol l u v : integral tol v -> integral tol (adjust l u v).
Proof. intros H. unfold adjust. destruct (below_lo l v); [exact (integral_shift tol v 1 H)|]. destruct (above_up u v); [exact (integral_shift tol v (-1) H)|exact H]. Qed.
(** The rounded value goes back inside, if there is an integer between the bounds. *)
Lemma adjust_round l u v : lo_ok l v -> up_ok u v -> (exists z, lo_ok l (inject_Z z) /\ up_ok u (inject_Z z)) ->
  above l (adjust l u (inject_Z (nearest v))) /\ under u (adjust l u (inject_Z (nearest v))).
Proof.
  intros L U (z & ZL & ZU). pose proof (nearest_dist v) as D. apply Qabs_Qle_condition in D. set (k := nearest v) in *. unfold adjust.
  destruct l as [|a|]; cbn [below_lo lo_ok above] in *; [| |tauto].
  - destruct u as [|b|]; cbn [above_up up_ok under] in *; [tauto| |tauto].
    qcase; split; auto; unfold ptol in *; lra.
  - destruct u as [|b|]; cbn [above_up up_ok under] in *; [tauto| |].
    + qcase.
      * assert (Z1 : inject_Z k < inject_Z z) by (unfold ptol in *; lra). rewrite <- Zlt_Qlt in Z1.
        assert (Z2 : inject_Z (k + 1) <= inject_Z z) by (rewrite <- Zle_Qle; lia). rewrite inject_Z_plus in Z2. change (inject_Z 1) with 1 in Z2. unfold ptol in *. split; lra.
      * qcase; [|unfold ptol in *; split; lra].
        assert (Z1 : inject_Z z < inject_Z k) by (unfold ptol in *; lra). rewrite <- Zlt_Qlt in Z1.
        assert (Z2 : inject_Z (z + 1) <= inject_Z k) by (rewrite <- Zle_Qle; lia). rewrite inject_Z_plus in Z2. change (inject_Z 1) with 1 in Z2. unfold ptol in *. split; lra.
    + qcase; split; auto; unfold ptol in *; lra.
Qed.
(** A step of one from a value inside stays inside. *)
Lemma adjust_step l u o (b : bool) : above l o -> under u o ->
  let w := adjust l u (if b then o + 1 else o - 1) in above l w /\ under u w /\ (w == o \/ w == (if b then o + 1 else o - 1)).
Proof.
  intros L U. cbv zeta. unfold adjust.
  destruct l as [|a|], u as [|c|]; cbn [below_lo above_up above under] in *; try tauto; destruct b; repeat qcase; repeat split; auto; try (unfold ptol in *; lra); try (right; reflexivity); try (left; ring).
Qed.

(** ** Access lemmas *)
Lemma rd_nth {A} i (l : list A) v : nth_error l i = Some v -> rd i l = Ok v.
Proof. unfold rd. intros ->. reflexivity. Qed.
Lemma nth_some {A} i (l : list A) : (i < length l)%nat -> exists v, nth_error l i = Some v.
Proof. intros H. destruct (nth_error l i) eqn:E; [eauto|]. apply nth_error_None in E. lia. Qed.
Lemma nth_len {A} i (l : list A) v : nth_error l i = Some v -> (i < length l)%nat.
Proof. intros H. apply nth_error_Some. rewrite H. discriminate. Qed.
Lemma int_from_spec : forall ty i j, In j (int_from i ty) <-> (i <= j)%nat /\ nth_error ty (j - i) = Some true.
Proof.
  induction ty as [|t ty IH]; intros i j; cbn [int_from].
  - split; [intros []|]. intros [_ H]. destruct (j - i)%nat; discriminate H.
  - assert (E : forall j, (i < j)%nat -> nth_error (t :: ty) (j - i) = nth_error ty (j - S i)).
    { intros k L. replace (k - i)%nat with (S (k - S i)) by lia. reflexivity. }
    destruct t.
    + cbn [In]. rewrite IH. split.
      * intros [<-|[A B]]; [split; [lia|]; rewrite Nat.sub_diag; reflexivity|]. split; [lia|]. rewrite E by lia. exact B.
      * intros [A B]. destruct (Nat.eq_dec i j); [left; assumption|]. right. split; [lia|]. rewrite <- E by lia. exact B.
    + rewrite IH. split.
      * intros [A B]. split; [lia|]. rewrite E by lia. exact B.
      * intros [A B]. destruct (Nat.eq_dec i j) as [->|]; [rewrite Nat.sub_diag in B; discriminate B|]. split; [lia|]. rewrite <- E by lia. exact B.
Qed.
Lemma ints_int P i : In i (ints P) <-> is_int P i.
Proof. unfold ints, is_int. rewrite int_from_spec, Nat.sub_0_r. intuition lia. Qed.
Lemma int_from_nodup : forall ty i, NoDup (int_from i ty).
Proof.
  induction ty as [|t ty IH]; intros i; cbn [int_from]; [constructor|]. destruct t; [|apply IH]. constructor; [|apply IH].
  rewrite int_from_spec. lia.
Qed.
Lemma pick_run {A n} : forall l (x : list A), length x = n -> (forall i, In i l -> (i < n)%nat) -> exists y, pick l x = Ok y /\ length y = length l /\
  forall j i, nth_error l j = Some i -> nth_error y j = nth_error x i.
Proof.
  induction l as [|i l IH]; intros x LX H.
  - exists []. split; [reflexivity|]. split; [reflexivity|]. intros [|j] i X; discriminate X.
  - destruct (nth_some i x) as [v V]; [rewrite LX; apply H; left; reflexivity|].
    destruct (IH x LX) as (y & E & L & B); [intros k K; apply H; right; exact K|]. exists (v :: y). cbn [pick]. rewrite (rd_nth _ _ _ V), E. cbn [bind length].
    split; [reflexivity|]. split; [lia|]. intros [|j] k X; [injection X as <-; cbn; auto|exact (B j k X)].
Qed.
Lemma lset_spec {A} i (v : A) l : (i < length l)%nat -> exists l', lset i v l = Ok l' /\ length l' = length l /\
  forall j, nth_error l' j = if Nat.eqb j i then Some v else nth_error l j.
Proof.
  intros H. pose proof (lset_ok i v l H) as E. eexists. split; [exact E|]. split; [exact (Loc_Proofs.lset_len _ _ _ _ E)|].
  intros j. exact (Loc_Proofs.nth_error_lset _ _ _ _ _ E).
Qed.

(** ** Rounding of the columns *)
Lemma round_cols_run tol : forall x ty lo up, length ty = length x -> length lo = length x -> length up = length x ->
  exists x', round_cols tol ty lo up x = Ok x' /\ length x' = length x /\
    forall i v t l u, nth_error x i = Some v -> nth_error ty i = Some t -> nth_error lo i = Some l -> nth_error up i = Some u ->
      nth_error x' i = Some (if (t && negb (isint tol v))%bool then adjust l u (inject_Z (nearest v)) else v).
Proof.
  induction x as [|v x IH]; intros [|t ty] [|l lo] [|u up] A B C; try discriminate.
  - exists []. split; [reflexivity|]. split; [reflexivity|]. intros [|i] v t l u X; discriminate X.
  - destruct (IH ty lo up) as (x' & E & L & N); [cbn in *; lia..|]. cbn [round_cols]. rewrite E. cbn [bind]. eexists. split; [reflexivity|]. split; [cbn; lia|].
    intros [|i] v' t' l' u' X1 X2 X3 X4; [injection X1 as <-; injection X2 as <-; injection X3 as <-; injection X4 as <-; reflexivity|]. exact (N i v' t' l' u' X1 X2 X3 X4).
Qed.
(** ** Rows "one of these is 1" *)
Lemma scan_ok tol ty x : forall row k ws, (forall c z, In (c, z) row -> (c < length x)%nat) -> length ty = length x -> exists o, scan tol ty x row k ws = Ok o.
Proof.
  induction row as [|[c z] row IH]; intros k ws H LT; [eexists; reflexivity|]. cbn [scan].
  destruct (nth_some c x) as [v V]; [apply (H c z); left; reflexivity|]. destruct (nth_some c ty) as [t T]; [rewrite LT; apply (H c z); left; reflexivity|].
  rewrite (rd_nth _ _ _ V). cbn [bind]. destruct (_ || _)%bool; [eexists; reflexivity|]. rewrite (rd_nth _ _ _ T). cbn [bind].
  destruct (negb t); [eexists; reflexivity|]. apply IH; [|exact LT]. intros c' z' I. apply (H c' z'). right. exact I.
Qed.
Lemma scan_some tol ty x : forall row k ws w, scan tol ty x row k ws = Ok (Some w) ->
  forall c z, In (c, z) row -> exists v, nth_error x c = Some v /\ v < 1 - tol /\ z = 1%Z /\ nth_error ty c = Some true.
Proof.
  induction row as [|[c z] row IH]; intros k ws w H c' z' I; [destruct I|]. cbn [scan] in H. apply bind_ok in H as (v & V & H).
  destruct (Qle_bool (1 - tol) v) eqn:E1; [discriminate H|]. destruct (Z.eqb z 1) eqn:E2; [|discriminate H]. cbn [negb orb] in H.
  apply bind_ok in H as (t & T & H). destruct t; [|discriminate H]. cbn [negb] in H. destruct I as [I|I].
  - injection I as <- <-. exists v. apply Qleb_gt in E1. apply Z.eqb_eq in E2. apply Loc_Proofs.rd_some in V, T. auto.
  - exact (IH _ _ _ H c' z' I).
Qed.
Definition rowsum (row : list (nat * Z)) (x : list Q) : Q := qsum (map (fun e => nth (fst e) x 0) row).
Lemma qsum_cons a l : qsum (a :: l) == a + qsum l.
Proof. unfold qsum. cbn. reflexivity. Qed.
Lemma scan_bound tol ty x : forall row k ws w, scan tol ty x row k ws = Ok (Some w) -> (0 <= k)%Z ->
  (forall c z, In (c, z) row -> 0 <= nth c x 0) -> w <= ws + inject_Z (k + Z.of_nat (length row)) * rowsum row x - rowsum row x.
Proof.
  induction row as [|[c z] row IH]; intros k ws w H K NN.
  - injection H as <-. unfold rowsum. cbn [map]. setoid_replace (qsum []) with 0 by reflexivity. lra.
  - cbn [scan] in H. apply bind_ok in H as (v & V & H).
    destruct (_ || _)%bool; [discriminate H|]. apply bind_ok in H as (t & T & H). destruct (negb t); [discriminate H|].
    apply IH in H; [|lia|intros c' z' I; apply (NN c' z'); right; exact I].
    pose proof (NN c z (or_introl eq_refl)) as N0. apply Loc_Proofs.rd_some in V. rewrite (nth_error_nth _ _ 0 V) in N0.
    unfold rowsum in *. cbn [map fst length]. rewrite qsum_cons, (nth_error_nth _ _ 0 V).
    set (R := qsum (map (fun e => nth (fst e) x 0) row)) in *.
    replace (k + 1 + Z.of_nat (length row))%Z with (k + Z.of_nat (S (length row)))%Z in H by lia.
    set (m := (k + Z.of_nat (S (length row)))%Z) in *.
    assert (KM : inject_Z k * v <= inject_Z m * v - v).
    { assert (M1 : inject_Z k <= inject_Z m - 1) by (change 1 with (inject_Z 1); unfold Qminus; rewrite <- inject_Z_opp, <- inject_Z_plus, <- Zle_Qle; unfold m; lia).
      pose proof (Qmult_le_compat_r _ _ v M1 N0) as M2. lra. }
    lra.
Qed.
Lemma unit_row_run sel : forall row j x, (forall c z, In (c, z) row -> (c < length x)%nat) ->
  exists x', unit_row row j sel x = Ok x' /\ length x' = length x /\
    forall i, nth_error x' i = nth_error x i \/ (exists z, In (i, z) row) /\ (nth_error x' i = Some 0 \/ nth_error x' i = Some 1).
Proof.
  induction row as [|[c z] row IH]; intros j x H; [exists x; repeat split; auto|]. cbn [unit_row].
  destruct (lset_spec c (if Z.eqb (Z.of_nat j) sel then 1 else 0) x) as (x1 & E1 & L1 & N1); [apply (H c z); left; reflexivity|]. rewrite E1. cbn [bind].
  destruct (IH (S j) x1) as (x' & E & L & N); [intros c' z' I; rewrite L1; apply (H c' z'); right; exact I|]. exists x'. split; [exact E|]. split; [lia|].
  intros i. destruct (N i) as [N2|[[z' I] N2]]; [|right; split; [exists z'; right; exact I|exact N2]].
  rewrite N2, N1. destruct (Nat.eqb i c) eqn:EC; [|left; reflexivity]. apply Nat.eqb_eq in EC. subst i. right. split; [exists z; left; reflexivity|].
  destruct (Z.eqb (Z.of_nat j) sel); auto.
Qed.
Lemma trunc_one a : trunc a = 1%Z -> 1 <= a.
Proof.
  destruct a as [p q]. unfold trunc, Qle. cbn [Qnum Qden]. intros H.
  assert (P : (0 <= p)%Z). { destruct (Z_le_gt_dec 0 p); [assumption|]. exfalso. assert (X : (Z.quot p (Zpos q) <= 0)%Z); [|lia].
    rewrite <- (Z.opp_involutive p). rewrite Z.quot_opp_l by lia. pose proof (Z.quot_pos (- p) (Zpos q)). lia. }
  rewrite Z.quot_div_nonneg in H by lia. pose proof (Z.mul_div_le p (Zpos q)). lia.
Qed.
Lemma row_of_in jac r c z : In (c, z) (row_of jac r) <-> exists a, In ((r, c), a) jac /\ z = trunc a.
Proof.
  unfold row_of. rewrite in_map_iff. split.
  - intros ([[r' c'] a] & E & I). apply filter_In in I as [I F]. cbn [fst snd] in *. apply Nat.eqb_eq in F. injection E as <- <-. subst r'. exists a. auto.
  - intros (a & I & ->). exists ((r, c), a). split; [reflexivity|]. apply filter_In. split; [exact I|apply Nat.eqb_refl].
Qed.

(** A point after some of the rows: some integer columns of such rows are 0 or 1, the
    others are as before. *)
Definition touched (P : prob) (i : nat) : Prop := exists r a, one_row P r /\ In ((r, i), a) (p_jac P) /\ is_int P i.
Definition after_rows (P : prob) (x x' : list Q) : Prop := length x' = length x /\
  forall i, nth_error x' i = nth_error x i \/ touched P i /\ (nth_error x' i = Some 0 \/ nth_error x' i = Some 1).
Lemma rowsum_le (P : prob) x x' r : after_rows P x x' -> (forall c z, In (c, z) (row_of (p_jac P) r) -> exists v, nth_error x' c = Some v /\ v < 1 - p_tol P /\ z = 1%Z) ->
  0 <= p_tol P -> (forall c z, In (c, z) (row_of (p_jac P) r) -> 0 <= nth c x 0) ->
  rowsum (row_of (p_jac P) r) x' <= row_val (p_jac P) r x.
Proof.
  intros [_ A] S T NN. unfold rowsum, row_val, row_of in *. rewrite map_map.
  set (l := filter (fun e => Nat.eqb (fst (fst e)) r) (p_jac P)) in *. clearbody l.
  induction l as [|[[r' c] a] l IH]; [cbn; apply Qle_refl|]. cbn [map fst snd] in *.
  assert (I1 : qsum (map (fun e => nth (snd (fst e)) x' 0) l) <= qsum (map (fun e => snd e * nth (snd (fst e)) x 0) l)).
  { apply IH; intros c' z' I; [apply S|apply (NN c' z')]; right; exact I. }
  rewrite !qsum_cons. cbn [fst snd].
  destruct (S c (trunc a) (or_introl eq_refl)) as (v & V & LT & TR). pose proof (NN c (trunc a) (or_introl eq_refl)) as N0. apply trunc_one in TR.
  rewrite (nth_error_nth _ _ 0 V).
  assert (V1 : v <= nth c x 0).
  { destruct (A c) as [B|[_ [B|B]]]; rewrite V in B.
    - symmetry in B. rewrite (nth_error_nth _ _ 0 B). apply Qle_refl.
    - injection B as ->. exact N0.
    - injection B as ->. lra. }
  assert (V2 : 1 * nth c x 0 <= a * nth c x 0) by (apply Qmult_le_compat_r; assumption). lra.
Qed.
Lemma sos_row_run n (P : prob) x x1 r : sized n P -> length x = n -> one_row P r ->
  (forall c a, In ((r, c), a) (p_jac P) -> 0 <= nth c x 0) -> row_val (p_jac P) r x <= 1 -> after_rows P x x1 ->
  exists x', sos_row (p_tol P) (p_ty P) (row_of (p_jac P) r) x1 = Ok x' /\ after_rows P x x'.
Proof.
  intros SZ LX OR NN RV AF. destruct (sz_tol n P SZ) as [T1 T2]. pose proof AF as [L1 A1].
  assert (IN : forall c z, In (c, z) (row_of (p_jac P) r) -> (c < length x1)%nat).
  { intros c z I. apply row_of_in in I as (a & I & _). rewrite L1, LX. exact (sz_jac n P SZ _ _ _ I). }
  unfold sos_row. destruct (scan_ok (p_tol P) (p_ty P) x1 (row_of (p_jac P) r) 1 0 IN) as (o & E); [rewrite L1, LX; exact (sz_ty n P SZ)|].
  rewrite E. cbn [bind]. destruct o as [ws|]; [|exists x1; auto]. cbv zeta.
  destruct (Z.ltb (Qfloor (ws + (1 # 2)) - 1) 0) eqn:NEG; [exists x1; auto|].
  pose proof (scan_some _ _ _ _ _ _ _ E) as SS.
  assert (BD : (Qfloor (ws + (1 # 2)) - 1 < Z.of_nat (length (row_of (p_jac P) r)))%Z).
  { assert (N1 : forall c z, In (c, z) (row_of (p_jac P) r) -> 0 <= nth c x1 0).
    { intros c z I. apply row_of_in in I as (a & I & _). destruct (A1 c) as [B|[_ [B|B]]].
      - destruct (nth_some c x) as [v V]; [rewrite LX; exact (sz_jac n P SZ _ _ _ I)|]. rewrite V in B. rewrite (nth_error_nth _ _ 0 B), <- (nth_error_nth _ _ 0 V). exact (NN c a I).
      - rewrite (nth_error_nth _ _ 0 B). apply Qle_refl.
      - rewrite (nth_error_nth _ _ 0 B). discriminate. }
    pose proof (scan_bound _ _ _ _ _ _ _ E ltac:(lia) N1) as W.
    assert (RS : rowsum (row_of (p_jac P) r) x1 <= 1).
    { eapply Qle_trans; [|exact RV]. apply (rowsum_le P x x1 r AF); [|exact T1|].
      - intros c z I. destruct (SS c z I) as (v & V & LT & Z1 & _). exists v. auto.
      - intros c z I. apply row_of_in in I as (a & I & _). exact (NN c a I). }
    set (m := Z.of_nat (length (row_of (p_jac P) r))) in *.
    assert (WM : ws <= inject_Z m).
    { replace (1 + m)%Z with (m + 1)%Z in W by lia. rewrite inject_Z_plus in W. change (inject_Z 1) with 1 in W.
      assert (MR : inject_Z m * rowsum (row_of (p_jac P) r) x1 <= inject_Z m * 1).
      { rewrite !(Qmult_comm (inject_Z m)). apply Qmult_le_compat_r; [exact RS|]. change 0 with (inject_Z 0). rewrite <- Zle_Qle. unfold m. lia. }
      lra. }
    pose proof (Qfloor_le (ws + (1 # 2))) as FL.
    assert (X : inject_Z (Qfloor (ws + (1 # 2))) < inject_Z (m + 1)) by (rewrite inject_Z_plus; change (inject_Z 1) with 1; lra).
    rewrite <- Zlt_Qlt in X. lia. }
  apply Z.ltb_lt in BD. rewrite BD. cbn [chk bind].
  destruct (unit_row_run (Qfloor (ws + (1 # 2)) - 1) (row_of (p_jac P) r) 0 x1 IN) as (x' & E' & L' & N'). exists x'. split; [exact E'|].
  split; [lia|]. intros i. destruct (N' i) as [B|[[z I] B]]; [rewrite B; apply A1|]. right. split; [|exact B].
  destruct (SS i z I) as (v & _ & _ & _ & T). apply row_of_in in I as (a & I & _). exists r, a. auto.
Qed.
Lemma is_one_row e : is_one e = true -> exists a, e = Fin a /\ a == 1.
Proof. destruct e; try discriminate. cbn. intros H. apply Qeq_bool_iff in H. eauto. Qed.
Lemma sos_rows_run n (P : prob) x : sized n P -> length x = n ->
  (forall r c a, one_row P r -> In ((r, c), a) (p_jac P) -> 0 <= nth c x 0) -> (forall r, one_row P r -> row_val (p_jac P) r x <= 1) ->
  forall g r x1, (forall k p, nth_error g k = Some p -> nth_error (p_g P) (r + k) = Some p) -> after_rows P x x1 ->
  exists x', sos_rows (p_tol P) (p_ty P) (p_jac P) r g x1 = Ok x' /\ after_rows P x x'.
Proof.
  intros SZ LX NN RV. induction g as [|[gl gu] g IH]; intros r x1 G AF; [exists x1; auto|]. cbn [sos_rows].
  assert (S1 : exists x2, (if (is_one gl && is_one gu)%bool then sos_row (p_tol P) (p_ty P) (row_of (p_jac P) r) x1 else Ok x1) = Ok x2 /\ after_rows P x x2).
  { destruct (is_one gl && is_one gu)%bool eqn:O1; [|exists x1; auto]. apply andb_true_iff in O1 as [O1 O2].
    apply is_one_row in O1 as (a & -> & A), O2 as (b & -> & B).
    assert (OR : one_row P r) by (exists a, b; split; [rewrite <- (Nat.add_0_r r); apply G; reflexivity|auto]).
    apply (sos_row_run n); auto. intros c a' I. exact (NN r c a' OR I). }
  destruct S1 as (x2 & E2 & AF2). rewrite E2. cbn [bind]. apply IH; [|exact AF2]. intros k p K. replace (S r + k)%nat with (r + S k)%nat by lia. apply G. exact K.
Qed.
Lemma lo_above l v : lo_ok l v -> above l v.
Proof. destruct l; cbn; auto. unfold ptol. lra. Qed.
Lemma up_under u v : up_ok u v -> under u v.
Proof. destruct u; cbn; auto. unfold ptol. lra. Qed.
(** Rounding after the rows. *)
Lemma round_after n (P : prob) x x1 : sized n P -> has_int P -> length x = n -> in_box P x -> after_rows P x x1 ->
  (forall i l u, touched P i -> nth_error (p_lo P) i = Some l -> nth_error (p_up P) i = Some u -> lo_ok l 0 /\ up_ok u 1) ->
  exists x', round_cols (p_tol P) (p_ty P) (p_lo P) (p_up P) x1 = Ok x' /\ length x' = n /\
    forall i v, is_int P i -> nth_error x' i = Some v -> integral (p_tol P) v /\ boxed P i v.
Proof.
  intros SZ HI LX IB [L1 A1] TB. destruct (sz_tol n P SZ) as [T1 T2].
  destruct (round_cols_run (p_tol P) x1 (p_ty P) (p_lo P) (p_up P)) as (x' & E & L & N).
  { rewrite L1, LX. exact (sz_ty n P SZ). } { rewrite L1, LX. exact (sz_lo n P SZ). } { rewrite L1, LX. exact (sz_up n P SZ). }
  exists x'. split; [exact E|]. split; [lia|]. intros i v' II V'.
  assert (LI : (i < n)%nat) by (rewrite <- LX, <- L1, <- L; exact (nth_len _ _ _ V')).
  destruct (nth_some i x1) as [v V]; [lia|]. destruct (nth_some i (p_lo P)) as [l Hl]; [rewrite (sz_lo n P SZ); lia|]. destruct (nth_some i (p_up P)) as [u Hu]; [rewrite (sz_up n P SZ); lia|].
  rewrite (N i v true l u V II Hl Hu) in V'. cbn [andb] in V'.
  assert (BOX : forall w, above l w -> under u w -> boxed P i w) by (intros w A B l' u' X Y; rewrite Hl in X; rewrite Hu in Y; injection X as <-; injection Y as <-; auto).
  destruct (A1 i) as [B|[TI B]].
  - rewrite V in B. symmetry in B. destruct (IB i v l u B Hl Hu) as [VL VU]. destruct (isint (p_tol P) v) eqn:IV; cbn [negb] in V'; injection V' as <-.
    + split; [apply isint_true; exact IV|]. apply BOX; [apply lo_above|apply up_under]; assumption.
    + destruct (adjust_round l u v VL VU (HI i l u II Hl Hu)) as [X Y]. split; [apply adjust_integral, integral_Z; exact T1|]. apply BOX; assumption.
  - destruct (TB i l u TI Hl Hu) as [Z0 Z1]. assert (V01 : v = 0 \/ v = 1) by (rewrite V in B; destruct B as [B|B]; injection B as <-; auto).
    assert (IV : isint (p_tol P) v = true).
    { apply isint_conv; [exact T2|]. destruct V01 as [-> | ->]; [exact (integral_Z _ 0 T1)|exact (integral_Z _ 1 T1)]. }
    rewrite IV in V'. cbn [negb] in V'. injection V' as <-. split; [apply isint_true; exact IV|].
    assert (BO : above l v /\ under u v).
    { destruct V01 as [-> | ->]; destruct l as [|a|], u as [|b|]; cbn [lo_ok up_ok above under] in *; try tauto; repeat split; auto; unfold ptol; lra. }
    apply BOX; apply BO.
Qed.

(** ** Targets *)
Lemma same_close tol : forall a b, same tol a (map Some b) = true -> forall j v w, nth_error a j = Some v -> nth_error b j = Some w -> Qabs (v - w) <= tol.
Proof.
  induction a as [|x a IH]; intros [|y b] H [|j] v w A B; try discriminate.
  - cbn [map same] in H. apply andb_true_iff in H as [H _]. injection A as <-. injection B as <-. apply Qleb_le. exact H.
  - cbn [map same] in H. apply andb_true_iff in H as [_ H]. exact (IH b H j v w A B).
Qed.
Lemma same_differs tol : forall a b, length a = length b -> same tol a (map Some b) = false -> differs tol a b.
Proof.
  induction a as [|x a IH]; intros [|y b] L H; try discriminate. cbn [map same] in H. destruct (Qle_bool (Qabs (x - y)) tol) eqn:E.
  - cbn [andb] in H. destruct (IH b) as (j & v & w & A & B & C); [cbn in L; lia|exact H|]. exists (S j), v, w. auto.
  - exists 0%nat, x, y. apply Qleb_gt in E. auto.
Qed.
Lemma same_none tol a n : length a = n -> n <> 0%nat -> same tol a (repeat None n) = false.
Proof. destruct a as [|v a]; intros <- H; [exfalso; apply H; reflexivity|reflexivity]. Qed.
Lemma scores_run : forall y t, length y = length t -> exists sc, scores y (map Some t) = Ok sc /\ length sc = length y.
Proof.
  induction y as [|v y IH]; intros [|w t] L; try discriminate; [exists []; auto|]. destruct (IH t) as (sc & E & LE); [cbn in L; lia|].
  cbn [scores map score bind]. rewrite E. cbn [bind]. eexists. split; [reflexivity|]. cbn. lia.
Qed.
Lemma stepv_run tol l u v o : tol < 1 # 2 -> integral tol o -> above l o -> under u o ->
  exists w, stepv tol l u v (Some o) = Ok w /\ integral tol w /\ above l w /\ under u w /\ (w == o \/ w == o + 1 \/ w == o - 1).
Proof.
  intros T I A B. unfold stepv. cbv zeta. set (b := Qltb 0 (v - o)).
  destruct (adjust_step l u o b A B) as (A1 & B1 & C1). cbv zeta in A1, B1, C1.
  assert (I1 : integral tol (adjust l u (if b then o + 1 else o - 1))) by (apply adjust_integral, integral_step; exact I).
  rewrite (isint_conv _ _ T I1). cbn [chk bind]. eexists. split; [reflexivity|]. split; [exact I1|]. split; [exact A1|]. split; [exact B1|].
  destruct C1 as [C1|C1]; [left; exact C1|]. destruct b; auto.
Qed.
Definition elt (P : prob) (i : nat) (v : Q) : Prop := integral (p_tol P) v /\ boxed P i v.
Lemma perturb_run (P : prob) rnd : p_tol P < 1 # 2 -> forall l y t lo up k, length y = length l -> length t = length l -> length lo = length l -> length up = length l ->
  (forall j i, nth_error l j = Some i -> nth_error lo j = nth_error (p_lo P) i /\ nth_error up j = nth_error (p_up P) i) ->
  (forall j i v, nth_error l j = Some i -> nth_error t j = Some v -> elt P i v) ->
  exists r, perturb rnd k (p_tol P) lo up y (map Some t) = Ok r /\ length r = length l /\
    (forall j i v, nth_error l j = Some i -> nth_error r j = Some v -> elt P i v) /\
    (forall j v w, nth_error r j = Some v -> nth_error t j = Some w -> v == w \/ v == w + 1 \/ v == w - 1).
Proof.
  intros T. induction l as [|i l IH]; intros [|v y] [|o t] [|a lo] [|b up] k L1 L2 L3 L4 BB GT; try discriminate.
  - exists []. split; [reflexivity|]. split; [reflexivity|]. split; intros [|j]; discriminate.
  - destruct (IH y t lo up (S k)) as (r & E & LR & GR & SR); [cbn in *; lia..| | |].
    { intros j i' H. exact (BB (S j) i' H). } { intros j i' v' H H'. exact (GT (S j) i' v' H H'). }
    destruct (BB 0%nat i eq_refl) as [B1 B2]. cbn [nth_error] in B1, B2.
    destruct (GT 0%nat i o eq_refl eq_refl) as [G1 G2]. destruct (G2 a b (eq_sym B1) (eq_sym B2)) as [G3 G4].
    destruct (stepv_run (p_tol P) a b v o T G1 G3 G4) as (w & W & I & A & U & S).
    cbn [perturb map]. rewrite W, E.
    assert (BX : forall q, above a q -> under b q -> boxed P i q) by (intros q Q1 Q2 l' u' X Y; rewrite <- B1 in X; rewrite <- B2 in Y; injection X as <-; injection Y as <-; auto).
    destruct (Qltb _ _); cbn [bind]; eexists; (split; [reflexivity|]); (split; [cbn; lia|]); split; intros [|j] q q' H H'; cbn [nth_error] in H, H'.
    + injection H as <-. injection H' as <-. split; [exact I|apply BX; assumption].
    + exact (GR j q q' H H').
    + injection H as <-. injection H' as <-. exact S.
    + exact (SR j q q' H H').
    + injection H as <-. injection H' as <-. split; assumption.
    + exact (GR j q q' H H').
    + injection H as <-. injection H' as <-. left. reflexivity.
    + exact (SR j q q' H H').
Qed.
Lemma flip_run (P : prob) srt : p_tol P < 1 # 2 -> (forall sc, sc <> [] -> (srt sc < length sc)%nat) -> forall l y t lo up xb, length y = length l -> length t = length l -> length lo = length l -> length up = length l -> length xb = length l ->
  (forall j i, nth_error l j = Some i -> nth_error lo j = nth_error (p_lo P) i /\ nth_error up j = nth_error (p_up P) i) ->
  (forall j i v, nth_error l j = Some i -> nth_error t j = Some v -> elt P i v) ->
  (forall j i v, nth_error l j = Some i -> nth_error xb j = Some v -> elt P i v) ->
  exists r, flip_one srt (p_tol P) lo up y (map Some t) xb = Ok r /\ length r = length l /\
    (forall j i v, nth_error l j = Some i -> nth_error r j = Some v -> elt P i v) /\
    (exists j0, forall j, j <> j0 -> nth_error r j = nth_error xb j).
Proof.
  intros T S l y t lo up xb L1 L2 L3 L4 L5 BB GT GX. unfold flip_one. destruct (scores_run y t) as (sc & E & LE); [lia|]. rewrite E. cbn [bind].
  destruct y as [|y0 y']; [exists xb; split; [reflexivity|]; split; [lia|]; split; [exact GX|exists 0%nat; auto]|].
  set (y := y0 :: y') in *. assert (SN : sc <> []) by (intros X; subst sc; unfold y in LE; discriminate LE). pose proof (S sc SN) as SL. set (h := srt sc) in *. cbv zeta.
  destruct (nth_some h sc SL) as [s Hs]. rewrite (rd_nth _ _ _ Hs). cbn [bind]. destruct (Qltb 0 s); [|exists xb; split; [reflexivity|]; split; [lia|]; split; [exact GX|exists 0%nat; auto]].
  destruct (nth_some h y) as [v Hv]; [lia|]. destruct (nth_some h t) as [o Ho]; [lia|]. destruct (nth_some h lo) as [a Ha]; [lia|]. destruct (nth_some h up) as [b Hb]; [lia|].
  destruct (nth_some h l) as [i Hi]; [lia|].
  rewrite (rd_nth _ _ _ Hv), (rd_nth h (map Some t) (Some o)), (rd_nth _ _ _ Ha), (rd_nth _ _ _ Hb) by (rewrite nth_error_map, Ho; reflexivity). cbn [bind].
  destruct (BB h i Hi) as [B1 B2]. rewrite Ha in B1. rewrite Hb in B2. destruct (GT h i o Hi Ho) as [G1 G2]. destruct (G2 a b (eq_sym B1) (eq_sym B2)) as [G3 G4].
  destruct (stepv_run (p_tol P) a b v o T G1 G3 G4) as (w & W & I & A & U & _). rewrite W. cbn [bind].
  destruct (lset_spec h w xb) as (r & R & LR & NR); [lia|]. exists r. split; [exact R|]. split; [lia|]. split.
  - intros j k q K Kq. rewrite NR in Kq. destruct (Nat.eqb j h) eqn:EJ; [|exact (GX j k q K Kq)]. apply Nat.eqb_eq in EJ. subst j. injection Kq as <-.
    rewrite Hi in K. injection K as <-. split; [exact I|]. intros l' u' X Y. rewrite <- B1 in X. rewrite <- B2 in Y. injection X as <-. injection Y as <-. auto.
  - exists h. intros j NJ. rewrite NR. apply Nat.eqb_neq in NJ. rewrite NJ. reflexivity.
Qed.
Definition old_of (P : prob) (log : list (list Q * how)) : olds := firstn 4 (map (fun p => map Some (fst p)) log ++ old_none (length (ints P))).
Lemma ints_lt n P : sized n P -> forall i, In i (ints P) -> (i < n)%nat.
Proof. intros SZ i I. apply ints_int in I. rewrite <- (sz_ty n P SZ). exact (nth_len _ _ _ I). Qed.
Lemma target_run n P good O srt rnd k x log : sized n P -> world n P good O srt -> good x -> ints P <> [] -> Forall (fun p => good_target P (fst p)) log ->
  exists t h, target P (srt k) rnd x (old_of P log) = Ok (t, h) /\ good_target P t /\ link (p_tol P) t h log.
Proof.
  intros SZ WO GX NE FL. destruct (sz_tol n P SZ) as [T1 T2]. pose proof (ints_lt n P SZ) as IL.
  destruct (wo_round _ _ _ _ _ WO x GX) as (xr & ER & LR & GR). pose proof (wo_len _ _ _ _ _ WO x GX) as LX.
  unfold target. rewrite ER. cbn [bind]. destruct (pick_run (ints P) xr LR IL) as (xb & EB & LB & NB). rewrite EB. cbn [bind].
  assert (GB : good_target P xb).
  { split; [exact LB|]. intros j i v J V. rewrite (NB j i J) in V. apply GR; [|exact V]. apply ints_int. exact (nth_error_In _ _ J). }
  assert (NI : length (ints P) <> 0%nat) by (destruct (ints P); [exfalso; apply NE; reflexivity|discriminate]).
  destruct log as [|[t1 h1] log].
  - assert (O0 : rd 0 (old_of P []) = Ok (repeat None (length (ints P)))) by reflexivity. rewrite O0. cbn [bind].
    rewrite (same_none _ _ _ LB NI). cbn [negb]. exists xb, Rounded. split; [reflexivity|]. split; [exact GB|exact Logic.I].
  - assert (O0 : rd 0 (old_of P ((t1, h1) :: log)) = Ok (map Some t1)) by reflexivity. rewrite O0. cbn [bind].
    pose proof (Forall_inv FL) as [LT GT]. cbn [fst] in LT, GT. apply Forall_inv_tail in FL.
    destruct (same (p_tol P) xb (map Some t1)) eqn:SM; cbn [negb].
    + destruct (pick_run (ints P) x LX IL) as (y & EY & LY & NY). rewrite EY. cbn [bind].
      destruct (pick_run (ints P) (p_lo P) (sz_lo n P SZ) IL) as (lo & EL & LL & NL). rewrite EL. cbn [bind].
      destruct (pick_run (ints P) (p_up P) (sz_up n P SZ) IL) as (up & EU & LU & NU). rewrite EU. cbn [bind].
      destruct (flip_run P (srt k) T2 (wo_srt _ _ _ _ _ WO k) (ints P) y t1 lo up xb LY LT LL LU LB) as (r & FR & LRR & GRR & J0); [intros j i J; split; auto|exact GT|exact (proj2 GB)|].
      rewrite FR. cbn [bind].
      assert (TL : tl (old_of P ((t1, h1) :: log)) = firstn 3 (map (fun p => map Some (fst p)) log ++ old_none (length (ints P)))) by reflexivity. rewrite TL.
      destruct (existsb _ _) eqn:EX.
      * destruct (perturb_run P rnd T2 (ints P) y t1 lo up 0 LY LT LL LU) as (r' & PR & LP & GP & SP); [intros j i J; split; auto|exact GT|].
        rewrite PR. cbn [bind]. exists r', Perturbed. split; [reflexivity|]. split; [split; assumption|]. exact SP.
      * exists r, Flipped. split; [reflexivity|]. split; [split; assumption|]. cbn [link]. split.
        -- destruct J0 as (j0 & J0). exists j0. intros j v w NJ V W. rewrite (J0 j NJ) in V. exact (same_close _ _ _ SM j v w V W).
        -- intros p I. assert (GP : good_target P (fst p)).
           { rewrite Forall_forall in FL. apply FL. rewrite <- (firstn_skipn 3 log). apply in_or_app. left. exact I. }
           apply same_differs; [destruct GP as [X _]; lia|].
           destruct (same (p_tol P) r (map Some (fst p))) eqn:S1; [|reflexivity]. exfalso.
           assert (EX' : existsb (same (p_tol P) r) (firstn 3 (map (fun p => map Some (fst p)) log ++ old_none (length (ints P)))) = true).
           { apply existsb_exists. exists (map Some (fst p)). split; [|exact S1]. rewrite firstn_app. apply in_or_app. left. rewrite firstn_map.
             apply (in_map (fun p => map Some (fst p))). exact I. }
           rewrite EX' in EX. discriminate EX.
    + exists xb, Rounded. split; [reflexivity|]. split; [exact GB|]. cbn [link]. apply same_differs; [lia|exact SM].
Qed.
(** ** The loop *)
Lemma old_next P t h log : map Some t :: firstn 3 (old_of P log) = old_of P ((t, h) :: log).
Proof. unfold old_of. cbn [map app fst]. change (firstn 4 (map Some t :: ?l)) with (map Some t :: firstn 3 l). rewrite firstn_firstn. reflexivity. Qed.
Lemma iterate_run n P good O srt rnd : sized n P -> world n P good O srt -> forall k it x log, good x -> Forall (fun p => good_target P (fst p)) log -> chain (p_tol P) log ->
  exists w, iterate P O srt rnd k it (mkPump x (old_of P log) log) = Ok w /\ good (w_x w) /\ Forall (fun p => good_target P (fst p)) (w_log w) /\ chain (p_tol P) (w_log w) /\
    (length (w_log w) <= length log + k)%nat.
Proof.
  intros SZ WO. induction k as [|k IH]; intros it x log GX FL CH.
  - cbn [iterate w_x]. destruct (pick_run (ints P) x (wo_len _ _ _ _ _ WO x GX) (ints_lt n P SZ)) as (y & EY & _). rewrite EY. cbn [bind].
    destruct (Nat.eqb _ 0); (eexists; split; [reflexivity|]; cbn [w_x w_log]; repeat split; auto; lia).
  - cbn [iterate w_x w_old w_log]. destruct (pick_run (ints P) x (wo_len _ _ _ _ _ WO x GX) (ints_lt n P SZ)) as (y & EY & LY & _). rewrite EY. cbn [bind].
    destruct (Nat.eqb (nfrac (p_tol P) y) 0) eqn:NF; [eexists; split; [reflexivity|]; cbn [w_x w_log]; repeat split; auto; lia|].
    assert (NE : ints P <> []) by (intros X; rewrite X in LY; destruct y; [discriminate NF|discriminate LY]).
    destruct (target_run n P good O srt (rnd it) it x log SZ WO GX NE FL) as (t & h & ET & GT & LK). rewrite ET. cbn [bind].
    rewrite (old_next P t h log). pose proof (wo_nlp _ _ _ _ _ WO it t) as GA. cbv zeta.
    assert (FL' : Forall (fun p => good_target P (fst p)) ((t, h) :: log)) by (constructor; assumption).
    assert (CH' : chain (p_tol P) ((t, h) :: log)) by (constructor; assumption).
    destruct (Qltb _ _).
    + eexists. split; [reflexivity|]. cbn [w_x w_log length]. repeat split; auto. lia.
    + destruct (IH (S it) (snd (O it t)) ((t, h) :: log) GA FL' CH') as (w & E & A & B & C & D). exists w. split; [exact E|]. cbn [length] in D. repeat split; auto. lia.
Qed.
Lemma fix_run n : forall l x c, length x = n -> length (k_lo c) = n -> length (k_up c) = n -> (forall i, In i l -> (i < n)%nat) -> NoDup l ->
  exists c', fix_ints l x c = Ok c' /\ length (k_lo c') = n /\ length (k_up c') = n /\
    (forall i v, In i l -> nth_error x i = Some v -> nth_error (k_lo c') i = Some (Fin (inject_Z (nearest v))) /\ nth_error (k_up c') i = Some (Fin (inject_Z (nearest v)))) /\
    (forall i, ~ In i l -> nth_error (k_lo c') i = nth_error (k_lo c) i /\ nth_error (k_up c') i = nth_error (k_up c) i).
Proof.
  induction l as [|i l IH]; intros x c LX LL LU H ND; [exists c; repeat split; auto; contradiction|]. inversion ND as [|a b N1 N2]. subst a b.
  destruct (nth_some i x) as [v V]; [rewrite LX; apply H; left; reflexivity|]. cbn [fix_ints]. rewrite (rd_nth _ _ _ V). cbn [bind].
  assert (LI : (i < n)%nat) by (apply H; left; reflexivity). unfold setUpper, setLower.
  destruct (lset_spec i (Fin (inject_Z (nearest v))) (k_up c)) as (u' & EU & LU' & NU); [lia|]. rewrite EU. cbn [bind k_lo k_up].
  destruct (lset_spec i (Fin (inject_Z (nearest v))) (k_lo c)) as (l' & EL & LL' & NL); [lia|]. rewrite EL. cbn [bind].
  destruct (IH x (mkCols l' u')) as (c' & E & A & B & C & D); auto; cbn [k_lo k_up]; try lia.
  { intros j J. apply H. right. exact J. }
  exists c'. cbn [k_lo k_up] in D. split; [exact E|]. split; [exact A|]. split; [exact B|]. split.
  - intros j w [<-|J] W; [|exact (C j w J W)]. rewrite V in W. injection W as <-. destruct (D i N1) as [D1 D2]. rewrite D1, D2, NL, NU, Nat.eqb_refl. auto.
  - intros j NJ. destruct (D j) as [D1 D2]; [intros J; apply NJ; right; exact J|]. rewrite D1, D2, NL, NU.
    destruct (Nat.eqb j i) eqn:EJ; [apply Nat.eqb_eq in EJ; subst j; exfalso; apply NJ; left; reflexivity|auto].
Qed.
