(** Proofs about the merging of duplicate entries, C10. *)
From Verif Require Import Base Quad_Model Quad_Spec Quad_Proofs.
#[local] Open Scope Q_scope.
(** ** Merging duplicates *)
Definition t0 := mkT 0 0 0.
Lemma set_nth_get {A} k (v d : A) l q : (k < length l)%nat ->
  nth q (set_nth k v l) d = if Nat.eqb q k then v else nth q l d.
Proof.
  revert k q. induction l as [|a l IH]; intros k q L; simpl in L; [lia|].
  destruct k as [|k], q as [|q]; simpl; auto. apply IH. lia.
Qed.

(** The entries seen through the ordering. *)
Definition seen (ro : list nat) (E : list trip) (k : nat) : trip := nth (nth k ro 0%nat) E t0.

Lemma seen_set ro E k q v : NoDup ro -> length ro = length E -> Forall (fun p => (p < length E)%nat) ro ->
  (k < length ro)%nat -> (q < length ro)%nat ->
  seen ro (set_nth (nth k ro 0%nat) v E) q = if Nat.eqb q k then v else seen ro E q.
Proof.
  intros ND L F K Q. unfold seen. rewrite set_nth_get.
  - destruct (Nat.eqb_spec q k) as [->|NE]; [rewrite Nat.eqb_refl; reflexivity|].
    destruct (Nat.eqb_spec (nth q ro 0%nat) (nth k ro 0%nat)) as [EQ|]; auto.
    exfalso. apply NE. exact (proj1 (NoDup_nth ro 0%nat) ND q k Q K EQ).
  - rewrite Forall_forall in F. apply F. apply nth_In; auto.
Qed.

Definition fterm (x : nat -> Q) (t : trip) : Q := t_v t * x (t_i t) * x (t_j t).
Definition same_pos (s t : trip) : Prop := t_i s = t_i t /\ t_j s = t_j t.

Lemma qsum_seq_ext (f g : nat -> Q) l : (forall q, In q l -> f q == g q) -> qsum (map f l) == qsum (map g l).
Proof.
  induction l as [|a l IH]; intros H; simpl; [reflexivity|].
  rewrite (H a) by (left; auto). rewrite IH by (intros; apply H; right; auto). reflexivity.
Qed.

Lemma rd_loop_ok ro E0 (ND : NoDup ro) (L : length ro = length E0)
  (F : Forall (fun p => (p < length E0)%nat) ro) : forall is i j E,
  is = seq i (length is) -> (i + length is = length ro)%nat -> (j < i)%nat ->
  length E = length E0 ->
  (forall q, (i <= q)%nat -> (q < length ro)%nat -> seen ro E q = seen ro E0 q) ->
  exists j' E', rd_loop ro is j E = Ok (j', E') /\ length E' = length E0 /\ (j' < length ro)%nat /\
    (forall x, qsum (map (fun q => fterm x (seen ro E' q)) (seq 0 (S j'))) ==
       qsum (map (fun q => fterm x (seen ro E q)) (seq 0 (S j))) +
       qsum (map (fun q => fterm x (seen ro E0 q)) is)) /\
    ((forall p q, (p < q)%nat -> (q < length ro)%nat -> row_le (seen ro E0 p) (seen ro E0 q)) ->
     (forall p q, (p < q)%nat -> (q <= j)%nat -> row_le (seen ro E p) (seen ro E q) /\ ~ same_pos (seen ro E p) (seen ro E q)) ->
     (forall p, (p <= j)%nat -> exists k, (k < i)%nat /\ same_pos (seen ro E p) (seen ro E0 k)) ->
     (exists k, (S k = i)%nat /\ same_pos (seen ro E j) (seen ro E0 k)) ->
     (forall p q, (p < q)%nat -> (q <= j')%nat -> row_le (seen ro E' p) (seen ro E' q) /\ ~ same_pos (seen ro E' p) (seen ro E' q))).
Proof.
  induction is as [|i0 is IH]; intros i j E S0 SL JI LE T.
  - exists j, E. cbn [rd_loop length] in *. repeat split; auto; try lia; try (intros; simpl; ring).
    intros. apply H0; auto.
    intros. apply H0; auto.
  - assert (i0 = i /\ is = seq (S i) (length is)) as [-> S1]
      by (cbn [length seq] in S0; split; congruence).
    cbn [length] in SL.
    assert (Pi : (i < length ro)%nat) by lia. assert (Pj : (j < length ro)%nat) by lia.
    assert (B : forall q, (q < length ro)%nat -> (nth q ro 0 < length E)%nat).
    { intros q Hq. rewrite LE. rewrite Forall_forall in F. apply F. apply nth_In; auto. }
    cbn [rd_loop]. rewrite (nth_error_nth' ro 0%nat Pi), (nth_error_nth' ro 0%nat Pj).
    rewrite (nth_error_nth' E t0 (B i Pi)), (nth_error_nth' E t0 (B j Pj)).
    change (nth (nth i ro 0%nat) E t0) with (seen ro E i). change (nth (nth j ro 0%nat) E t0) with (seen ro E j).
    pose proof (T i (Nat.le_refl i) Pi) as TI.
    assert (F' : Forall (fun p => (p < length E)%nat) ro) by (rewrite LE; exact F).
    assert (L' : length ro = length E) by lia.
    destruct (Nat.eqb (t_j (seen ro E i)) (t_j (seen ro E j)) && Nat.eqb (t_i (seen ro E i)) (t_i (seen ro E j)))%bool eqn:EQ.
    + apply andb_prop in EQ. destruct EQ as [EJ EI]. apply Nat.eqb_eq in EJ, EI.
      set (v := mkT _ _ _).
      destruct (IH (S i) j (set_nth (nth j ro 0%nat) v E)) as (j' & E' & R & LE' & PJ' & SUM & SRT); auto; try lia.
      { rewrite set_nth_length; auto. }
      { intros q Hq Hq'. rewrite seen_set by auto. destruct (Nat.eqb_spec q j); [lia|]. apply T; lia. }
      exists j', E'. repeat split; auto.
      * intros x. rewrite SUM. rewrite !seq_S. rewrite !map_app, !qsum_app. cbn [map qsum Nat.add fold_right].
        rewrite seen_set by auto. rewrite Nat.eqb_refl.
        assert (X : qsum (map (fun q => fterm x (seen ro (set_nth (nth j ro 0%nat) v E) q)) (seq 0 j)) ==
                    qsum (map (fun q => fterm x (seen ro E q)) (seq 0 j))).
        { apply qsum_seq_ext. intros q Hq. apply in_seq in Hq. rewrite seen_set by (auto; lia).
          destruct (Nat.eqb_spec q j); [lia|reflexivity]. }
        rewrite X. rewrite <- TI. unfold fterm, v. cbn [t_i t_j t_v]. rewrite EJ, EI. ring.
      * apply SRT; auto.
        -- intros p0 q0 Hpq Hq. destruct (H0 p0 q0 Hpq Hq) as [A1 A2].
           rewrite !seen_set by (auto; lia).
           destruct (Nat.eqb_spec p0 j); [lia|]. destruct (Nat.eqb_spec q0 j) as [->|]; auto.
        -- intros p0 Hp. destruct (H1 p0 Hp) as (k & Hk & Sk). exists k. split; [lia|].
           rewrite seen_set by (auto; lia). destruct (Nat.eqb_spec p0 j) as [->|]; auto.
        -- exists i. split; auto. rewrite seen_set by (auto; lia). rewrite Nat.eqb_refl. rewrite <- TI.
           split; cbn [t_i t_j v]; auto.
      * apply SRT; auto.
        -- intros p0 q0 Hpq Hq. destruct (H0 p0 q0 Hpq Hq) as [A1 A2].
           rewrite !seen_set by (auto; lia).
           destruct (Nat.eqb_spec p0 j); [lia|]. destruct (Nat.eqb_spec q0 j) as [->|]; auto.
        -- intros p0 Hp. destruct (H1 p0 Hp) as (k & Hk & Sk). exists k. split; [lia|].
           rewrite seen_set by (auto; lia). destruct (Nat.eqb_spec p0 j) as [->|]; auto.
        -- exists i. split; auto. rewrite seen_set by (auto; lia). rewrite Nat.eqb_refl. rewrite <- TI.
           split; cbn [t_i t_j v]; auto.
    + assert (PS : (S j < length ro)%nat) by lia.
      rewrite (nth_error_nth' ro 0%nat PS).
      destruct (IH (S i) (S j) (set_nth (nth (S j) ro 0%nat) (seen ro E i) E)) as (j' & E' & R & LE' & PJ' & SUM & SRT); auto; try lia.
      { rewrite set_nth_length; auto. }
      { intros q Hq Hq'. rewrite seen_set by auto. destruct (Nat.eqb_spec q (S j)); [lia|]. apply T; lia. }
      exists j', E'. split; [exact R|]. split; [auto|]. split; [auto|]. split.
      * intros x. rewrite SUM. rewrite (seq_S (S j)). rewrite map_app, qsum_app. cbn [map qsum Nat.add fold_right].
        rewrite seen_set by auto. rewrite Nat.eqb_refl.
        assert (X : qsum (map (fun q => fterm x (seen ro (set_nth (nth (S j) ro 0%nat) (seen ro E i) E) q)) (seq 0 (S j))) ==
                    qsum (map (fun q => fterm x (seen ro E q)) (seq 0 (S j)))).
        { apply qsum_seq_ext. intros q Hq. apply in_seq in Hq. rewrite seen_set by (auto; lia).
          destruct (Nat.eqb_spec q (S j)); [lia|reflexivity]. }
        rewrite X. rewrite <- TI. ring.
      * intros SO AL IN (k & Ek & Sk).
        assert (NP : ~ same_pos (seen ro E j) (seen ro E i)).
        { intros [A1 A2]. rewrite A1, A2, !Nat.eqb_refl in EQ. discriminate. }
        assert (LEJ : forall p, (p <= j)%nat -> row_le (seen ro E p) (seen ro E i) /\ ~ same_pos (seen ro E p) (seen ro E i)).
        { intros p Hp. assert (row_le (seen ro E j) (seen ro E i)) as LJ.
          { pose proof (SO k i ltac:(lia) Pi) as Z. destruct Sk as [A1 A2]. rewrite TI. unfold row_le in *. lia. }
          destruct (Nat.eq_dec p j) as [->|NE]; [auto|].
          destruct (AL p j ltac:(lia) (Nat.le_refl j)) as [A1 A2]. unfold row_le, same_pos in *. lia. }
        apply SRT; auto.
        -- intros p q Hpq Hq. rewrite !seen_set by (auto; lia).
           destruct (Nat.eqb_spec p (S j)); [lia|]. destruct (Nat.eqb_spec q (S j)) as [->|]; [apply LEJ; lia|apply AL; lia].
        -- intros p Hp. rewrite !seen_set by (auto; lia). destruct (Nat.eqb_spec p (S j)) as [->|].
           ++ exists i. split; [lia|]. rewrite TI. split; auto.
           ++ destruct (IN p ltac:(lia)) as (k' & ? & ?). exists k'. split; [lia|auto].
        -- exists i. split; auto. rewrite seen_set by auto. rewrite Nat.eqb_refl, TI. split; auto.
Qed.


Lemma map_seen ro E n : (n <= length ro)%nat ->
  map (seen ro E) (seq 0 n) = map (fun p => nth p E t0) (firstn n ro).
Proof.
  revert ro. induction n as [|n IH] using nat_ind; intros ro L; [reflexivity|].
  rewrite seq_S, map_app. cbn [map Nat.add]. rewrite IH by lia.
  assert (X : firstn (S n) ro = firstn n ro ++ [nth n ro 0%nat]).
  { clear IH. revert ro L. induction n as [|n IH]; intros [|a ro] L; simpl in L; try lia; [reflexivity|].
    simpl. f_equal. apply (IH ro). lia. }
  rewrite X, map_app. reflexivity.
Qed.

Lemma NoDup_map_seq {A} (f : nat -> A) n : (forall p q, (p < q)%nat -> (q < n)%nat -> f p <> f q) ->
  NoDup (map f (seq 0 n)).
Proof.
  intros H. apply (proj2 (NoDup_nth _ (f 0%nat))). rewrite map_length, seq_length.
  intros i j Hi Hj E. rewrite !(map_nth f) in E. rewrite !seq_nth in E by auto. cbn in E.
  destruct (Nat.lt_trichotomy i j) as [C|[C|C]]; auto; exfalso.
  - exact (H i j C Hj E).
  - exact (H j i C Hi (eq_sym E)).
Qed.

Lemma merge_exact ro E : E <> [] -> Permutation ro (seq 0 (length E)) ->
  (forall i j ti tj, (i < j)%nat -> nth_error E (nth i ro 0%nat) = Some ti ->
     nth_error E (nth j ro 0%nat) = Some tj -> (j < length E)%nat -> row_le ti tj) ->
  exists j E1, (j < length E)%nat /\ length E1 = length E /\
    remove_duplicates ro E = Ok (firstn j E1) /\
    let merged := map (fun p => nth p E1 (mkT 0 0 0)) (firstn (S j) ro) in
    (forall x, full_form merged x == full_form E x) /\
    NoDup (map (fun t => (t_i t, t_j t)) merged).
Proof.
  intros NE P SO.
  assert (ND : NoDup ro) by (apply (Permutation_NoDup (Permutation_sym P)); apply seq_NoDup).
  assert (L : length ro = length E) by (rewrite (Permutation_length P), seq_length; auto).
  assert (F : Forall (fun p => (p < length E)%nat) ro).
  { apply Forall_forall. intros p Hp. apply (Permutation_in _ P) in Hp. apply in_seq in Hp. lia. }
  assert (L1 : (1 <= length E)%nat) by (destruct E; [congruence|simpl; lia]).
  destruct (rd_loop_ok ro E ND L F (seq 1 (length E - 1)) 1 0 E) as (j & E1 & R & LE & PJ & SUM & SRT); auto;
    rewrite ?seq_length; try lia; auto.
  exists j, E1. split; [lia|]. split; [auto|]. split.
  { unfold remove_duplicates. rewrite R. reflexivity. }
  cbv zeta. fold t0. rewrite <- map_seen by lia. split.
  - intros x. unfold full_form. rewrite map_map. fold (fterm x). specialize (SUM x).
    unfold fterm in SUM. rewrite SUM.
    rewrite <- qsum_app, <- map_app.
    change (seq 0 1 ++ seq 1 (length E - 1)) with (seq 0 (S (length E - 1))).
    replace (S (length E - 1)) with (length ro) by lia.
    change (fun q => t_v (seen ro E q) * x (t_i (seen ro E q)) * x (t_j (seen ro E q))) with (fun q => fterm x (seen ro E q)).
    rewrite <- (map_map (seen ro E) (fterm x)). rewrite map_seen by lia. rewrite firstn_all.
    apply qsum_perm. apply Permutation_map.
    rewrite (Permutation_map _ P). clear. 
    assert (map (fun p => nth p E t0) (seq 0 (length E)) = E) as ->; auto.
    clear. induction E as [|a E IH]; [reflexivity|]. cbn [length seq map nth]. f_equal.
    rewrite <- seq_shift, map_map. exact IH.
  - rewrite map_map. apply NoDup_map_seq. intros p q Hpq Hq EQ.
    assert (SO' : forall p q, (p < q)%nat -> (q < length ro)%nat -> row_le (seen ro E p) (seen ro E q)).
    { intros a b Hab Hb. rewrite Forall_forall in F.
      apply (SO a b); auto; try lia; unfold seen; apply nth_error_nth'; apply F; apply nth_In; lia. }
    destruct (SRT SO') with (p := p) (q := q) as [_ N]; try lia.
    + intros p0 Hp. exists p0. split; [lia|split; auto].
    + exists 0%nat. split; [auto|split; auto].
    + apply N. injection EQ. intros. split; auto.
Qed.

Lemma merge_sorted E : E <> [] -> sorted row_le E ->
  exists E' t, remove_duplicates (seq 0 (length E)) E = Ok E' /\
    (forall x, full_form (E' ++ [t]) x == full_form E x) /\
    NoDup (map (fun t => (t_i t, t_j t)) (E' ++ [t])).
Proof.
  intros NE SO.
  destruct (merge_exact (seq 0 (length E)) E NE (Permutation_refl _)) as (j & E1 & J & LE & R & SUM & ND).
  { intros i j ti tj IJ H1 H2 HJ. rewrite seq_nth in H1, H2 by lia. cbn in H1, H2. clear NE HJ. revert i j IJ H1 H2.
    induction SO as [|a l FA SO IH]; intros i j IJ H1 H2; [destruct i; discriminate|].
    destruct j as [|j]; [lia|]. cbn [nth_error] in H2. destruct i as [|i].
    - injection H1 as <-. rewrite Forall_forall in FA. apply FA. eapply nth_error_In; eauto.
    - apply (IH i j); auto. lia. }
  assert (X : map (fun p => nth p E1 (mkT 0 0 0)) (firstn (S j) (seq 0 (length E))) = firstn j E1 ++ [nth j E1 (mkT 0 0 0)]).
  { clear - J LE. rewrite <- LE in *. revert j J. clear LE. 
    assert (G : forall (l : list trip) j, (j < length l)%nat -> map (fun p => nth p l (mkT 0 0 0)) (firstn (S j) (seq 0 (length l))) = firstn j l ++ [nth j l (mkT 0 0 0)]).
    { induction l as [|a l IH]; intros j J; cbn [length] in J; [lia|].
      destruct j as [|j]; [reflexivity|].
      change (firstn (S (S j)) (seq 0 (length (a :: l)))) with (0%nat :: firstn (S j) (seq 1 (length l))).
      change (firstn (S j) (a :: l)) with (a :: firstn j l). cbn [map nth]. rewrite <- app_comm_cons. f_equal. rewrite <- seq_shift.
      rewrite firstn_map, map_map. rewrite <- (IH j) by lia. reflexivity. }
    apply G. }
  cbv zeta in SUM, ND. rewrite X in SUM, ND. exists (firstn j E1), (nth j E1 (mkT 0 0 0)). auto.
Qed.
