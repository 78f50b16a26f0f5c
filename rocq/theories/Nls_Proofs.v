(** Lemmas for the solver wrappers. *)
From Verif Require Import Base Arr Itf_Model Nls_Model Nls_Spec.
#[local] Open Scope Q_scope.

(** ** zeroDimension *)
Lemma movable_iff : forall xl xu, movable xl xu = true <-> can_move xl xu.
Proof.
  induction xl as [|l xl IH]; intros xu.
  - split; [discriminate|]. intros (i & a & b & A & _). destruct i; discriminate.
  - destruct xu as [|u xu].
    + split; [discriminate|]. intros (i & a & b & _ & B & _). destruct i; discriminate.
    + cbn [movable]. qcase.
      * split; [intros _|reflexivity]. exists O, l, u. repeat split. exact Ec.
      * rewrite IH. split.
        -- intros (i & a & b & A & B & G). exists (S i), a, b. auto.
        -- intros ([|i] & a & b & A & B & G); cbn in A, B.
           ++ injection A as <-. injection B as <-. lra.
           ++ exists i, a, b. auto.
Qed.
Lemma violated_iff : forall g gl gu, violated g gl gu = false <-> con_ok gl gu g.
Proof.
  induction g as [|v g IH]; intros gl gu.
  - split; [|reflexivity]. intros _ i v l u A. destruct i; discriminate.
  - destruct gl as [|l gl].
    { split; [|reflexivity]. intros _ i a b c _ B. destruct i; discriminate. }
    destruct gu as [|u gu].
    { split; [|reflexivity]. intros _ i a b c _ _ B. destruct i; discriminate. }
    cbn [violated]. destruct (Qltb (v - l) (- (1 # 10000000))) eqn:E1; cbn [orb].
    { apply Qltb_lt in E1. split; [discriminate|]. intros H. specialize (H O v l u eq_refl eq_refl eq_refl). lra. }
    apply Qltb_ge in E1. destruct (Qltb (1 # 10000000) (v - u)) eqn:E2.
    { apply Qltb_lt in E2. split; [discriminate|]. intros H. specialize (H O v l u eq_refl eq_refl eq_refl). lra. }
    apply Qltb_ge in E2. rewrite IH. split.
    + intros H [|i] a b c A B C; cbn in A, B, C; [|exact (H i a b c A B C)].
      injection A as <-. injection B as <-. injection C as <-. lra.
    + intros H i a b c A B C. exact (H (S i) a b c A B C).
Qed.

(** ** Arrays *)
Lemma aset_get {A} i (v : A) a : (i < length a)%nat ->
  exists a', aset i v a = Ok a' /\ length a' = length a /\
    forall j, aget j a' = if Nat.eqb j i then Ok v else aget j a.
Proof.
  revert i; induction a as [|c a IH]; intros i L; cbn [length] in L; [lia|].
  destruct i as [|i].
  - exists (Some v :: a). repeat split. intros [|j]; reflexivity.
  - destruct (IH i) as (a' & E & La & G); [lia|]. exists (c :: a'). cbn [aset]. rewrite E. cbn [bind length].
    repeat split; [lia|]. intros [|j]; [reflexivity|]. exact (G j).
Qed.
Lemma put_starts_ok k v : forall start a, (start + k <= length a)%nat ->
  exists a', put_starts k v start a = Ok ((start + k)%nat, a') /\ length a' = length a /\
    forall j, aget j a' = if (Nat.leb start j && Nat.ltb j (start + k))%bool then Ok v else aget j a.
Proof.
  induction k as [|k IH]; intros start a L.
  - exists a. cbn [put_starts]. rewrite Nat.add_0_r. repeat split. intros j.
    destruct (Nat.leb_spec start j), (Nat.ltb_spec j start); try lia; reflexivity.
  - destruct (aset_get start v a) as (a1 & E & L1 & G); [lia|].
    destruct (IH (S start) a1) as (a2 & E2 & L2 & G2); [lia|].
    exists a2. cbn [put_starts]. rewrite E. cbn [bind]. rewrite E2.
    replace (S start + k)%nat with (start + S k)%nat by lia. repeat split; [lia|].
    intros j. rewrite G2, G.
    destruct (Nat.leb_spec (S start) j), (Nat.ltb_spec j (S start + k)), (Nat.leb_spec start j), (Nat.ltb_spec j (start + S k)), (Nat.eqb_spec j start);
      cbn [andb]; try lia; reflexivity.
Qed.
Lemma ablit_get {A} (l : list A) : forall o a, (o + length l <= length a)%nat ->
  exists a', ablit o l a = Ok a' /\ length a' = length a /\
    forall j, aget j a' = if (Nat.leb o j && Nat.ltb j (o + length l))%bool then rd (j - o) l else aget j a.
Proof.
  induction l as [|v l IH]; intros o a L; cbn [length] in L.
  - exists a. repeat split. intros j. cbn [length].
    destruct (Nat.leb_spec o j), (Nat.ltb_spec j (o + 0)); try lia; reflexivity.
  - destruct (aset_get o v a) as (a1 & E & L1 & G); [lia|].
    destruct (IH (S o) a1) as (a2 & E2 & L2 & G2); [lia|].
    exists a2. cbn [ablit]. rewrite E. cbn [bind]. rewrite E2. repeat split; [lia|].
    intros j. rewrite G2, G. cbn [length].
    destruct (Nat.leb_spec (S o) j), (Nat.ltb_spec j (S o + length l)), (Nat.leb_spec o j), (Nat.ltb_spec j (o + S (length l))), (Nat.eqb_spec j o);
      cbn [andb]; try lia; try reflexivity.
    + unfold rd. replace (j - o)%nat with (S (j - S o)) by lia. reflexivity.
    + subst j. rewrite Nat.sub_diag. reflexivity.
Qed.
Lemma rd_nth {A} i (l : list A) d : (i < length l)%nat -> rd i l = Ok (nth i l d).
Proof. intros H. unfold rd. rewrite (nth_error_nth' l d H). reflexivity. Qed.
Lemma rd_nth_inv {A} i (l : list A) v d : rd i l = Ok v -> nth i l d = v.
Proof. unfold rd. destruct (nth_error l i) eqn:E; [|discriminate]. intros H. injection H as <-. exact (nth_error_nth _ _ _ E). Qed.

(** ** Sorting by a key *)
Section Pack.
Variable key : nat -> Z.
Fixpoint nondec (l : list nat) : Prop :=
  match l with [] => True | p :: l' => Forall (fun q => key p <= key q)%Z l' /\ nondec l' end.
Definition cnt (r : Z) (l : list nat) : nat := length (filter (fun p => Z.ltb (key p) r) l).
Lemma cnt_all r l : Forall (fun p => key p < r)%Z l -> cnt r l = length l.
Proof.
  unfold cnt. induction 1 as [|p l P _ IH]; [reflexivity|]. cbn [filter].
  apply Z.ltb_lt in P. rewrite P. cbn [length]. lia.
Qed.
Lemma cnt_none r l : Forall (fun p => r <= key p)%Z l -> cnt r l = 0%nat.
Proof.
  unfold cnt. induction 1 as [|p l P _ IH]; [reflexivity|]. cbn [filter].
  apply Z.ltb_ge in P. rewrite P. exact IH.
Qed.
Lemma cnt_le r l : (cnt r l <= length l)%nat.
Proof. unfold cnt. induction l as [|p l IH]; [cbn; lia|]. cbn [filter]. destruct (Z.ltb (key p) r); cbn [length]; lia. Qed.
Lemma filter_nil {A} (f : A -> bool) l : Forall (fun a => f a = false) l -> filter f l = [].
Proof. induction 1 as [|a l H _ IH]; [reflexivity|]. cbn [filter]. rewrite H. exact IH. Qed.
(** In a list ordered by key the elements with key r are consecutive. *)
Lemma sorted_segment r : forall l, nondec l ->
  firstn (cnt (r + 1) l - cnt r l) (skipn (cnt r l) l) = filter (fun p => Z.eqb (key p) r) l /\ (cnt r l <= cnt (r + 1) l <= length l)%nat.
Proof.
  induction l as [|p l IH]; intros N; [split; [reflexivity|cbn; lia]|].
  destruct N as (F & N). destruct (IH N) as (I1 & I2). unfold cnt in *. cbn [filter length].
  destruct (Z.ltb_spec (key p) r) as [H|H].
  - destruct (Z.ltb_spec (key p) (r + 1)) as [H1|H1]; [|lia].
    destruct (Z.eqb_spec (key p) r) as [E|E]; [lia|]. cbn [length skipn]. split; [|lia].
    rewrite Nat.sub_succ. exact I1.
  - assert (Z0 : length (filter (fun p => Z.ltb (key p) r) l) = 0%nat).
    { apply (cnt_none r l). eapply Forall_impl; [|exact F]. intros q Q1. cbn beta in Q1 |- *. lia. }
    rewrite Z0 in *. cbn [skipn] in *. rewrite Nat.sub_0_r in *.
    destruct (Z.ltb_spec (key p) (r + 1)) as [H1|H1].
    + assert (E : key p = r) by lia. rewrite E, Z.eqb_refl. cbn [length firstn]. split; [f_equal; exact I1|lia].
    + destruct (Z.eqb_spec (key p) r) as [E|E]; [lia|].
      assert (Z1 : length (filter (fun p => Z.ltb (key p) (r + 1)) l) = 0%nat).
      { apply (cnt_none (r + 1) l). eapply Forall_impl; [|exact F]. intros q Q1. cbn beta in Q1 |- *. lia. }
      rewrite Z1 in *. split; [|lia]. cbn [firstn] in *. symmetry. apply filter_nil.
      eapply Forall_impl; [|exact F]. intros q Q1. cbn beta in Q1 |- *. apply Z.eqb_neq. lia.
Qed.
End Pack.

Lemma strict_weak_transposer rows cols : strict_weak (transposer_lt rows cols).
Proof.
  split; unfold transposer_lt.
  - intros a. rewrite !Z.ltb_irrefl, andb_false_r. reflexivity.
  - intros a b c H1 H2. apply orb_true_iff in H1, H2. apply orb_true_iff.
    rewrite !andb_true_iff, !Z.ltb_lt, !Z.eqb_eq in *. lia.
  - intros a b c H1 H2. apply orb_false_iff in H1, H2. apply orb_false_iff.
    rewrite !andb_false_iff, !Z.ltb_ge, !Z.eqb_neq in *. lia.
Qed.
Lemma ordered_nondec rows cols l : ordered (transposer_lt rows cols) l -> nondec (fun p => nth p rows 0%Z) l.
Proof.
  induction 1 as [|a l F _ IH]; [exact Logic.I|]. split; [|exact IH].
  eapply Forall_impl; [|exact F]. intros b H. cbn beta in *. unfold transposer_lt in H.
  apply orb_false_iff in H. destruct H as (H & _). apply Z.ltb_ge in H. exact H.
Qed.

(** ** The packing loop *)
Lemma pack_loop_ok rows cols idx off M : length cols = length rows -> forall perm i row start a,
  Forall (fun p => (p < length rows)%nat /\ (row <= nth p rows 0 <= M)%Z) perm -> nondec (fun p => nth p rows 0%Z) perm ->
  (row <= M)%Z -> (off + 1 + i + length perm <= start)%nat -> (start + Z.to_nat (M - row) <= length a)%nat ->
  exists row' start' a', pack_loop rows cols idx off perm i row start a = Ok (row', start', a') /\ length a' = length a /\
    (row <= row' <= M)%Z /\ start' = (start + Z.to_nat (row' - row))%nat /\
    Forall (fun p => (nth p rows 0 <= row')%Z) perm /\
    (forall t, (t < length perm)%nat -> aget (off + 1 + i + t) a' = Ok (nth (nth t perm 0%nat) cols 0 + idx)%Z) /\
    (forall r, (row < r <= row')%Z -> aget (start + Z.to_nat (r - row - 1)) a' = Ok (Z.of_nat (off + 1 + i + cnt (fun p => nth p rows 0%Z) r perm))) /\
    (forall j, (j < off + 1 + i \/ (off + 1 + i + length perm <= j /\ j < start) \/ start' <= j)%nat -> aget j a' = aget j a).
Proof.
  intros LC. induction perm as [|p perm IH]; intros i row start a F N RM D S.
  - exists row, start, a. cbn [pack_loop]. replace (row - row)%Z with 0%Z by lia. rewrite Nat.add_0_r.
    split; [reflexivity|]. split; [reflexivity|]. split; [lia|]. split; [cbn; lia|]. split; [constructor|].
    split; [intros t Ht; cbn in Ht; lia|]. split; [intros r Hr; lia|]. reflexivity.
  - apply Forall_cons_iff in F. destruct F as ((P1 & P2) & F). destruct N as (NP & N). cbn [length] in D.
    cbn [pack_loop]. rewrite (rd_nth p cols 0%Z) by lia. cbn [bind]. rewrite (rd_nth p rows 0%Z) by lia. cbn [bind].
    destruct (aset_get (off + 1 + i) (nth p cols 0%Z + idx)%Z a) as (a1 & E1 & L1 & G1); [lia|].
    rewrite E1. cbn [bind]. set (r := nth p rows 0%Z) in *.
    destruct (Z.ltb_spec row r) as [H|H].
    + destruct (put_starts_ok (Z.to_nat (r - row)) (Z.of_nat (i + off + 1)) start a1) as (a2 & E2 & L2 & G2); [lia|].
      rewrite E2. cbn [bind].
      destruct (IH (Datatypes.S i) r (start + Z.to_nat (r - row))%nat a2) as (row' & start' & a' & E & L & R & ST & FR & C & T & K).
      { apply Forall_forall. intros q Q. pose proof (proj1 (Forall_forall _ _) F q Q) as X. pose proof (proj1 (Forall_forall _ _) NP q Q) as Y. cbn beta in X, Y. fold r in Y. lia. }
      { exact N. } { lia. } { lia. } { lia. }
      exists row', start', a'. split; [exact E|]. split; [lia|]. split; [lia|]. split; [lia|].
      split; [constructor; [fold r; lia|exact FR]|].
      split; [|split].
      * intros [|t] Ht.
        -- rewrite K by lia. rewrite G2, G1.
           destruct (Nat.leb_spec start (off + 1 + i + 0)); [lia|]. cbn [andb]. rewrite Nat.add_0_r, Nat.eqb_refl. reflexivity.
        -- cbn [length] in Ht. specialize (C t ltac:(lia)). replace (off + 1 + i + Datatypes.S t)%nat with (off + 1 + Datatypes.S i + t)%nat by lia. exact C.
      * intros r' Hr'. unfold cnt. cbn [filter]. fold r.
        destruct (Z.le_gt_cases r' r) as [L'|L'].
        -- (* a start written for this entry *)
           rewrite K by lia. rewrite G2.
           destruct (Nat.leb_spec start (start + Z.to_nat (r' - row - 1))); [|lia].
           destruct (Nat.ltb_spec (start + Z.to_nat (r' - row - 1)) (start + Z.to_nat (r - row))); [|lia]. cbn [andb].
           destruct (Z.ltb_spec r r'); [lia|]. do 2 f_equal.
           pose proof (cnt_none (fun p => nth p rows 0%Z) r' perm) as C0. unfold cnt in C0. rewrite C0; [lia|].
           eapply Forall_impl; [|exact NP]. intros q Q. cbn beta in Q |- *. fold r in Q. lia.
        -- destruct (Z.ltb_spec r r'); [|lia]. cbn [length].
           specialize (T r' ltac:(lia)).
           replace (start + Z.to_nat (r - row) + Z.to_nat (r' - r - 1))%nat with (start + Z.to_nat (r' - row - 1))%nat in T by lia.
           rewrite T. do 2 f_equal. unfold cnt. lia.
      * intros j Hj. cbn [length] in Hj. rewrite K by lia. rewrite G2, G1.
        destruct (Nat.leb_spec start j), (Nat.ltb_spec j (start + Z.to_nat (r - row))), (Nat.eqb_spec j (off + 1 + i)); cbn [andb]; try lia; reflexivity.
    + assert (ER : r = row) by lia.
      destruct (IH (Datatypes.S i) row start a1) as (row' & start' & a' & E & L & R & ST & FR & C & T & K).
      { apply Forall_forall. intros q Q. pose proof (proj1 (Forall_forall _ _) F q Q) as X. cbn beta in X. lia. }
      { exact N. } { lia. } { lia. } { lia. }
      exists row', start', a'. split; [exact E|]. split; [lia|]. split; [lia|]. split; [lia|].
      split; [constructor; [fold r; lia|exact FR]|].
      split; [|split].
      * intros [|t] Ht.
        -- rewrite K by lia. rewrite G1. rewrite Nat.add_0_r, Nat.eqb_refl. reflexivity.
        -- cbn [length] in Ht. specialize (C t ltac:(lia)). replace (off + 1 + i + Datatypes.S t)%nat with (off + 1 + Datatypes.S i + t)%nat by lia. exact C.
      * intros r' Hr'. unfold cnt. cbn [filter]. fold r. destruct (Z.ltb_spec r r'); [|lia]. cbn [length].
        rewrite (T r' Hr'). do 2 f_equal. unfold cnt. lia.
      * intros j Hj. cbn [length] in Hj. rewrite K by lia. rewrite G1.
        destruct (Nat.eqb_spec j (off + 1 + i)); [lia|reflexivity].
Qed.

(** The rows and columns the routine works with. *)
Definition eff (symmetric : bool) (iRow iCol : list Z) : list (Z * Z) :=
  if symmetric then symmetrise iRow iCol else combine iRow iCol.
Lemma eff_length s iRow iCol nnz : length iRow = nnz -> length iCol = nnz -> length (eff s iRow iCol) = nnz.
Proof. intros A B. unfold eff, symmetrise. destruct s; [rewrite map_length|]; rewrite combine_length; lia. Qed.

Lemma tmat_ok sort s m iRow iCol nnz lws off noff (cs : bool) : sort_ok sort -> length iRow = nnz -> length iCol = nnz ->
  let idx := (if cs then 1 else 0)%Z in
  let rows := map fst (eff s iRow iCol) in let cols := map snd (eff s iRow iCol) in
  in_rows m idx rows -> (off + nnz + noff + m + 2 <= length lws)%nat ->
  exists perm a, TMat2RowPMat sort s m nnz iRow iCol lws off noff cs = Ok (perm, a) /\ length a = length lws /\
    Permutation (seq 0 nnz) perm /\ nondec (fun p => nth p rows 0%Z) perm /\
    aget 0 a = Ok (Z.of_nat (nnz + off + 1)) /\
    (forall t, (t < nnz)%nat -> aget (off + 1 + t) a = Ok (nth (nth t perm 0%nat) cols 0 + idx)%Z) /\
    (forall r, (r <= m)%nat -> aget (off + 1 + nnz + noff + r) a = Ok (Z.of_nat (off + 1 + cnt (fun p => nth p rows 0%Z) (Z.of_nat r + 1 - idx) perm))) /\
    (forall j, (0 < j <= off \/ off + nnz < j < off + 1 + nnz + noff)%nat -> aget j a = aget j lws).
Proof.
  intros SO L1 L2 idx rows cols IR SZ. unfold TMat2RowPMat. rewrite L1, L2, Nat.ltb_irrefl. cbn [orb].
  fold (eff s iRow iCol). fold rows cols.
  destruct (SO (transposer_lt rows cols) (seq 0 nnz) (strict_weak_transposer _ _)) as (PM & OR).
  set (perm := sort (transposer_lt rows cols) (seq 0 nnz)) in *. fold idx.
  assert (LP : length perm = nnz) by (rewrite <- (Permutation_length PM); apply seq_length).
  assert (LR : length rows = nnz) by (unfold rows; rewrite map_length; apply eff_length; assumption).
  assert (LC : length cols = nnz) by (unfold cols; rewrite map_length; apply eff_length; assumption).
  destruct (aset_get 0 (Z.of_nat (nnz + off + 1)) lws) as (a0 & E0 & A0 & G0); [lia|]. rewrite E0. cbn [bind].
  destruct (aset_get (off + 1 + nnz + noff) (Z.of_nat (1 + off)) a0) as (a1 & E1 & A1 & G1); [lia|]. rewrite E1. cbn [bind].
  assert (KR : Forall (fun p => (p < nnz)%nat /\ (1 - idx <= nth p rows 0 <= Z.of_nat m - idx)%Z) perm).
  { apply Forall_forall. intros p P. apply (Permutation_in _ (Permutation_sym PM)) in P. apply in_seq in P.
    split; [lia|]. unfold in_rows in IR. rewrite Forall_forall in IR. specialize (IR (nth p rows 0%Z) (nth_In rows 0%Z (n := p) ltac:(lia))). cbn beta in IR. lia. }
  destruct (Nat.eq_dec nnz 0) as [NZ|NZ].
  - (* no entries *)
    assert (perm = []) as -> by (destruct perm; [reflexivity|cbn in LP; lia]).
    cbn [pack_loop bind].
    destruct (put_starts_ok (Z.to_nat (Z.of_nat m - idx - (1 - idx) + 1)) (Z.of_nat (nnz + off + 1)) (S (off + 1 + nnz + noff)) a1) as (a2 & E2 & A2 & G2); [lia|].
    rewrite E2. cbn [bind]. exists [], a2. split; [reflexivity|]. split; [lia|]. split; [exact PM|]. split; [exact Logic.I|].
    split; [|split; [|split]].
    + rewrite G2, G1, G0. cbn [Nat.leb andb]. destruct (Nat.eqb_spec 0 (off + 1 + nnz + noff)); [lia|]. rewrite Nat.eqb_refl. reflexivity.
    + intros t Ht. lia.
    + intros r Hr. rewrite G2, G1. unfold cnt. cbn [filter length].
      destruct (Nat.leb_spec (S (off + 1 + nnz + noff)) (off + 1 + nnz + noff + r)) as [H|H].
      * destruct (Nat.ltb_spec (off + 1 + nnz + noff + r) (S (off + 1 + nnz + noff) + Z.to_nat (Z.of_nat m - idx - (1 - idx) + 1))); [|lia]. cbn [andb]. do 2 f_equal. lia.
      * cbn [andb]. destruct (Nat.eqb_spec (off + 1 + nnz + noff + r) (off + 1 + nnz + noff)); [|lia]. do 2 f_equal. lia.
    + intros j Hj. rewrite G2, G1, G0.
      destruct (Nat.leb_spec (S (off + 1 + nnz + noff)) j); [lia|]. cbn [andb].
      destruct (Nat.eqb_spec j (off + 1 + nnz + noff)); [lia|]. destruct (Nat.eqb_spec j 0); [lia|]. reflexivity.
  - assert (M1 : (1 - idx <= Z.of_nat m - idx)%Z).
    { destruct perm as [|p perm']; [cbn in LP; lia|]. apply Forall_cons_iff in KR. destruct KR as (K1 & _). lia. }
    destruct (pack_loop_ok rows cols idx off (Z.of_nat m - idx) ltac:(lia) perm 0 (1 - idx) (S (off + 1 + nnz + noff)) a1) as (row' & start' & a2 & E & L & R & ST & FR & C & T & K).
    { rewrite LR. exact KR. } { exact (ordered_nondec _ _ _ OR). } { lia. } { lia. } { lia. }
    rewrite E. cbn [bind].
    destruct (put_starts_ok (Z.to_nat (Z.of_nat m - idx - row' + 1)) (Z.of_nat (nnz + off + 1)) start' a2) as (a3 & E3 & A3 & G3); [lia|].
    rewrite E3. cbn [bind]. exists perm, a3. split; [reflexivity|]. split; [lia|]. split; [exact PM|]. split; [exact (ordered_nondec _ _ _ OR)|].
    split; [|split; [|split]].
    + rewrite G3. destruct (Nat.leb_spec start' 0); [lia|]. cbn [andb]. rewrite K by lia. rewrite G1, G0.
      destruct (Nat.eqb_spec 0 (off + 1 + nnz + noff)); [lia|]. rewrite Nat.eqb_refl. reflexivity.
    + intros t Ht. rewrite G3. destruct (Nat.leb_spec start' (off + 1 + t)); [lia|]. cbn [andb].
      specialize (C t ltac:(lia)). rewrite Nat.add_0_r in C. exact C.
    + intros r Hr. rewrite G3.
      destruct (Nat.leb_spec start' (off + 1 + nnz + noff + r)) as [H|H].
      * destruct (Nat.ltb_spec (off + 1 + nnz + noff + r) (start' + Z.to_nat (Z.of_nat m - idx - row' + 1))); [|lia]. cbn [andb].
        rewrite (cnt_all (fun p => nth p rows 0%Z) (Z.of_nat r + 1 - idx) perm).
        -- do 2 f_equal. lia.
        -- eapply Forall_impl; [|exact FR]. intros q Q. cbn beta in Q |- *. lia.
      * cbn [andb]. destruct r as [|r].
        -- rewrite K by lia. rewrite G1. rewrite Nat.add_0_r, Nat.eqb_refl. do 2 f_equal.
           rewrite cnt_none; [lia|]. eapply Forall_impl; [|exact KR]. intros q Q. cbn beta in Q |- *. lia.
        -- specialize (T (Z.of_nat (S r) + 1 - idx)%Z ltac:(lia)).
           replace (S (off + 1 + nnz + noff) + Z.to_nat (Z.of_nat (S r) + 1 - idx - (1 - idx) - 1))%nat with (off + 1 + nnz + noff + S r)%nat in T by lia.
           rewrite T. do 2 f_equal. lia.
    + intros j Hj. rewrite G3. destruct (Nat.leb_spec start' j); [lia|]. cbn [andb]. rewrite K by lia. rewrite G1, G0.
      destruct (Nat.eqb_spec j (off + 1 + nnz + noff)); [lia|]. destruct (Nat.eqb_spec j 0); [lia|]. reflexivity.
Qed.

(** ** Reading the packed matrix *)
Lemma segment_map la a c v : forall k p, (1 <= p)%nat ->
  (forall t, (t < k)%nat -> aget (p + t) la = Ok (c t)) -> (forall t, (t < k)%nat -> rd (p - 1 + t) a = Ok (v t)) ->
  forall s, (forall t, (t < k)%nat -> c t = c t) -> segment p k la a = Ok (map (fun t => (c (t - s)%nat, v (t - s)%nat)) (seq s k)).
Proof.
  intros k. revert c v. induction k as [|k IH]; intros c v p P1 H1 H2 s _; [reflexivity|].
  cbn [segment seq map]. pose proof (H1 O ltac:(lia)) as A. rewrite Nat.add_0_r in A. rewrite A. cbn [bind].
  pose proof (H2 O ltac:(lia)) as B. rewrite Nat.add_0_r in B. rewrite B. cbn [bind].
  rewrite (IH (fun t => c (S t)) (fun t => v (S t)) (S p)) with (s := S s).
  - cbn [bind]. rewrite Nat.sub_diag. do 2 f_equal. apply map_ext_in. intros t T. apply in_seq in T.
    replace (t - s)%nat with (S (t - S s)) by lia. reflexivity.
  - lia.
  - intros t Ht. replace (S p + t)%nat with (p + S t)%nat by lia. apply H1. lia.
  - intros t Ht. replace (S p - 1 + t)%nat with (p - 1 + S t)%nat by lia. apply H2. lia.
  - reflexivity.
Qed.
Lemma segment_map0 la a c v k p : (1 <= p)%nat ->
  (forall t, (t < k)%nat -> aget (p + t) la = Ok (c t)) -> (forall t, (t < k)%nat -> rd (p - 1 + t) a = Ok (v t)) ->
  segment p k la a = Ok (map (fun t => (c t, v t)) (seq 0 k)).
Proof.
  intros P H1 H2. rewrite (segment_map la a c v k p P H1 H2 0 ltac:(reflexivity)). f_equal. apply map_ext. intros t. rewrite Nat.sub_0_r. reflexivity.
Qed.
Lemma map_seq_nth {A} (l : list A) d : map (fun t => nth t l d) (seq 0 (length l)) = l.
Proof.
  induction l as [|a l IH]; [reflexivity|]. cbn [length seq map nth]. f_equal.
  rewrite <- seq_shift, map_map. exact IH.
Qed.
Lemma nth_skipn {A} i j (l : list A) d : nth j (skipn i l) d = nth (i + j) l d.
Proof. revert i; induction l as [|a l IH]; intros [|i]; cbn; try reflexivity; [destruct j; reflexivity|apply IH]. Qed.
Lemma nth_firstn {A} k j (l : list A) d : (j < k)%nat -> nth j (firstn k l) d = nth j l d.
Proof. revert k j; induction l as [|a l IH]; intros [|k] [|j] H; cbn; try reflexivity; try lia. apply IH. lia. Qed.
Lemma permute_ok vals : forall perm, Forall (fun p => (p < length vals)%nat) perm -> permute vals perm = Ok (map (fun p => nth p vals 0) perm).
Proof.
  induction 1 as [|p perm P _ IH]; [reflexivity|]. cbn [permute]. rewrite (rd_nth p vals 0 P). cbn [bind]. rewrite IH. reflexivity.
Qed.
Lemma triplets_seq : forall rows cols vals, length cols = length rows -> length vals = length rows ->
  triplets rows cols vals = map (fun p => (nth p rows 0%Z, nth p cols 0%Z, nth p vals 0)) (seq 0 (length rows)).
Proof.
  induction rows as [|r rows IH]; intros [|c cols] [|v vals] L1 L2; cbn in L1, L2; try discriminate; [reflexivity|].
  unfold triplets. cbn [combine length seq map nth]. f_equal. rewrite <- seq_shift, map_map. cbn [nth]. apply IH; lia.
Qed.
Lemma filter_map_comm {A B} (f : A -> B) (g : B -> bool) l : filter g (map f l) = map f (filter (fun a => g (f a)) l).
Proof. induction l as [|a l IH]; [reflexivity|]. cbn [map filter]. destruct (g (f a)); cbn [map]; rewrite IH; reflexivity. Qed.
Lemma perm_filter {A} (f : A -> bool) l l' : Permutation l l' -> Permutation (filter f l) (filter f l').
Proof.
  induction 1; cbn [filter].
  - constructor.
  - destruct (f x); [constructor|]; assumption.
  - destruct (f x), (f y); try apply Permutation_refl; constructor.
  - etransitivity; eassumption.
Qed.

(** One row of the packed matrix. *)
Lemma packed_row_ok rows cols vals perm la off noff nnz m (idx : Z) pre R : length rows = nnz -> length cols = nnz -> length vals = nnz -> length pre = off ->
  Permutation (seq 0 nnz) perm -> nondec (fun p => nth p rows 0%Z) perm ->
  aget 0 la = Ok (Z.of_nat (nnz + off + 1)) ->
  (forall t, (t < nnz)%nat -> aget (off + 1 + t) la = Ok (nth (nth t perm 0%nat) cols 0 + idx)%Z) ->
  (forall r, (r <= m)%nat -> aget (off + 1 + nnz + noff + r) la = Ok (Z.of_nat (off + 1 + cnt (fun p => nth p rows 0%Z) (Z.of_nat r + 1 - idx) perm))) ->
  (1 <= R <= m)%nat ->
  exists ents, packed_row la (pre ++ map (fun p => nth p vals 0) perm) (noff + R - 1) = Ok ents /\
    Permutation ents (row_of idx R (triplets rows cols vals)).
Proof.
  intros L1 L2 L3 LP PM ND A0 AC AP HR. unfold packed_row. rewrite A0. cbn [bind]. rewrite Nat2Z.id.
  assert (LPM : length perm = nnz) by (rewrite <- (Permutation_length PM); apply seq_length).
  set (key := fun p => nth p rows 0%Z) in *.
  pose proof (AP (R - 1)%nat ltac:(lia)) as P1. pose proof (AP R ltac:(lia)) as P2.
  replace (off + 1 + nnz + noff + (R - 1))%nat with (nnz + off + 1 + (noff + R - 1))%nat in P1 by lia.
  replace (off + 1 + nnz + noff + R)%nat with (S (nnz + off + 1 + (noff + R - 1)))%nat in P2 by lia.
  replace (Z.of_nat (R - 1) + 1 - idx)%Z with (Z.of_nat R - idx)%Z in P1 by lia.
  replace (Z.of_nat R + 1 - idx)%Z with (Z.of_nat R - idx + 1)%Z in P2 by lia.
  rewrite P1. cbn [bind]. rewrite P2. cbn [bind].
  destruct (sorted_segment key (Z.of_nat R - idx) perm ND) as (SG & SL).
  set (c0 := cnt key (Z.of_nat R - idx) perm) in *. set (c1 := cnt key (Z.of_nat R - idx + 1) perm) in *.
  destruct (Z.leb_spec 1 (Z.of_nat (off + 1 + c0))); [|lia].
  destruct (Z.leb_spec (Z.of_nat (off + 1 + c0)) (Z.of_nat (off + 1 + c1))); [|lia]. cbn [andb].
  replace (Z.to_nat (Z.of_nat (off + 1 + c0))) with (off + 1 + c0)%nat by lia.
  replace (Z.to_nat (Z.of_nat (off + 1 + c1) - Z.of_nat (off + 1 + c0))) with (c1 - c0)%nat by lia.
  rewrite (segment_map0 la _ (fun t => nth (nth (c0 + t) perm 0%nat) cols 0 + idx)%Z (fun t => nth (nth (c0 + t) perm 0%nat) vals 0)).
  - eexists. split; [reflexivity|].
    assert (EQ : map (fun t => (nth (nth (c0 + t) perm 0%nat) cols 0 + idx, nth (nth (c0 + t) perm 0%nat) vals 0%Q)%Z) (seq 0 (c1 - c0)) =
      map (fun p => (nth p cols 0 + idx, nth p vals 0%Q)%Z) (filter (fun p => Z.eqb (key p) (Z.of_nat R - idx)) perm)).
    { rewrite <- SG.
      rewrite <- (map_seq_nth (firstn (c1 - c0) (skipn c0 perm)) 0%nat) at 1.
      rewrite map_map. replace (length (firstn (c1 - c0) (skipn c0 perm))) with (c1 - c0)%nat by (rewrite firstn_length, skipn_length; lia).
      apply map_ext_in. intros t T. apply in_seq in T. rewrite nth_firstn by lia. rewrite nth_skipn. reflexivity. }
    rewrite EQ. unfold row_of. rewrite (triplets_seq rows cols vals) by lia.
    rewrite filter_map_comm, map_map. cbn [fst snd]. rewrite L1.
    apply Permutation_map.
    rewrite (filter_ext (fun a => Z.eqb (nth a rows 0 + idx)%Z (Z.of_nat R)) (fun p => Z.eqb (key p) (Z.of_nat R - idx)%Z)).
    + apply perm_filter. symmetry. exact PM.
    + intros p. unfold key. destruct (Z.eqb_spec (nth p rows 0 + idx)%Z (Z.of_nat R)), (Z.eqb_spec (nth p rows 0%Z) (Z.of_nat R - idx)); try lia; reflexivity.
  - lia.
  - intros t Ht. replace (off + 1 + c0 + t)%nat with (off + 1 + (c0 + t))%nat by lia. apply AC. lia.
  - intros t Ht. replace (off + 1 + c0 - 1 + t)%nat with (length pre + (c0 + t))%nat by lia.
    unfold rd. rewrite nth_error_app2 by lia. replace (length pre + (c0 + t) - length pre)%nat with (c0 + t)%nat by lia.
    rewrite (nth_error_nth' _ 0) by (rewrite map_length; lia). f_equal.
    rewrite (nth_indep (map (fun p => nth p vals 0) perm) 0 (nth 0%nat vals 0)) by (rewrite map_length; lia).
    exact (map_nth (fun p => nth p vals 0) perm 0%nat (c0 + t)).
Qed.

Lemma perm_range nnz perm : Permutation (seq 0 nnz) perm -> Forall (fun p => (p < nnz)%nat) perm.
Proof. intros P. apply Forall_forall. intros p H. apply (Permutation_in _ (Permutation_sym P)) in H. apply in_seq in H. lia. Qed.

(** The triplets the routine works with. *)
Lemma eff_triplets (s : bool) : forall iRow iCol vals, length iCol = length iRow -> length vals = length iRow ->
  triplets (map fst (eff s iRow iCol)) (map snd (eff s iRow iCol)) vals =
  (if s then map lower (triplets iRow iCol vals) else triplets iRow iCol vals).
Proof.
  unfold eff, triplets, symmetrise. induction iRow as [|r iRow IH]; intros [|c iCol] [|v vals] L1 L2; cbn in L1, L2; try discriminate.
  - destruct s; reflexivity.
  - specialize (IH iCol vals ltac:(lia) ltac:(lia)). destruct s; cbn [combine map fst snd] in IH |- *.
    + rewrite IH. f_equal. unfold lower. cbn [fst snd]. destruct (Z.ltb_spec c r); cbn [fst snd]; do 2 f_equal; lia.
    + rewrite IH. reflexivity.
Qed.
Definition in_range (m : nat) (cs : bool) (l : list Z) : Prop := in_rows m (if cs then 1 else 0) l.
Lemma eff_range (s : bool) m idx : forall iRow iCol, length iCol = length iRow -> in_rows m idx iRow -> (s = true -> in_rows m idx iCol) ->
  in_rows m idx (map fst (eff s iRow iCol)).
Proof.
  unfold in_rows, eff, symmetrise. induction iRow as [|r iRow IH]; intros [|c iCol] L A B; cbn in L; try discriminate.
  - destruct s; constructor.
  - apply Forall_cons_iff in A. destruct A as (A1 & A).
    assert (B' : s = true -> (1 <= c + idx <= Z.of_nat m)%Z /\ Forall (fun r => (1 <= r + idx <= Z.of_nat m)%Z) iCol).
    { intros Hs. specialize (B Hs). apply Forall_cons_iff in B. exact B. }
    specialize (IH iCol ltac:(lia) A (fun Hs => proj2 (B' Hs))).
    destruct s; cbn [combine map fst] in IH |- *; constructor; try exact IH; try exact A1.
    cbn [fst snd]; destruct (Z.ltb_spec c r); cbn [fst snd]; [lia|]. destruct (B' eq_refl); lia.
Qed.

(** The packed matrix represents the triplets. *)
Lemma tmat_represents sort (s : bool) m iRow iCol vals lws off noff (cs : bool) pre : sort_ok sort ->
  length iCol = length iRow -> length vals = length iRow -> length pre = off ->
  in_range m cs iRow -> (s = true -> in_range m cs iCol) ->
  (off + length iRow + noff + m + 2 <= length lws)%nat ->
  exists perm la, TMat2RowPMat sort s m (length iRow) iRow iCol lws off noff cs = Ok (perm, la) /\
    Permutation (seq 0 (length iRow)) perm /\ length la = length lws /\
    aget 0 la = Ok (Z.of_nat (length iRow + off + 1)) /\
    permute vals perm = Ok (map (fun p => nth p vals 0) perm) /\
    aget (off + 1 + length iRow + noff) la = Ok (Z.of_nat (off + 1)) /\
    aget (off + 1 + length iRow + noff + m) la = Ok (Z.of_nat (off + 1 + length iRow)) /\
    (forall R, (1 <= R <= m)%nat -> exists ents, packed_row la (pre ++ map (fun p => nth p vals 0) perm) (noff + R - 1) = Ok ents /\
       Permutation ents (row_of (if cs then 1 else 0) R (if s then map lower (triplets iRow iCol vals) else triplets iRow iCol vals))) /\
    (forall j, (0 < j <= off \/ off + length iRow < j < off + 1 + length iRow + noff)%nat -> aget j la = aget j lws) /\
    (forall j, (j < off + length iRow + noff + m + 2)%nat -> (0 < j <= off \/ off + length iRow < j < off + 1 + length iRow + noff)%nat \/ exists v, aget j la = Ok v).
Proof.
  intros SO L1 L2 LP R1 R2 SZ. set (nnz := length iRow) in *.
  pose proof (eff_range s m (if cs then 1 else 0)%Z iRow iCol L1 R1 R2) as RG.
  destruct (tmat_ok sort s m iRow iCol nnz lws off noff cs SO eq_refl L1 RG SZ) as (perm & la & E & LL & PM & ND & A0 & AC & AP & K).
  exists perm, la. split; [exact E|]. split; [exact PM|]. split; [exact LL|]. split; [exact A0|].
  pose proof (perm_range _ _ PM) as PR.
  split; [apply permute_ok; rewrite L2; exact PR|].
  assert (LR : length (map fst (eff s iRow iCol)) = nnz) by (rewrite map_length; apply eff_length; [reflexivity|assumption]).
  assert (LC : length (map snd (eff s iRow iCol)) = nnz) by (rewrite map_length; apply eff_length; [reflexivity|assumption]).
  assert (KR : Forall (fun p => (1 - (if cs then 1 else 0) <= nth p (map fst (eff s iRow iCol)) 0 <= Z.of_nat m - (if cs then 1 else 0))%Z) perm).
  { apply Forall_forall. intros p P. pose proof (proj1 (Forall_forall _ _) PR p P) as P'. cbn beta in P'.
    unfold in_rows in RG. rewrite Forall_forall in RG.
    specialize (RG (nth p (map fst (eff s iRow iCol)) 0%Z) (nth_In (map fst (eff s iRow iCol)) 0%Z (n := p) ltac:(lia))). cbn beta in RG. lia. }
  split; [|split; [|split; [|split]]].
  - pose proof (AP 0%nat ltac:(lia)) as H. rewrite Nat.add_0_r in H. rewrite H. rewrite cnt_none; [do 2 f_equal; lia|].
    eapply Forall_impl; [|exact KR]. intros q Q. cbn beta in Q |- *. lia.
  - rewrite (AP m ltac:(lia)). rewrite cnt_all; [rewrite <- (Permutation_length PM), seq_length; reflexivity|].
    eapply Forall_impl; [|exact KR]. intros q Q. cbn beta in Q |- *. lia.
  - intros R HR. destruct (packed_row_ok _ _ vals perm la off noff nnz m _ pre R LR LC L2 LP PM ND A0 AC AP HR) as (ents & E1 & E2).
    exists ents. split; [exact E1|]. rewrite (eff_triplets s iRow iCol vals L1 L2) in E2. exact E2.
  - exact K.
  - intros j Hj. destruct (Nat.eq_dec j 0) as [Z0|Z0]; [right; rewrite Z0, A0; eauto|].
    destruct (Nat.le_gt_cases j off); [left; left; lia|].
    destruct (Nat.le_gt_cases j (off + nnz)).
    { right. exists (nth (nth (j - off - 1) perm 0%nat) (map snd (eff s iRow iCol)) 0 + (if cs then 1 else 0))%Z.
      replace j with (off + 1 + (j - off - 1))%nat at 1 by lia. apply AC. lia. }
    destruct (Nat.lt_ge_cases j (off + 1 + nnz + noff)); [left; right; lia|].
    right. replace j with (off + 1 + nnz + noff + (j - (off + 1 + nnz + noff)))%nat by lia. rewrite AP by lia. eauto.
Qed.

(** ** First derivatives for filterSQP *)
Lemma combine_seq_nth {A} (l : list A) d : forall s, combine (map Z.of_nat (seq s (length l))) l = map (fun t => (Z.of_nat (s + t), nth t l d)) (seq 0 (length l)).
Proof.
  induction l as [|a l IH]; intros s; [reflexivity|]. cbn [length seq map combine nth]. rewrite Nat.add_0_r. f_equal.
  rewrite IH. rewrite <- (seq_shift (length l) 0), map_map. apply map_ext. intros t. cbn [nth]. do 2 f_equal. lia.
Qed.
(** Row 0: the gradient, when its pointer is 1 and the next is off + 1. *)
Lemma packed_row0 la a off nnz l g (cs : list Z) : aget 0 la = Ok (Z.of_nat l) -> aget l la = Ok 1%Z -> aget (S l) la = Ok (Z.of_nat (off + 1)) ->
  length g = off -> length cs = off -> (forall j, (j < off)%nat -> aget (1 + j) la = rd j cs) -> a = g ++ nnz ->
  packed_row la a 0 = Ok (combine cs g).
Proof.
  intros A0 A1 A2 LG LC AC EA. unfold packed_row. rewrite A0. cbn [bind]. rewrite Nat2Z.id, Nat.add_0_r, A1. cbn [bind]. rewrite A2. cbn [bind].
  destruct (Z.leb_spec 1 (Z.of_nat (off + 1))); [|lia]. cbn [Z.leb Z.compare andb]. change (1 <=? 1)%Z with true. cbn [andb].
  replace (Z.to_nat (Z.of_nat (off + 1) - 1)) with off by lia. change (Z.to_nat 1) with 1%nat.
  rewrite (segment_map0 la a (fun t => nth t cs 0%Z) (fun t => nth t g 0) off 1).
  - f_equal. subst off. clear - LC. revert cs LC. induction g as [|v g IH]; intros [|c cs] LC; cbn in LC; try discriminate; [reflexivity|].
    cbn [length seq map combine nth]. f_equal. rewrite <- seq_shift, map_map. cbn [nth]. apply IH. lia.
  - lia.
  - intros t Ht. rewrite AC by lia. apply rd_nth. lia.
  - intros t Ht. subst a. unfold rd. replace (1 - 1 + t)%nat with t by lia. rewrite nth_error_app1 by lia. rewrite (nth_error_nth' g 0) by lia. reflexivity.
Qed.
Lemma filter_data sort n m iRow iCol (cs : bool) grad jac : sort_ok sort -> length iCol = length iRow -> length jac = length iRow -> length grad = n ->
  in_range m cs iRow ->
  exists perm la a, filter_la sort n m iRow iCol cs = Ok (perm, la) /\ filter_a n la perm grad jac = Ok a /\
    packed_row la a 0 = Ok (combine (map Z.of_nat (seq 1 n)) grad) /\
    (forall R, (1 <= R <= m)%nat -> exists ents, packed_row la a R = Ok ents /\ Permutation ents (row_of (if cs then 1 else 0) R (triplets iRow iCol jac))).
Proof.
  intros SO L1 L2 LG RG. unfold filter_la. set (nnz := length iRow) in *.
  destruct (aset_get (nnz + n + 1) 1%Z (fresh (n + nnz + m + 3))) as (a1 & E1 & A1 & G1); [rewrite fresh_length; lia|].
  rewrite E1. cbn [bind]. rewrite fresh_length in A1.
  destruct (ablit_get (map Z.of_nat (seq 1 n)) 1 a1) as (a2 & E2 & A2 & G2); [rewrite map_length, seq_length; lia|].
  rewrite E2. cbn [bind]. rewrite map_length, seq_length in G2.
  destruct (tmat_represents sort false m iRow iCol jac a2 n 1 cs grad SO L1 L2 LG RG ltac:(discriminate) ltac:(lia))
    as (perm & la & E & PM & LL & Z0 & PV & PF & PL & PR & K & _). fold nnz in E, PM, Z0, PF, PL, PR, K.
  exists perm, la, (grad ++ map (fun p => nth p jac 0) perm). split; [exact E|].
  assert (LP : length perm = nnz) by (rewrite <- (Permutation_length PM); apply seq_length).
  split; [|split].
  - unfold filter_a. rewrite Z0. cbn [bind]. replace (Z.to_nat (Z.of_nat (nnz + n + 1) - Z.of_nat n - 1)) with nnz by lia.
    rewrite firstn_all2 by lia. rewrite PV. cbn [bind]. rewrite firstn_all2 by lia. reflexivity.
  - apply (packed_row0 la _ n (map (fun p => nth p jac 0) perm) (nnz + n + 1) grad (map Z.of_nat (seq 1 n))).
    + exact Z0.
    + rewrite K by lia. rewrite G2, G1. destruct (Nat.ltb_spec (nnz + n + 1) (1 + n)); [lia|]. rewrite andb_false_r, Nat.eqb_refl. reflexivity.
    + replace (S (nnz + n + 1)) with (n + 1 + nnz + 1)%nat by lia. exact PF.
    + exact LG.
    + rewrite map_length, seq_length. reflexivity.
    + intros j Hj. rewrite K by lia. rewrite G2. destruct (Nat.leb_spec 1 (1 + j)); [|lia]. destruct (Nat.ltb_spec (1 + j) (1 + n)); [|lia]. cbn [andb].
      replace (1 + j - 1)%nat with j by lia. reflexivity.
    + reflexivity.
  - intros R HR. destruct (PR R HR) as (ents & X1 & X2). exists ents. split; [|exact X2]. replace (1 + R - 1)%nat with R in X1 by lia. exact X1.
Qed.
Lemma pack_grad_filter : forall g s, pack_grad (Z.of_nat s) g = filter (fun e => negb (Qeq_bool (snd e) 0)) (combine (map Z.of_nat (seq (S s) (length g))) g).
Proof.
  induction g as [|v g IH]; intros s; [reflexivity|]. cbn [pack_grad length seq map combine filter snd].
  replace (Z.of_nat s + 1)%Z with (Z.of_nat (S s)) by lia. rewrite IH. destruct (Qeq_bool v 0); reflexivity.
Qed.
Lemma bqpd_data_ok sort n m iRow iCol jac grad : sort_ok sort -> length iCol = length iRow -> length jac = length iRow -> length grad = n ->
  in_range m true iRow ->
  exists la a, bqpd_data sort m iRow iCol jac grad = Ok (la, a) /\
    packed_row la a 0 = Ok (filter (fun e => negb (Qeq_bool (snd e) 0)) (combine (map Z.of_nat (seq 1 n)) grad)) /\
    (forall R, (1 <= R <= m)%nat -> exists ents, packed_row la a R = Ok ents /\ Permutation ents (row_of 1 R (triplets iRow iCol jac))).
Proof.
  intros SO L1 L2 LG RG. unfold bqpd_data. set (nnz := length iRow) in *. set (pg := pack_grad 0 grad). set (ng := length pg).
  destruct (ablit_get (map fst pg) 1 (fresh (1 + (nnz + ng + m + 2)))) as (a1 & E1 & A1 & G1); [rewrite fresh_length, map_length; unfold ng; lia|].
  rewrite E1. cbn [bind]. rewrite fresh_length in A1. rewrite map_length in G1. fold ng in G1.
  destruct (aset_get (nnz + ng + 1) 1%Z a1) as (a2 & E2 & A2 & G2); [lia|]. rewrite E2. cbn [bind].
  destruct (tmat_represents sort false m iRow iCol jac a2 ng 1 true (map snd pg) SO L1 L2 ltac:(apply map_length) RG ltac:(discriminate) ltac:(fold nnz; lia))
    as (perm & la & E & PM & LL & Z0 & PV & PF & PL & PR & K & _). fold nnz in E, PM, Z0, PF, PL, PR, K.
  rewrite E. cbn [bind]. rewrite PV. cbn [bind]. eexists la, _. split; [reflexivity|]. split.
  - rewrite (packed_row0 la _ ng (map (fun p => nth p jac 0) perm) (nnz + ng + 1) (map snd pg) (map fst pg)).
    + f_equal. rewrite <- LG. rewrite <- (pack_grad_filter grad 0). change (Z.of_nat 0) with 0%Z. fold pg.
      clear. induction pg as [|[c v] l IH]; [reflexivity|]. cbn. f_equal. exact IH.
    + exact Z0.
    + rewrite K by lia. rewrite G2, Nat.eqb_refl. reflexivity.
    + replace (S (nnz + ng + 1)) with (ng + 1 + nnz + 1)%nat by lia. exact PF.
    + apply map_length.
    + apply map_length.
    + intros j Hj. rewrite K by lia. rewrite G2, G1. destruct (Nat.eqb_spec (1 + j) (nnz + ng + 1)); [lia|].
      destruct (Nat.leb_spec 1 (1 + j)); [|lia]. destruct (Nat.ltb_spec (1 + j) (1 + ng)); [|lia]. cbn [andb].
      replace (1 + j - 1)%nat with j by lia. reflexivity.
    + reflexivity.
  - intros R HR. destruct (PR R HR) as (ents & X1 & X2). exists ents. split; [|exact X2]. replace (1 + R - 1)%nat with R in X1 by lia. exact X1.
Qed.
Lemma aget_firstn {A} k j (a : arr A) : (j < k)%nat -> aget j (firstn k a) = aget j a.
Proof.
  revert k j; induction a as [|c a IH]; intros [|k] [|j] H; try lia; try reflexivity. exact (IH k j ltac:(lia)).
Qed.
Lemma segment_firstn la a K : forall k p, (p + k <= K)%nat -> segment p k (firstn K la) a = segment p k la a.
Proof.
  induction k as [|k IH]; intros p H; [reflexivity|]. cbn [segment]. rewrite aget_firstn by lia. rewrite IH by lia. reflexivity.
Qed.
Lemma filter_hess_ok sort n m phase iRow iCol (cs : bool) (eval_h : Q -> list Q -> list Q) lam : sort_ok sort ->
  length iCol = length iRow -> (forall s l, length l = m -> length (eval_h s l) = length iRow) -> length lam = (n + m)%nat ->
  in_range n cs iRow -> in_range n cs iCol ->
  exists perm st hs ws, filter_hstruct sort n iRow iCol cs = Ok (perm, st) /\
    filter_hess n m phase (length iRow) st perm eval_h lam = Ok (hs, ws) /\
    forall R, (1 <= R <= n)%nat -> exists ents, packed_row hs ws (R - 1) = Ok ents /\
      Permutation ents (row_of (if cs then 1 else 0) R (map lower (triplets iRow iCol (eval_h (if Nat.eqb phase 1 then 0 else 1) (map Qopp (skipn n lam)))))).
Proof.
  intros SO L1 LE LL R1 R2. unfold filter_hstruct. set (nnz := length iRow) in *.
  set (vals := eval_h (if Nat.eqb phase 1 then 0 else 1) (map Qopp (skipn n lam))).
  assert (LS : length (skipn n lam) = m) by (rewrite skipn_length; lia).
  assert (LV : length vals = nnz) by (apply LE; rewrite map_length; exact LS).
  destruct (tmat_represents sort true n iRow iCol vals (fresh (nnz + n + 3)) 0 0 cs [] SO L1 LV eq_refl R1 (fun _ => R2) ltac:(rewrite fresh_length; fold nnz; lia))
    as (perm & la & E & PM & LA & Z0 & PV & PF & PL & PR & K & _). fold nnz in E, PM, Z0, PF, PL, PR, K.
  exists perm, la, (firstn (nnz + n + 2) la), (map (fun p => nth p vals 0) perm). split; [exact E|]. rewrite fresh_length in LA.
  split.
  - unfold filter_hess. destruct (Nat.ltb_spec (length la) (nnz + n + 2)); [lia|]. destruct (Nat.ltb_spec (length lam) (n + m)); [lia|].
    rewrite (firstn_all2 (skipn n lam)) by lia. fold vals. rewrite PV. reflexivity.
  - intros R HR. destruct (PR R HR) as (ents & X1 & X2). exists ents. split; [|exact X2].
    cbn [app Nat.add] in X1. revert X1. unfold packed_row. rewrite !aget_firstn by lia. rewrite Z0. cbn [bind]. rewrite Nat2Z.id, Nat.add_0_r.
    rewrite !aget_firstn by lia. intros X1.
    destruct (aget (nnz + 1 + (R - 1)) la) as [p| | | | | | |] eqn:P1; cbn [bind] in X1 |- *; try discriminate.
    destruct (aget (S (nnz + 1 + (R - 1))) la) as [q| | | | | | |] eqn:P2; cbn [bind] in X1 |- *; try discriminate.
    destruct (Z.leb_spec 1 p) as [HP|HP]; cbn [andb] in X1 |- *; [|discriminate].
    destruct (Z.leb_spec p q) as [HQ|HQ]; [|discriminate].
    rewrite segment_firstn; [exact X1|].
    (* the pointers never exceed nnz + 1 *)
    enough (q <= Z.of_nat nnz + 1)%Z by lia.
    destruct (tmat_ok sort true n iRow iCol nnz (fresh (nnz + n + 3)) 0 0 cs SO eq_refl L1 (eff_range true n (if cs then 1 else 0)%Z iRow iCol L1 R1 (fun _ => R2)) ltac:(rewrite fresh_length; lia))
      as (perm' & la' & E' & _ & PM' & ND' & _ & _ & AP & _).
    rewrite E in E'. injection E' as <- <-. specialize (AP R ltac:(lia)). cbn [Nat.add] in AP. rewrite Nat.add_0_r in AP.
    replace (S (nnz + 1 + (R - 1))) with (S (nnz + R)) in P2 by lia. rewrite AP in P2. injection P2 as <-.
    match goal with |- context [cnt ?k ?r perm] => pose proof (cnt_le k r perm) as B end.
    rewrite <- (Permutation_length PM), seq_length in B. lia.
Qed.

(** ** Multipliers *)
Lemma bound_mult_nth sgn : forall x b lam, length b = length x -> length lam = length x ->
  length (bound_mult sgn x b lam) = length x /\
  forall i, (i < length x)%nat -> nth i (bound_mult sgn x b lam) 0 = if Qeq_bool (nth i x 0) (nth i b 0) then qmax0 (sgn * nth i lam 0) else 0.
Proof.
  induction x as [|a x IH]; intros [|c b] [|l lam] L1 L2; cbn in L1, L2; try discriminate.
  - split; [reflexivity|]. intros i H. cbn in H. lia.
  - destruct (IH b lam ltac:(lia) ltac:(lia)) as (I1 & I2). cbn [bound_mult length]. split; [lia|].
    intros [|i] H; [reflexivity|]. cbn [nth]. apply I2. lia.
Qed.
Lemma qsum_opp_combine : forall l c, qsum (map (fun p => fst p * snd p) (combine (map Qopp l) c)) == - qsum (map (fun p => fst p * snd p) (combine l c)).
Proof.
  induction l as [|a l IH]; intros [|b c]; cbn [map combine qsum fst snd]; try reflexivity. rewrite IH. ring.
Qed.
Lemma qmax0_pos v : 0 <= v -> qmax0 v == v.
Proof. unfold qmax0, qmax. intros H. qcase; lra. Qed.
Lemma qmax0_neg v : v <= 0 -> qmax0 v == 0.
Proof. unfold qmax0, qmax. intros H. qcase; lra. Qed.
Lemma qmax0_nonneg v : 0 <= qmax0 v.
Proof. unfold qmax0, qmax. qcase; lra. Qed.
Lemma mult_split l u x lam : filter_sign l u x lam ->
  let zl := if Qeq_bool x l then qmax0 (1 * lam) else 0 in
  let zu := if Qeq_bool x u then qmax0 (-(1) * lam) else 0 in
  0 <= zl /\ 0 <= zu /\ (0 < zl -> x == l) /\ (0 < zu -> x == u) /\ zl - zu == lam.
Proof.
  intros (S1 & S2). cbn zeta.
  destruct (Qeq_bool x l) eqn:E1; [apply Qeq_bool_iff in E1|apply Qeq_bool_neq in E1];
  destruct (Qeq_bool x u) eqn:E2; [apply Qeq_bool_iff in E2|apply Qeq_bool_neq in E2|apply Qeq_bool_iff in E2|apply Qeq_bool_neq in E2].
  - pose proof (qmax0_nonneg (1 * lam)). pose proof (qmax0_nonneg (-(1) * lam)). repeat split; auto.
    destruct (Qlt_le_dec lam 0) as [H'|H'].
    + rewrite (qmax0_neg (1 * lam)) by lra. rewrite (qmax0_pos (-(1) * lam)) by lra. ring.
    + rewrite (qmax0_pos (1 * lam)) by lra. rewrite (qmax0_neg (-(1) * lam)) by lra. ring.
  - pose proof (qmax0_nonneg (1 * lam)). repeat split; auto; try lra.
    destruct (Qlt_le_dec lam 0) as [H'|H']; [exfalso; auto|]. rewrite (qmax0_pos (1 * lam)) by lra. ring.
  - pose proof (qmax0_nonneg (-(1) * lam)). repeat split; auto; try lra.
    destruct (Qlt_le_dec 0 lam) as [H'|H']; [exfalso; auto|]. rewrite (qmax0_pos (-(1) * lam)) by lra. ring.
  - repeat split; lra.
Qed.
Lemma filter_report_ok n m xl xu gl gu x lx lg : length xl = n -> length xu = n -> length gl = m -> length gu = m ->
  length x = n -> length lx = n -> length lg = m ->
  filter_report n m x (xl ++ gl ++ xu ++ gu) (lx ++ lg) = Ok (bound_mult 1 x xl lx, bound_mult (-(1)) x xu lx, map Qopp lg).
Proof.
  intros A B C D E F G. unfold filter_report. rewrite !app_length, A, B, C, D, E, F, G.
  destruct (Nat.ltb_spec n n); [lia|]. destruct (Nat.ltb_spec (n + (m + (n + m))) (2 * (n + m))); [lia|].
  destruct (Nat.ltb_spec (n + m) (n + m)); [lia|]. cbn [orb].
  rewrite (firstn_all2 x) by lia.
  rewrite (firstn_app n xl), A, Nat.sub_diag, firstn_O, app_nil_r, (firstn_all2 xl) by lia.
  rewrite (firstn_app n lx), F, Nat.sub_diag, firstn_O, app_nil_r, (firstn_all2 lx) by lia.
  rewrite (skipn_app n lx), F, Nat.sub_diag, skipn_O, (skipn_all2 lx) by lia. cbn [app].
  rewrite (firstn_all2 lg) by lia.
  rewrite app_assoc, (skipn_app (n + m) (xl ++ gl)), app_length, A, C, Nat.sub_diag, skipn_O, (skipn_all2 (xl ++ gl)) by (rewrite app_length; lia). cbn [app].
  rewrite (firstn_app n xu), B, Nat.sub_diag, firstn_O, app_nil_r, (firstn_all2 xu) by lia. reflexivity.
Qed.

(** ** Warm start differences *)
Lemma diff_apply : forall new done rest, length rest = length new ->
  exists d, diff_loop (length done) new (done ++ rest) = Ok d /\
    forall pre, length pre = length done -> apply_lws d (pre ++ rest) = Ok (pre ++ new).
Proof.
  induction new as [|v new IH]; intros done rest L; destruct rest as [|o rest]; cbn in L; try discriminate.
  - exists []. split; [reflexivity|]. intros pre _. reflexivity.
  - cbn [diff_loop]. unfold rd at 1. rewrite nth_error_app2 by lia. rewrite Nat.sub_diag. cbn [nth_error bind].
    destruct (IH (done ++ [o]) rest ltac:(lia)) as (d & D1 & D2). rewrite app_length in D1. cbn [length] in D1.
    rewrite Nat.add_1_r in D1. rewrite <- app_assoc in D1. cbn [app] in D1. rewrite D1. cbn [bind].
    eexists. split; [reflexivity|]. intros pre LP.
    assert (D3 : apply_lws d (pre ++ v :: rest) = Ok (pre ++ v :: new)).
    { specialize (D2 (pre ++ [v])). rewrite !app_length in D2. cbn [length] in D2. specialize (D2 ltac:(lia)). rewrite <- !app_assoc in D2. exact D2. }
    destruct (Z.eqb_spec v o) as [E|E].
    + subst o. exact D3.
    + cbn [apply_lws]. unfold rd. rewrite <- LP, nth_error_app2 by lia. rewrite Nat.sub_diag. cbn [nth_error bind].
      rewrite lset_ok by (rewrite app_length; cbn; lia). cbn [bind].
      rewrite firstn_app, Nat.sub_diag, firstn_O, app_nil_r, firstn_all.
      replace (S (length pre)) with (length (pre ++ [o])) by (rewrite app_length; cbn; lia).
      replace (pre ++ o :: rest) with ((pre ++ [o]) ++ rest) by (rewrite <- app_assoc; reflexivity).
      rewrite skipn_app, Nat.sub_diag, skipn_O, skipn_all. cbn [app].
      replace (o + (v - o))%Z with v by lia. exact D3.
Qed.
Lemma apply_length : forall d l l', apply_lws d l = Ok l' -> length l' = length l.
Proof.
  induction d as [|[i v] d IH]; intros l l' H; cbn [apply_lws] in H; [injection H as <-; reflexivity|].
  apply bind_ok in H. destruct H as (o & O & H). apply bind_ok in H. destruct H as (l1 & S1 & H).
  rewrite (IH _ _ H). unfold lset in S1. destruct (Nat.ltb_spec i (length l)); [|discriminate]. injection S1 as <-.
  apply upd_length. assumption.
Qed.
Lemma diff_short : forall new i old, (length old < i + length new)%nat -> (i <= length old)%nat -> diff_loop i new old = OutOfBounds.
Proof.
  induction new as [|v new IH]; intros i old L1 L2; cbn in L1; [lia|]. cbn [diff_loop]. unfold rd.
  destruct (nth_error old i) as [o|] eqn:E; [|reflexivity]. cbn [bind].
  assert (i < length old)%nat by (apply nth_error_Some; congruence). rewrite IH by lia. reflexivity.
Qed.
Lemma diff_roundtrip new old : (do d <- generateDiff new old; applyDiff d old) = Ok (mkFws (w_x new) (w_lam new) (w_lws new) (w_istat new) (w_empty old)) <->
  length (w_lws new) = length (w_lws old).
Proof.
  unfold generateDiff. split.
  - intros H. destruct (Nat.lt_ge_cases (length (w_lws old)) (length (w_lws new))) as [S1|S1].
    + rewrite diff_short in H by lia. discriminate.
    + apply bind_ok in H. destruct H as (d & D & H). apply bind_ok in D. destruct D as (l & D & D'). injection D' as <-.
      unfold applyDiff in H. cbn [d_lws d_x d_lam d_istat] in H. apply bind_ok in H. destruct H as (l' & A & H). injection H as H1.
      rewrite <- H1. exact (apply_length _ _ _ A).
  - intros L. destruct (diff_apply (w_lws new) [] (w_lws old) ltac:(lia)) as (d & D & A). cbn [length app] in D. rewrite D. cbn [bind].
    unfold applyDiff. cbn [d_lws d_x d_lam d_istat]. specialize (A [] eq_refl). cbn [app] in A. rewrite A. reflexivity.
Qed.

(** ** Starting points *)
Lemma read_all_some {A} (l : list A) : read_all (map Some l) = Ok l.
Proof. induction l as [|a l IH]; [reflexivity|]. cbn [map read_all bind]. rewrite IH. reflexivity. Qed.
Definition cache_ok (n : nat) (s : fsolver) : Prop :=
  (forall w, s_warm s = Some w -> length (w_x w) = n) /\ (forall c, s_cache s = Some c -> c_use c = false /\ length (c_x c) = n).
Lemma load_ok n w c : (forall w', w = Some w' -> length (w_x w') = n) -> c_use c = false -> length (c_x c) = n ->
  exists c', load_ws w c = Ok c' /\ forall x0 sol, length sol = n ->
    optimize x0 sol c' = Ok (match w with Some w => w_x w | None => x0 end, match w with Some _ => (-1)%Z | None => 0%Z end, mkCache (map Some sol) false).
Proof.
  intros W U L. destruct w as [w|].
  - specialize (W w eq_refl). cbn [load_ws].
    replace (c_x c) with (c_x c ++ []) by apply app_nil_r. rewrite ablit0_app by lia. cbn [bind]. rewrite app_nil_r.
    eexists. split; [reflexivity|]. intros x0 sol LS. unfold optimize. cbn [c_use c_x]. rewrite read_all_some. reflexivity.
  - exists c. split; [reflexivity|]. intros x0 sol LS. unfold optimize. rewrite U. rewrite read_all_some. reflexivity.
Qed.
Definition full_ws (n : nat) (op : fop) : Prop := match op with SetWarm (Some w) => length (w_x w) = n | _ => True end.
Lemma fs_run_ok n : (0 < n)%nat -> forall ops s, cache_ok n s -> ops_ok n (match s_cache s with Some _ => true | None => false end) ops -> Forall (full_ws n) ops ->
  fs_run n ops s = Ok (expected (option_map w_x (s_warm s)) ops).
Proof.
  intros NP. induction ops as [|op ops IH]; intros s (CW & CC) OK FU; [reflexivity|].
  apply Forall_cons_iff in FU. destruct FU as (F1 & FU). destruct op as [w| |x0 sol|x0 sol]; cbn [fs_run expected].
  - destruct OK as (O1 & OK). unfold full_ws in F1.
    assert (CK : exists c, s_cache (setWarmStart n w s) = Some c /\ c_use c = false /\ length (c_x c) = n).
    { unfold setWarmStart. destruct w as [w|]; [destruct (s_cache s) as [c|] eqn:EC; destruct (w_empty w)|]; cbn [s_cache];
        try (exists (new_cache n); repeat split; cbn; apply fresh_length); exists c; destruct (CC c eq_refl); auto. }
    destruct CK as (c & C1 & C2 & C3). destruct w as [w|].
    + destruct O1 as (O1 & _). unfold is_empty_ws. destruct (w_x w) as [|v l] eqn:EX; [cbn in F1; lia|]. rewrite <- EX.
      rewrite (IH (setWarmStart n (Some w) s)).
      * unfold setWarmStart. rewrite O1. reflexivity.
      * split; [|intros c'; rewrite C1; intros H; injection H as <-; auto].
        unfold setWarmStart. rewrite O1. cbn [s_warm]. intros w' H. injection H as <-. rewrite EX. exact F1.
      * rewrite C1. exact OK.
      * exact FU.
    + rewrite (IH (setWarmStart n None s)); [reflexivity| | |exact FU].
      * split; [exact CW|intros c'; rewrite C1; intros H; injection H as <-; auto].
      * rewrite C1. exact OK.
  - rewrite (IH (disableWarmStart s)); [reflexivity| | |exact FU].
    + split; [intros w H; discriminate|exact CC].
    + exact OK.
  - destruct OK as (X1 & X2 & OK). unfold OptimizeTNLP.
    set (c := match s_cache s with Some c => if c_use c then c else new_cache n | None => new_cache n end).
    assert (CN : c = new_cache n). { unfold c. destruct (s_cache s) as [c'|] eqn:EC; [|reflexivity]. destruct (CC c' eq_refl) as (U & _). rewrite U. reflexivity. }
    rewrite CN. destruct (load_ok n (s_warm s) (new_cache n) CW eq_refl (fresh_length n)) as (c' & L1 & L2).
    rewrite L1. cbn [bind]. rewrite (L2 x0 sol X2). cbn [bind].
    rewrite (IH (mkFs (s_warm s) (Some (mkCache (map Some sol) false)))); [| |exact OK|exact FU].
    + cbn [bind s_warm]. destruct (s_warm s); reflexivity.
    + split; [exact CW|]. cbn [s_cache]. intros c0 H. injection H as <-. split; [reflexivity|]. cbn [c_x]. rewrite map_length. exact X2.
  - destruct OK as (CA & X1 & X2 & OK). unfold ReOptimizeTNLP. destruct (s_cache s) as [c|] eqn:EC; [|discriminate].
    destruct (CC c eq_refl) as (U & LC). destruct (load_ok n (s_warm s) c CW U LC) as (c' & L1 & L2).
    rewrite L1. cbn [bind]. rewrite (L2 x0 sol X2). cbn [bind].
    rewrite (IH (mkFs (s_warm s) (Some (mkCache (map Some sol) false)))); [| |exact OK|exact FU].
    + cbn [bind s_warm]. destruct (s_warm s); reflexivity.
    + split; [exact CW|]. cbn [s_cache]. intros c0 H. injection H as <-. split; [reflexivity|]. cbn [c_x]. rewrite map_length. exact X2.
Qed.

(** ** A sort meeting the contract of std::sort *)
Fixpoint insert (lt : nat -> nat -> bool) (a : nat) (l : list nat) : list nat :=
  match l with
  | [] => [a]
  | b :: l' => if lt a b then a :: l else b :: insert lt a l'
  end.
Fixpoint isort (lt : nat -> nat -> bool) (l : list nat) : list nat :=
  match l with [] => [] | a :: l' => insert lt a (isort lt l') end.
Lemma insert_perm lt a l : Permutation (a :: l) (insert lt a l).
Proof.
  induction l as [|b l IH]; [reflexivity|]. cbn [insert]. destruct (lt a b); [reflexivity|].
  rewrite perm_swap. constructor. exact IH.
Qed.
Lemma insert_ordered lt a l : strict_weak lt -> ordered lt l -> ordered lt (insert lt a l).
Proof.
  intros SW. induction 1 as [|b l F O IH]; cbn [insert]; [repeat constructor|].
  destruct (lt a b) eqn:E.
  - assert (AB : lt b a = false).
    { destruct (lt b a) eqn:E2; [|reflexivity]. pose proof (sw_trans lt SW _ _ _ E E2). rewrite (sw_irr lt SW) in H. discriminate. }
    constructor; [|constructor; assumption]. constructor; [exact AB|].
    eapply Forall_impl; [|exact F]. intros c C. exact (sw_incomp lt SW _ _ _ C AB).
  - constructor; [|exact IH]. apply Forall_forall. intros c C.
    apply (Permutation_in _ (Permutation_sym (insert_perm lt a l))) in C. destruct C as [<-|C]; [exact E|].
    exact (proj1 (Forall_forall _ _) F c C).
Qed.
Lemma isort_ok : sort_ok isort.
Proof.
  intros lt l SW. induction l as [|a l (P & O)]; [split; [reflexivity|constructor]|]. cbn [isort]. split.
  - rewrite <- insert_perm. constructor. exact P.
  - apply insert_ordered; assumption.
Qed.
