(** Proofs about histories of the NLP with quadratic cuts. *)
From Verif Require Import Base Quad_Model Quad_Spec Quad_Proofs Quad_HProofs.
#[local] Open Scope Q_scope.

(** ** Structure call *)
Definition is_base (p : hkey * hnode) : bool := (n_cnt (snd p) =? -1)%Z.
Definition idx_of (p : hkey * hnode) : nat := n_idx (snd p).

Lemma h_struct_ok nb H : forall sup,
  (forall k n, In (k, n) H -> (n_cnt n = (-1)%Z /\ (n_idx n < nb)%nat) \/
                              ((0 < n_cnt n)%Z /\ (nb <= n_idx n)%nat)) ->
  exists H', h_struct nb sup H = Ok (map (fun p => (idx_of p, fst p)) H', H') /\
    Forall2 (fun p p' => fst p = fst p' /\ n_id (snd p) = n_id (snd p') /\
       n_cnt (snd p) = n_cnt (snd p') /\ (is_base p = true -> snd p = snd p')) H H' /\
    map idx_of (filter (fun p => negb (is_base p)) H') =
    seq sup (length (filter (fun p => negb (is_base p)) H)).
Proof.
  induction H as [|[k n] H IH]; intros sup A; cbn [h_struct].
  - exists []. repeat split; constructor.
  - assert (A' : forall k0 n0, In (k0, n0) H ->
       (n_cnt n0 = (-1)%Z /\ (n_idx n0 < nb)%nat) \/ ((0 < n_cnt n0)%Z /\ (nb <= n_idx n0)%nat))
      by (intros; apply (A k0); now right).
    destruct (A k n (or_introl eq_refl)) as [(C & L)|(C & L)].
    + rewrite C. cbn [Z.eqb Pos.eqb]. assert (LL := L). apply Nat.ltb_lt in LL. rewrite LL.
      destruct (IH sup A') as (H' & R & F & S). rewrite R. simpl.
      exists ((k, n) :: H'). split; [reflexivity|]. split.
      * constructor; [simpl; auto|exact F].
      * assert (B : is_base (k, n) = true) by (unfold is_base; simpl; rewrite C; reflexivity).
        cbn [filter]. rewrite B. cbn [negb]. exact S.
    + destruct (Z.eqb_spec (n_cnt n) (-1)) as [B|B]; [lia|].
      assert (C' := C). apply Z.ltb_lt in C'. rewrite C'.
      assert (LL := L). apply Nat.leb_le in LL. rewrite LL. cbn [andb].
      destruct (IH (S sup) A') as (H' & R & F & S). rewrite R. simpl bind.
      exists ((k, mkN sup (n_cnt n) (n_id n)) :: H'). split; [reflexivity|]. split.
      * constructor; [|exact F]. simpl. split; [reflexivity|]. split; [reflexivity|].
        split; [reflexivity|]. unfold is_base; simpl. intros E. apply Z.eqb_eq in E. congruence.
      * assert (B1 : is_base (k, n) = false) by (unfold is_base; simpl; apply Z.eqb_neq; exact B).
        assert (B2 : is_base (k, mkN sup (n_cnt n) (n_id n)) = false)
          by (unfold is_base; simpl; apply Z.eqb_neq; exact B).
        cbn [filter]. rewrite B1, B2. cbn [negb map length seq].
        f_equal. exact S.
Qed.

Lemma filter_partition {A} (p : A -> bool) l :
  Permutation l (filter p l ++ filter (fun a => negb (p a)) l).
Proof.
  induction l as [|a l IH]; simpl; [reflexivity|]. destruct (p a); simpl.
  - constructor. exact IH.
  - rewrite IH at 1. apply Permutation_middle.
Qed.

Lemma nodup_app_l {A} (l1 l2 : list A) : NoDup (l1 ++ l2) -> NoDup l1.
Proof.
  induction l1 as [|a l1 IH]; simpl; intros H; [constructor|]. inversion H; subst.
  constructor; [|auto]. intros C; apply H2, in_or_app; now left.
Qed.

(** The map after the structure call: positions are distinct and dense. *)
Definition dense (H : hmap) : Prop :=
  NoDup (map idx_of H) /\ (forall k n, In (k, n) H -> (n_idx n < length H)%nat).

Lemma forall2_fst (H H' : hmap) (R : hkey * hnode -> hkey * hnode -> Prop) :
  (forall p p', R p p' -> fst p = fst p') -> Forall2 R H H' -> hkeys H = hkeys H'.
Proof. intros X; induction 1; simpl; [reflexivity|]. f_equal; auto. Qed.

Lemma forall2_hfind (H H' : hmap) (R : hkey * hnode -> hkey * hnode -> Prop) k :
  (forall p p', R p p' -> fst p = fst p') -> Forall2 R H H' ->
  match hfind k H with
  | None => hfind k H' = None
  | Some n => exists n', hfind k H' = Some n' /\ R (k, n) (k, n')
  end.
Proof.
  intros X; induction 1 as [|[k1 n1] [k2 n2] H H' HR _ IH]; simpl; [reflexivity|].
  assert (E := X _ _ HR). simpl in E. subst k2.
  destruct (key_eqb_spec k k1) as [->|N]; [eauto|exact IH].
Qed.

Lemma struct_full hb off ents H :
  NoDup hb -> Hinv hb off ents H ->
  exists H', h_struct (length hb) (length hb) H = Ok (map (fun p => (idx_of p, fst p)) H', H') /\
    Hinv hb off ents H' /\ extends (fun _ => True) H H' /\ dense H' /\ hkeys H' = hkeys H.
Proof.
  intros NB (ND & A).
  assert (PRE : forall k n, In (k, n) H ->
     (n_cnt n = (-1)%Z /\ (n_idx n < length hb)%nat) \/
     ((0 < n_cnt n)%Z /\ (length hb <= n_idx n)%nat)).
  { intros k n HI. apply (in_hfind _ _ _ ND) in HI. specialize (A k). rewrite HI in A.
    destruct A as [(A1 & A2 & A3)|(A1 & A2 & A3 & A4)].
    - left. split; [exact A2|]. apply nth_error_Some. congruence.
    - right. lia. }
  destruct (h_struct_ok (length hb) H (length hb) PRE) as (H' & R & F & S).
  exists H'. split; [exact R|].
  assert (KE : hkeys H = hkeys H') by (eapply forall2_fst; [|exact F]; simpl; tauto).
  assert (ND' : NoDup (hkeys H')) by (rewrite <- KE; exact ND).
  assert (HF := fun k => forall2_hfind H H' _ k (fun p p' (X : _ /\ _) => proj1 X) F).
  assert (LEN : length H' = length H).
  { apply (f_equal (@length hkey)) in KE. unfold hkeys in KE. rewrite !map_length in KE. auto. }
  assert (NBC : length (filter (fun p => negb (is_base p)) H') =
                length (filter (fun p => negb (is_base p)) H)).
  { rewrite <- (map_length idx_of), S, seq_length. reflexivity. }
  assert (BC : (length hb <= length (filter is_base H'))%nat).
  { replace (length (filter is_base H')) with (length (map fst (filter is_base H')))
      by apply map_length.
    apply NoDup_incl_length; [exact NB|]. intros k Hk. specialize (A k). specialize (HF k).
    destruct (hfind k H) as [n|] eqn:E; [|tauto].
    destruct A as [(A1 & A2 & A3)|(A1 & _)]; [|contradiction].
    destruct HF as (n' & E' & _ & _ & C & _). simpl in C. apply in_map_iff.
    exists (k, n'). split; [reflexivity|]. apply filter_In. split; [apply hfind_in, E'|].
    unfold is_base; simpl. apply Z.eqb_eq. congruence. }
  assert (TOT : (length (filter is_base H') +
                 length (filter (fun p => negb (is_base p)) H'))%nat = length H').
  { rewrite <- app_length. symmetry. apply Permutation_length, filter_partition. }
  assert (NBI : forall p, In p H' -> is_base p = false ->
            (length hb <= idx_of p < length H')%nat).
  { intros p HI B.
    assert (Q : In (idx_of p) (map idx_of (filter (fun p => negb (is_base p)) H'))).
    { apply in_map, filter_In. rewrite B. auto. }
    rewrite S in Q. apply in_seq in Q. lia. }
  assert (BI : forall k n, In (k, n) H' -> is_base (k, n) = true -> nth_error hb (n_idx n) = Some k).
  { intros k n HI B. apply (in_hfind _ _ _ ND') in HI. specialize (A k). specialize (HF k).
    destruct (hfind k H) as [n0|] eqn:E; [|congruence].
    destruct HF as (n' & E' & _ & _ & C & EQ). assert (n' = n) by congruence. subst n'.
    simpl in C, EQ. unfold is_base in B; simpl in B. apply Z.eqb_eq in B.
    destruct A as [(A1 & A2 & A3)|(A1 & A2 & A3 & A4)]; [|lia].
    rewrite <- EQ; [exact A3|]. unfold is_base; simpl. apply Z.eqb_eq. exact A2. }
  split; [|split; [|split]].
  - split; [exact ND'|]. intros k. specialize (A k). specialize (HF k).
    destruct (hfind k H) as [n|] eqn:E.
    + destruct HF as (n' & E' & _ & _ & C & EQ). rewrite E'. simpl in C, EQ.
      destruct A as [(A1 & A2 & A3)|(A1 & A2 & A3 & A4)].
      * left. rewrite <- EQ; [auto|]. unfold is_base; simpl; apply Z.eqb_eq; exact A2.
      * right. split; [exact A1|]. split; [congruence|]. split; [exact A3|].
        assert (L := NBI (k, n') (hfind_in _ _ _ E')). unfold idx_of in L; simpl in L.
        apply L. unfold is_base; simpl. apply Z.eqb_neq. lia.
    + rewrite HF. exact A.
  - intros k n K _. specialize (HF k). rewrite K in HF.
    destruct HF as (n' & E' & _ & I & _). simpl in I. exists n'. split; [exact E'|congruence].
  - split.
    + eapply Permutation_NoDup; [symmetry; apply Permutation_map, (filter_partition is_base)|].
      rewrite map_app.
      assert (D1 : NoDup (map idx_of (filter is_base H'))).
      { clear - BI ND'. assert (G : forall l, NoDup (hkeys l) ->
          (forall k n, In (k, n) l -> nth_error hb (n_idx n) = Some k) -> NoDup (map idx_of l)).
        { induction l as [|[k n] l IH]; intros N X; simpl; [constructor|].
          inversion N; subst. constructor.
          - intros C. apply in_map_iff in C. destruct C as ([k' n'] & C1 & C2).
            unfold idx_of in C1; simpl in C1.
            assert (X1 := X k n (or_introl eq_refl)). assert (X2 := X k' n' (or_intror C2)).
            rewrite C1 in X2. assert (k = k') by congruence. subst k'.
            apply H1. apply in_map_iff. exists (k, n'); auto.
          - apply IH; [assumption|]. intros; apply X; now right. }
        apply G.
        - assert (P := Permutation_map fst (filter_partition is_base H')).
          rewrite map_app in P. unfold hkeys in *.
          apply (Permutation_NoDup P) in ND'. apply nodup_app_l in ND'. exact ND'.
        - intros k n HI. apply filter_In in HI. apply BI; tauto. }
      assert (D2 : NoDup (map idx_of (filter (fun a => negb (is_base a)) H')))
        by (rewrite S; apply seq_NoDup).
      assert (D3 : forall a, In a (map idx_of (filter is_base H')) ->
                 ~ In a (map idx_of (filter (fun a => negb (is_base a)) H'))).
      { intros a HA HB. apply in_map_iff in HA. destruct HA as ([k n] & EA & HA).
        apply filter_In in HA. destruct HA as (HA & BA).
        assert (X := BI k n HA BA). assert (n_idx n < length hb)%nat by (apply nth_error_Some; congruence).
        unfold idx_of in EA; simpl in EA. rewrite S in HB. apply in_seq in HB. lia. }
      clear - D1 D2 D3. induction (map idx_of (filter is_base H')) as [|a l IH]; simpl; [exact D2|].
      inversion D1; subst. constructor.
      * intros C. apply in_app_or in C. destruct C as [C|C]; [contradiction|].
        apply (D3 a); [now left|exact C].
      * apply IH; [assumption|]. intros b Hb. apply D3. now right.
    + intros k n HI. destruct (is_base (k, n)) eqn:B.
      * assert (X := BI k n HI B). assert (n_idx n < length hb)%nat by (apply nth_error_Some; congruence).
        lia.
      * apply (NBI (k, n) HI) in B. unfold idx_of in B; simpl in B. lia.
  - auto.
Qed.

(** ** Values *)
Definition getv (H : hmap) (vals : list Q) (rc : hkey) : Q :=
  match hfind rc H with Some n => nth (n_idx n) vals 0 | None => 0 end.

Lemma entry_of_getv H vals rc : NoDup (hkeys H) ->
  entry_of (map (fun p => (idx_of p, fst p)) H) vals rc == getv H vals rc.
Proof.
  unfold entry_of, getv. rewrite map_map. simpl. intros ND.
  induction H as [|[k n] H IH]; simpl; [reflexivity|]. inversion ND; subst.
  change (key_is rc k) with (key_eqb rc k).
  destruct (key_eqb_spec rc k) as [e|N].
  - subst rc. rewrite qsum_zero; [unfold idx_of; simpl; ring|].
    intros [k' n'] HI. simpl. change (key_is k k') with (key_eqb k k').
    destruct (key_eqb_spec k k') as [->|N]; [|reflexivity].
    exfalso; apply H2. apply in_map_iff. exists (k', n'); auto.
  - rewrite IH by assumption. ring.
Qed.

Lemma nth_set_nth {A} (d : A) k v l i : (k < length l)%nat ->
  nth i (set_nth k v l) d = if Nat.eqb i k then v else nth i l d.
Proof.
  revert k i; induction l as [|a l IH]; intros k i L; simpl in *; [lia|].
  destruct k as [|k]; destruct i as [|i]; simpl; auto. apply IH. lia.
Qed.

Lemma dense_inj H k1 k2 n1 n2 : NoDup (hkeys H) -> dense H ->
  hfind k1 H = Some n1 -> hfind k2 H = Some n2 -> n_idx n1 = n_idx n2 -> k1 = k2.
Proof.
  intros ND (DI & _) F1 F2 E. apply hfind_in in F1, F2. clear ND.
  induction H as [|[k n] H IH]; [contradiction|]. simpl in DI. inversion DI; subst.
  destruct F1 as [F1|F1], F2 as [F2|F2].
  - congruence.
  - exfalso. apply H2. apply in_map_iff. exists (k2, n2). split; [|exact F2].
    injection F1 as <- <-. unfold idx_of; simpl. congruence.
  - exfalso. apply H2. apply in_map_iff. exists (k1, n1). split; [|exact F1].
    injection F2 as <- <-. unfold idx_of; simpl. congruence.
  - apply IH; assumption.
Qed.

Definition dcontrib (off : nat) (rc : hkey) (t : trip) : Q :=
  if key_eqb rc (ekey off t) then 2 * t_v t else 0.

Lemma eval_hess_row_ok off lam H E : NoDup (hkeys H) -> dense H -> forall its vals,
  Forall2 (fun t it => vit H it (ekey off t)) E its -> length vals = length H ->
  exists vals', eval_hess_row lam E its H vals = Ok vals' /\ length vals' = length H /\
    forall rc, getv H vals' rc == getv H vals rc + lam * qsum (map (dcontrib off rc) E).
Proof.
  intros ND D. induction E as [|t E IH]; intros its vals V L; inversion V; subst; cbn [eval_hess_row].
  - exists vals. split; [reflexivity|]. split; [exact L|]. intros rc; simpl; ring.
  - destruct y as [k id]. destruct H2 as (Fi & n & F & Id). simpl in Fi, Id. subst k.
    unfold hderef; cbn [fst snd]. rewrite F, Id, Nat.eqb_refl. cbn [bind].
    assert (LT : (n_idx n < length vals)%nat).
    { rewrite L. destruct D as (_ & D). eapply D, hfind_in, F. }
    unfold add_at. destruct (nth_error vals (n_idx n)) as [o|] eqn:NO.
    2:{ apply nth_error_None in NO. lia. }
    cbn [bind].
    destruct (IH l' (set_nth (n_idx n) (o + lam * 2 * t_v t) vals) H4) as (vals' & R & L' & G).
    { rewrite set_nth_length; exact L. }
    exists vals'. split; [exact R|]. split; [exact L'|]. intros rc. rewrite G.
    simpl. unfold getv at 1. unfold dcontrib at 2.
    assert (NV : nth (n_idx n) vals 0 = o) by (apply nth_error_nth; exact NO).
    destruct (key_eqb_spec rc (ekey off t)) as [e|N].
    + subst rc. unfold getv. rewrite F, nth_set_nth, Nat.eqb_refl, NV by exact LT. ring.
    + unfold getv. destruct (hfind rc H) as [n2|] eqn:F2; [|ring].
      rewrite nth_set_nth by exact LT. destruct (Nat.eqb_spec (n_idx n2) (n_idx n)) as [e|Ne].
      * exfalso. apply N. eapply dense_inj; eassumption.
      * ring.
Qed.

(** ** State invariant *)
Definition a_lin (c : acut) := match c with AQuad k => k_a k | ALin k => l_a k end.
Definition a_stored (c : acut) := match c with AQuad k => stored k | ALin _ => [] end.
Definition row_rep (r : row) (c : acut) : Prop :=
  row_inv 0 (a_lin c) (a_stored c) r /\ forallb upper_ok (a_stored c) = true.
Definition its_ok (off : nat) (H : hmap) (r : row) : Prop :=
  Forall2 (fun t it => vit H it (ekey off t)) (tm_e (r_q r)) (r_h r).
Definition ents (cs : list acut) : list trip := concat (map a_stored cs).
Definition nnz_rows (rows : list row) : nat := list_sum (map nnz_grad rows).

Definition Sinv (m : nat) (hb : list hkey) (jb off : nat) (cs : list acut) (s : qnlp) : Prop :=
  s_m s = m /\ s_hb s = hb /\ s_jb s = jb /\ s_off s = off /\
  Forall2 row_rep (s_rows s) cs /\ s_gl s = map a_lb cs /\ s_gu s = map a_ub cs /\
  NoDup hb /\ Hinv hb off (ents cs) (s_H s) /\ Forall (its_ok off (s_H s)) (s_rows s) /\
  s_nnzjac s = (jb + nnz_rows (s_rows s))%nat.

Lemma row_rep_e r c : row_rep r c -> tm_e (r_q r) = a_stored c.
Proof. intros ((_ & _ & E & _) & _); exact E. Qed.

Lemma its_ok_extends P off H H' r :
  extends P H H' -> Forall (fun t => P (ekey off t)) (tm_e (r_q r)) -> its_ok off H r -> its_ok off H' r.
Proof.
  unfold its_ok. intros X FA F2. induction F2; constructor.
  - inversion FA; subst. eapply vit_extends; eauto.
  - apply IHF2. inversion FA; assumption.
Qed.

(** Sorted lists with the same members are equal. *)
Lemma sorted_lt_unique l1 l2 : sorted lt l1 -> sorted lt l2 ->
  (forall k, In k l1 <-> In k l2) -> l1 = l2.
Proof.
  revert l2; induction l1 as [|a l1 IH]; intros l2 S1 S2 HE.
  - destruct l2 as [|b l2]; [reflexivity|]. exfalso. apply (HE b). now left.
  - destruct l2 as [|b l2]; [exfalso; apply (HE a); now left|].
    inversion S1 as [|? ? F1 S1']; subst. inversion S2 as [|? ? F2 S2']; subst.
    rewrite Forall_forall in F1, F2.
    assert (a = b).
    { destruct (proj1 (HE a) (or_introl eq_refl)) as [e|HI]; [auto|].
      destruct (proj2 (HE b) (or_introl eq_refl)) as [e|HJ]; [auto|].
      apply F2 in HI. apply F1 in HJ. lia. }
    subst b. f_equal. apply IH; [assumption|assumption|].
    intros k. split; intros HI.
    + destruct (proj1 (HE k) (or_intror HI)) as [e|HJ]; [|exact HJ].
      subst. apply F1 in HI. lia.
    + destruct (proj2 (HE k) (or_intror HI)) as [e|HJ]; [|exact HJ].
      subst. apply F2 in HI. lia.
Qed.
Lemma row_inv_keys c a E r1 r2 : row_inv c a E r1 -> row_inv c a E r2 ->
  gkeys (r_g r1) = gkeys (r_g r2).
Proof.
  intros (_ & _ & _ & _ & _ & S1 & _ & P1) (_ & _ & _ & _ & _ & S2 & _ & P2).
  apply sorted_lt_unique; [assumption|assumption|]. intros k. rewrite P1, P2. reflexivity.
Qed.
Lemma row_inv_nnz c a E r1 r2 : row_inv c a E r1 -> row_inv c a E r2 -> nnz_grad r1 = nnz_grad r2.
Proof.
  intros I1 I2. assert (K := row_inv_keys _ _ _ _ _ I1 I2). unfold nnz_grad, gkeys in *.
  apply (f_equal (@length nat)) in K. rewrite !map_length in K. exact K.
Qed.

(** ** Removal *)
Lemma set_nth_firstn {A} i (v : A) l : (i < length l)%nat ->
  firstn (S i) (set_nth i v l) = firstn i l ++ [v].
Proof.
  revert i; induction l as [|a l IH]; intros [|i] L; simpl in *; try lia; [reflexivity|].
  f_equal. specialize (IH i). simpl in IH. apply IH. lia.
Qed.
Lemma set_nth_skipn {A} i q (v : A) l : (i < q)%nat -> skipn q (set_nth i v l) = skipn q l.
Proof.
  revert i q; induction l as [|a l IH]; intros [|i] [|q] L; simpl in *; try lia; auto.
  apply IH. lia.
Qed.
Lemma skipn_nth {A} q (l : list A) v : nth_error l q = Some v -> skipn q l = v :: skipn (S q) l.
Proof.
  revert q; induction l as [|a l IH]; intros [|q] E; simpl in *; try discriminate.
  - injection E as ->. reflexivity.
  - apply IH; exact E.
Qed.
Lemma move_down_ok {A} (p : nat -> bool) : forall d q i (l : list A),
  (d = length l - q)%nat -> (i <= q <= length l)%nat ->
  move_down i (filter (fun x => negb (p x)) (seq q d)) l =
  Ok (firstn i l ++ drop_at p q (skipn q l)).
Proof.
  induction d as [|d IH]; intros q i l E L; cbn [seq filter move_down].
  - rewrite (skipn_all2 l) by lia. simpl. rewrite app_nil_r. reflexivity.
  - assert (LT : (q < length l)%nat) by lia.
    destruct (nth_error l q) as [v|] eqn:N; [|apply nth_error_None in N; lia].
    rewrite (skipn_nth _ _ _ N). cbn [drop_at].
    destruct (p q) eqn:P; cbn [negb].
    + apply IH; lia.
    + cbn [move_down]. rewrite N. rewrite IH.
      * rewrite set_nth_firstn by lia. rewrite set_nth_skipn by lia.
        rewrite <- app_assoc. reflexivity.
      * rewrite set_nth_length. lia.
      * rewrite set_nth_length. lia.
Qed.
Lemma move_down_all {A} (p : nat -> bool) (l : list A) n : n = length l ->
  move_down 0 (filter (fun x => negb (p x)) (seq 0 n)) l = Ok (drop_at p 0 l).
Proof. intros ->. rewrite (move_down_ok p); [reflexivity|lia|lia]. Qed.

Lemma drop_at_map {A B} (f : A -> B) p l : forall i, drop_at p i (map f l) = map f (drop_at p i l).
Proof.
  induction l as [|a l IH]; intros i; simpl; [reflexivity|].
  destruct (p i); simpl; rewrite IH; reflexivity.
Qed.
Lemma drop_at_ext {A} p p' (l : list A) : forall i,
  (forall j, (i <= j < i + length l)%nat -> p j = p' j) -> drop_at p i l = drop_at p' i l.
Proof.
  induction l as [|a l IH]; intros i H; simpl; [reflexivity|].
  rewrite (H i) by (simpl; lia). rewrite (IH (S i)); [reflexivity|]. intros; apply H; simpl; lia.
Qed.
Lemma all_some_map {A} (l : list A) : all_some (map Some l) = Ok l.
Proof. induction l; simpl; [reflexivity|]. rewrite IHl. reflexivity. Qed.

(** The detached vector: rows whose position is in [done] are null. *)
Fixpoint nulled (done : nat -> bool) (i : nat) (rows : list row) : list (option row) :=
  match rows with
  | [] => []
  | r :: rows' => (if done i then None else Some r) :: nulled done (S i) rows'
  end.
Lemma nulled_none rows : forall i, nulled (fun _ => false) i rows = map Some rows.
Proof. induction rows; intros i; simpl; [reflexivity|]. rewrite IHrows; reflexivity. Qed.
Lemma nulled_length done rows : forall i, length (nulled done i rows) = length rows.
Proof. induction rows; intros i; simpl; auto. Qed.
Lemma nulled_nth done rows : forall i q,
  nth_error (nulled done i rows) q =
  match nth_error rows q with None => None | Some r => Some (if done (i + q)%nat then None else Some r) end.
Proof.
  induction rows as [|r rows IH]; intros i [|q]; simpl; try reflexivity.
  - rewrite Nat.add_0_r. reflexivity.
  - rewrite IH. replace (S i + q)%nat with (i + S q)%nat by lia. reflexivity.
Qed.
Lemma nulled_set done rows : forall i q, (q < length rows)%nat ->
  set_nth q None (nulled done i rows) = nulled (fun j => (Nat.eqb j (i + q) || done j)%bool) i rows.
Proof.
  induction rows as [|r rows IH]; intros i q L; simpl in *; [lia|]. destruct q as [|q].
  - rewrite Nat.add_0_r, Nat.eqb_refl. simpl. f_equal.
    clear. assert (G : forall j rs, (i < j)%nat ->
       nulled done j rs = nulled (fun x => (Nat.eqb x i || done x)%bool) j rs).
    { intros j rs; revert j; induction rs as [|r rs IH]; intros j L; simpl; [reflexivity|].
      destruct (Nat.eqb_spec j i); [lia|]. simpl. rewrite <- IH by lia. reflexivity. }
    apply G; lia.
  - destruct (Nat.eqb_spec i (i + S q)); [lia|]. simpl. f_equal.
    rewrite IH by lia. replace (S i + q)%nat with (i + S q)%nat by lia. reflexivity.
Qed.
Lemma drop_nulled p done rows : forall i,
  (forall j, done j = p j) -> drop_at p i (nulled done i rows) = map Some (drop_at p i rows).
Proof.
  induction rows as [|r rows IH]; intros i H; simpl; [reflexivity|].
  rewrite H. destruct (p i); simpl; rewrite IH by exact H; reflexivity.
Qed.

(** Entries and gradient sizes of the rows not yet detached. *)
Definition live (done : nat -> bool) (rows : list row) : list row := drop_at done 0 rows.
Definition rents (rows : list row) : list trip := concat (map (fun r => tm_e (r_q r)) rows).

Lemma drop_at_set {A} done (l : list A) : forall i q r, nth_error l q = Some r -> done (i + q)%nat = false ->
  Permutation (drop_at done i l) (r :: drop_at (fun j => (Nat.eqb j (i + q) || done j)%bool) i l).
Proof.
  induction l as [|a l IH]; intros i q r N D; [destruct q; discriminate|]. simpl. destruct q as [|q].
  - simpl in N. injection N as ->. rewrite Nat.add_0_r in *. rewrite D, Nat.eqb_refl. simpl.
    constructor. erewrite drop_at_ext; [reflexivity|]. intros j L. simpl.
    destruct (Nat.eqb_spec j i); [lia|reflexivity].
  - simpl in N. destruct (Nat.eqb_spec i (i + S q)); [lia|]. simpl.
    replace (i + S q)%nat with (S i + q)%nat in * by lia.
    specialize (IH (S i) q r N D). destruct (done i); [exact IH|].
    rewrite IH. apply perm_swap.
Qed.

Lemma kcount_perm off k E1 E2 : Permutation E1 E2 -> kcount off k E1 = kcount off k E2.
Proof.
  unfold kcount. induction 1; simpl; auto.
  - destruct (key_eqb k (ekey off x)); simpl; auto.
  - destruct (key_eqb k (ekey off x)), (key_eqb k (ekey off y)); reflexivity.
  - congruence.
Qed.
Lemma rents_perm r1 r2 : Permutation r1 r2 -> Permutation (rents r1) (rents r2).
Proof.
  unfold rents. induction 1; simpl.
  - constructor.
  - apply Permutation_app_head; assumption.
  - rewrite !app_assoc. apply Permutation_app_tail, Permutation_app_comm.
  - etransitivity; eassumption.
Qed.
Lemma nnz_perm r1 r2 : Permutation r1 r2 -> nnz_rows r1 = nnz_rows r2.
Proof. unfold nnz_rows. induction 1; simpl; lia. Qed.

Lemma in_rents_count off r rows t : In r rows -> In t (tm_e (r_q r)) ->
  (0 < kcount off (ekey off t) (rents rows))%nat.
Proof.
  intros Hr Ht. unfold rents.
  assert (HI : In t (concat (map (fun r => tm_e (r_q r)) rows))).
  { apply in_concat. exists (tm_e (r_q r)). split; [apply in_map_iff; eauto|exact Ht]. }
  unfold kcount.
  assert (X : In t (filter (fun t0 => key_eqb (ekey off t) (ekey off t0))
                 (concat (map (fun r => tm_e (r_q r)) rows))))
    by (apply filter_In; split; [exact HI|apply key_eqb_refl]).
  destruct (filter _ _); [contradiction|simpl; lia].
Qed.

Lemma drop_at_in {A} p (l : list A) x : forall i, In x (drop_at p i l) -> In x l.
Proof.
  induction l as [|a l IH]; intros i H; simpl in *; [contradiction|].
  destruct (p i); simpl in H; [right; eauto|]. destruct H; [now left|right; eauto].
Qed.

Lemma detach_ok hb off jb m rows idxs : forall done H nj,
  NoDup idxs ->
  Forall (fun i => (m <= i < m + length rows)%nat /\ done (i - m)%nat = false) idxs ->
  Hinv hb off (rents (live done rows)) H ->
  Forall (its_ok off H) (live done rows) ->
  nj = (jb + nnz_rows (live done rows))%nat ->
  let done' := fun j => (existsb (fun i => Nat.eqb (i - m) j) idxs || done j)%bool in
  exists H' nj', detach m idxs (nulled done 0 rows) H nj = Ok (nulled done' 0 rows, H', nj') /\
    Hinv hb off (rents (live done' rows)) H' /\ Forall (its_ok off H') (live done' rows) /\
    nj' = (jb + nnz_rows (live done' rows))%nat.
Proof.
  induction idxs as [|i idxs IH]; intros done H nj NDI F HI V N done'; cbn [detach].
  - exists H, nj. split; [reflexivity|]. split; [exact HI|]. split; [exact V|exact N].
  - inversion F as [|? ? [L D] F']; subst. inversion NDI as [|? ? NI ND']; subst.
    destruct (Nat.ltb_spec i m); [lia|]. rewrite nulled_nth. simpl (0 + _)%nat. rewrite D.
    destruct (nth_error rows (i - m)) as [r|] eqn:NR; [|apply nth_error_None in NR; lia].
    set (done1 := fun j => (Nat.eqb j (i - m) || done j)%bool).
    assert (P : Permutation (live done rows) (r :: live done1 rows))
      by (apply (drop_at_set done rows 0 (i - m) r NR D)).
    assert (HI' : Hinv hb off (tm_e (r_q r) ++ rents (live done1 rows)) H).
    { eapply Hinv_ext; [|exact HI]. intros k. apply kcount_perm. rewrite (rents_perm _ _ P). reflexivity. }
    assert (Vr : its_ok off H r).
    { rewrite Forall_forall in V. apply V. eapply Permutation_in; [symmetry; exact P|now left]. }
    destruct (remove_iters_ok hb off _ _ _ _ HI' Vr) as (H1 & R & HI1 & X1). rewrite R. cbn [bind].
    rewrite nulled_set by lia. simpl (0 + _)%nat. fold done1.
    assert (V1 : Forall (its_ok off H1) (live done1 rows)).
    { apply Forall_forall. intros r' Hr'. eapply its_ok_extends; [exact X1| |].
      - apply Forall_forall. intros t Ht. right. eapply in_rents_count; eassumption.
      - rewrite Forall_forall in V. apply V. eapply Permutation_in; [symmetry; exact P|now right]. }
    destruct (IH done1 H1 (jb + nnz_rows (live done rows) - nnz_grad r)%nat ND') as (H' & nj' & E & A & B & C).
    + rewrite Forall_forall in F' |- *. intros i' Hi'. destruct (F' i' Hi') as (L1 & D1).
      split; [exact L1|]. unfold done1. rewrite D1.
      destruct (Nat.eqb_spec (i' - m) (i - m)); [|reflexivity].
      exfalso. assert (i' = i) by lia. congruence.
    + exact HI1.
    + exact V1.
    + rewrite (nnz_perm _ _ P). unfold nnz_rows; simpl. lia.
    + assert (EQ : forall j, (existsb (fun i0 => Nat.eqb (i0 - m) j) idxs || done1 j)%bool = done' j).
      { intros j. unfold done1, done'. simpl. rewrite (Nat.eqb_sym j (i - m)).
        destruct (existsb (fun i0 : nat => (i0 - m =? j)%nat) idxs), (i - m =? j)%nat, (done j); reflexivity. }
      assert (EN : forall rs k, nulled (fun j => (existsb (fun i0 => Nat.eqb (i0 - m) j) idxs || done1 j)%bool) k rs
                   = nulled done' k rs).
      { induction rs as [|r0 rs IHr]; intros k; simpl; [reflexivity|].
        rewrite IHr. rewrite (EQ k). reflexivity. }
      assert (EL : live (fun j => (existsb (fun i0 => Nat.eqb (i0 - m) j) idxs || done1 j)%bool) rows = live done' rows)
        by (unfold live; apply drop_at_ext; intros; apply EQ).
      rewrite EN in E. rewrite EL in A, B, C. exists H', nj'. auto.
Qed.

Lemma drop_at_forall2 {A B} (R : A -> B -> Prop) p l1 l2 : Forall2 R l1 l2 ->
  forall i, Forall2 R (drop_at p i l1) (drop_at p i l2).
Proof.
  induction 1; intros i; simpl; [constructor|]. destruct (p i); [auto|constructor; auto].
Qed.
Lemma forall2_len {A B} (R : A -> B -> Prop) l1 l2 : Forall2 R l1 l2 -> length l1 = length l2.
Proof. induction 1; simpl; auto. Qed.
Lemma rents_ents rows cs : Forall2 row_rep rows cs -> rents rows = ents cs.
Proof.
  unfold rents, ents. induction 1; simpl; [reflexivity|].
  rewrite IHForall2, (row_rep_e _ _ H). reflexivity.
Qed.

Lemma drop_none {A} (l : list A) i : drop_at (fun _ => false) i l = l.
Proof. revert i; induction l; intros i; simpl; [reflexivity|]. f_equal; auto. Qed.
Lemma ents_app c1 c2 : ents (c1 ++ c2) = ents c1 ++ ents c2.
Proof. unfold ents. rewrite map_app, concat_app. reflexivity. Qed.
Lemma nnz_rows_app r1 r2 : nnz_rows (r1 ++ r2) = (nnz_rows r1 + nnz_rows r2)%nat.
Proof. unfold nnz_rows. rewrite map_app, list_sum_app. reflexivity. Qed.
Lemma forall_true {A} (l : list A) : Forall (fun _ => True) l.
Proof. induction l; constructor; auto. Qed.
Lemma its_ok_same off H H' r :
  extends (fun _ => True) H H' -> its_ok off H r -> its_ok off H' r.
Proof. intros X. apply (its_ok_extends (fun _ => True)); [exact X|apply forall_true]. Qed.

Lemma row_inv_with_h c a E r its :
  row_inv c a E r -> row_inv c a E (mkRow (r_c r) (r_a r) (r_q r) (r_g r) its).
Proof. intros I; exact I. Qed.

Lemma add_to_hessian_ok hb off es r c H nx :
  NoDup hb -> row_rep r c -> r_h r = [] -> Hinv hb off es H ->
  exists r' H' nx', add_to_hessian off r H nx = Ok (r', H', nx') /\ row_rep r' c /\
    nnz_grad r' = nnz_grad r /\ its_ok off H' r' /\ Hinv hb off (a_stored c ++ es) H' /\
    extends (fun _ => True) H H'.
Proof.
  intros NB RR RH I. unfold add_to_hessian. rewrite RH.
  destruct (add_entries off (tm_e (r_q r)) H nx) as [[its H'] nx'] eqn:E.
  destruct (add_entries_ok hb off _ NB _ _ _ _ _ _ I E) as (I' & X & V).
  rewrite (row_rep_e _ _ RR) in I'.
  do 3 eexists; split; [reflexivity|]. split; [exact RR|]. split; [reflexivity|].
  split; [exact V|]. split; [exact I'|exact X].
Qed.

Fixpoint lagc (off : nat) (rc : hkey) (ls : list Q) (cs : list acut) {struct cs} : Q :=
  match cs, ls with
  | c :: cs', l :: ls' => l * qsum (map (dcontrib off rc) (a_stored c)) + lagc off rc ls' cs'
  | _, _ => 0
  end.

Section Machine.
Variable sr sc : list trip -> list trip.
Hypothesis Hsr : sorts row_le sr.
Hypothesis Hsc : sorts col_le sc.
Variable fuel : nat.
Variable order : list trip -> list nat.

Lemma copy_rows_ok hb off : NoDup hb -> forall rows cs es H nx,
  Forall2 row_rep rows cs -> Hinv hb off es H ->
  exists rs H' nx', copy_rows sr sc off rows H nx = Ok (rs, H', nx') /\
    Forall2 row_rep rs cs /\ nnz_rows rs = nnz_rows rows /\ Forall (its_ok off H') rs /\
    Hinv hb off (ents cs ++ es) H' /\ extends (fun _ => True) H H'.
Proof.
  intros NB rows cs es H nx F. revert es H nx.
  induction F as [|r c rows cs RR F IH]; intros es H nx I; cbn [copy_rows].
  - exists [], H, nx. split; [reflexivity|]. split; [constructor|]. split; [reflexivity|].
    split; [constructor|]. split; [exact I|]. intros k n K _; eauto.
  - destruct RR as (RI & U).
    destruct (row_copy_ok sr sc Hsr Hsc _ _ _ _ RI U) as (r1 & -> & RI1 & RH1). cbn [bind].
    destruct (add_to_hessian_ok hb off es r1 c H nx NB (conj RI1 U) RH1 I)
      as (r2 & H1 & nx1 & -> & RR2 & NN & V1 & I1 & X1). cbn [bind].
    destruct (IH _ H1 nx1 I1) as (rs & H2 & nx2 & -> & F2 & NR & V2 & I2 & X2). cbn [bind].
    do 3 eexists; split; [reflexivity|]. split; [constructor; assumption|]. split.
    { unfold nnz_rows in *; simpl. rewrite NN, NR. f_equal. eapply row_inv_nnz; eassumption. }
    split; [constructor; [eapply its_ok_same; eassumption|exact V2]|]. split.
    + eapply Hinv_ext; [|exact I2]. intros k. change (ents (c :: cs)) with (a_stored c ++ ents cs).
      rewrite !kcount_app. lia.
    + intros k n K T. destruct (X1 k n K T) as (n1 & K1 & E1).
      destruct (X2 k n1 K1 T) as (n2 & K2 & E2). exists n2. split; [exact K2|congruence].
Qed.

Lemma q_step_ok m hb jb off cs s o :
  Sinv m hb jb off cs s -> legal m cs o ->
  exists s', q_step sr sc fuel order s o = Ok s' /\ Sinv m hb jb off (a_step m cs o) s'.
Proof.
  intros (Em & Eh & Ej & Eo & F & GL & GU & NB & HI & V & NJ) L.
  destruct o as [k|k|idxs| |]; cbn [q_step a_step legal] in *.
  - unfold q_add_quad.
    destruct (row_of_cut_ok sr sc Hsr Hsc fuel order k L) as (r & -> & RI & RH). cbn [bind].
    destruct (make_upper_stored fuel order k L) as (_ & U). rewrite Eo.
    destruct (add_to_hessian_ok hb off (ents cs) r (AQuad k) (s_H s) (s_nx s) NB (conj RI U) RH HI)
      as (r' & H' & nx' & -> & RR & NN & V' & I' & X). cbn [bind].
    eexists; split; [reflexivity|]. unfold Sinv; simpl.
    split; [exact Em|]. split; [exact Eh|]. split; [exact Ej|]. split; [exact eq_refl|].
    split; [apply Forall2_app; [exact F|constructor; [exact RR|constructor]]|].
    split; [rewrite map_app, GL; reflexivity|]. split; [rewrite map_app, GU; reflexivity|].
    split; [exact NB|]. split.
    { rewrite ents_app. eapply Hinv_ext; [|exact I']. intros k0.
      change (ents [AQuad k]) with (stored k ++ []). rewrite app_nil_r, !kcount_app.
      change (a_stored (AQuad k)) with (stored k). lia. }
    split.
    { apply Forall_app. split; [|constructor; [exact V'|constructor]].
      eapply Forall_impl; [|exact V]. intros r0. apply its_ok_same. exact X. }
    rewrite NJ, nnz_rows_app. unfold nnz_rows at 3; simpl. lia.
  - unfold q_add_lin.
    destruct (row_of_lcut_ok sr sc Hsr Hsc k) as (r & -> & RI & RH). cbn [bind].
    eexists; split; [reflexivity|]. unfold Sinv; simpl.
    split; [exact Em|]. split; [exact Eh|]. split; [exact Ej|]. split; [exact Eo|].
    assert (RR : row_rep r (ALin k)) by (split; [exact RI|reflexivity]).
    split; [apply Forall2_app; [exact F|constructor; [exact RR|constructor]]|].
    split; [rewrite map_app, GL; reflexivity|]. split; [rewrite map_app, GU; reflexivity|].
    split; [exact NB|]. split.
    { rewrite ents_app. unfold ents at 2; simpl. rewrite app_nil_r. exact HI. }
    split.
    { apply Forall_app. split; [exact V|]. constructor; [|constructor].
      unfold its_ok. rewrite (row_rep_e _ _ RR), RH. constructor. }
    rewrite NJ, nnz_rows_app. unfold nnz_rows at 3; simpl. lia.
  - destruct L as (ND & LB).
    destruct idxs as [|i0 idxs0].
    { exists s. split; [reflexivity|]. simpl.
      rewrite drop_none. unfold Sinv; auto 20. }
    set (idxs := i0 :: idxs0) in *. unfold q_remove.
    assert (LEN : length (s_rows s) = length cs) by (eapply forall2_len; exact F).
    assert (LV : live (fun _ => false) (s_rows s) = s_rows s) by apply drop_none.
    destruct (detach_ok hb off jb m (s_rows s) idxs (fun _ => false) (s_H s) (s_nnzjac s) ND)
      as (H' & nj & D & I' & V' & N').
    { eapply Forall_impl; [|exact LB]. simpl. intros i Hi. rewrite LEN. auto. }
    { rewrite LV, (rents_ents _ _ F). exact HI. }
    { rewrite LV. exact V. }
    { rewrite LV. exact NJ. }
    rewrite nulled_none in D. rewrite Em. unfold idxs in D |- *. cbv iota. fold idxs in D |- *.
    rewrite D. cbn [bind].
    set (p := fun j => existsb (fun i => Nat.eqb (i - m) j) idxs).
    set (p' := fun j => (existsb (fun i => Nat.eqb (i - m) j) idxs || false)%bool) in *.
    assert (PP : forall j, p' j = p j) by (intros; unfold p, p'; apply orb_false_r).
    unfold survivors. fold p.
    rewrite (move_down_all p (nulled p' 0 (s_rows s))) by (symmetry; apply nulled_length).
    cbn [bind]. rewrite (drop_nulled p p' (s_rows s) 0 PP).
    rewrite (move_down_all p (s_gl s)) by (rewrite GL, map_length; exact LEN).
    cbn [bind]. rewrite (move_down_all p (s_gu s)) by (rewrite GU, map_length; exact LEN).
    cbn [bind]. rewrite all_some_map. cbn [bind].
    eexists; split; [reflexivity|].
    assert (EL : live p' (s_rows s) = drop_at p 0 (s_rows s))
      by (unfold live; apply drop_at_ext; intros; apply PP).
    rewrite EL in I', V', N'.
    assert (EC : drop_at (fun q => existsb (fun i => Nat.eqb i (m + q)) idxs) 0 cs = drop_at p 0 cs).
    { apply drop_at_ext. intros j _. unfold p. clear - LB. induction idxs as [|i is IH]; simpl; [reflexivity|].
      inversion LB; subst. rewrite IH by assumption. f_equal.
      destruct (Nat.eqb_spec i (m + j)), (Nat.eqb_spec (i - m) j); auto; lia. }
    rewrite EC. unfold Sinv; simpl.
    split; [exact eq_refl|]. split; [exact Eh|]. split; [exact Ej|]. split; [exact Eo|].
    assert (F' := drop_at_forall2 _ p _ _ F 0).
    split; [exact F'|].
    split; [rewrite GL; apply drop_at_map|]. split; [rewrite GU; apply drop_at_map|].
    split; [exact NB|]. split; [rewrite <- (rents_ents _ _ F'); exact I'|].
    split; [exact V'|exact N'].
  - unfold q_copy. rewrite Eh.
    destruct (load_base_all hb NB) as (H0 & -> & I0). cbn [bind]. rewrite Eo.
    destruct (copy_rows_ok hb off NB _ _ [] H0 (length hb) F (I0 off))
      as (rs & H' & nx & -> & F' & NN & V' & I' & _). cbn [bind].
    eexists; split; [reflexivity|]. unfold Sinv; simpl. rewrite app_nil_r in I'.
    split; [exact Em|]. split; [reflexivity|]. split; [exact Ej|]. split; [exact eq_refl|].
    split; [exact F'|]. split; [exact GL|]. split; [exact GU|]. split; [exact NB|].
    split; [exact I'|]. split; [exact V'|]. rewrite NN. exact NJ.
  - unfold q_hstruct. rewrite Eh.
    destruct (struct_full hb off (ents cs) (s_H s) NB HI) as (H' & -> & I' & X & _ & _). cbn [bind].
    eexists; split; [reflexivity|]. unfold Sinv; simpl.
    split; [exact Em|]. split; [reflexivity|]. split; [exact Ej|]. split; [exact Eo|].
    split; [exact F|]. split; [exact GL|]. split; [exact GU|]. split; [exact NB|].
    split; [exact I'|]. split; [|exact NJ].
    eapply Forall_impl; [|exact V]. intros r0. apply its_ok_same. exact X.
Qed.

Lemma q_run_ok m hb jb off ops : forall cs s,
  Sinv m hb jb off cs s -> legal_run m cs ops ->
  exists s', q_run sr sc fuel order s ops = Ok s' /\ Sinv m hb jb off (a_run m cs ops) s'.
Proof.
  induction ops as [|o ops IH]; intros cs s I L; cbn [q_run legal_run a_run fold_left] in *; [eauto|].
  destruct L as (L1 & L2). destruct (q_step_ok _ _ _ _ _ _ o I L1) as (s1 & -> & I1). cbn [bind].
  apply IH; assumption.
Qed.

Lemma q_new_ok m hb jb off : NoDup hb ->
  exists s, q_new m hb jb off = Ok s /\ Sinv m hb jb off [] s.
Proof.
  intros NB. unfold q_new. destruct (load_base_all hb NB) as (H & -> & I). cbn [bind].
  eexists; split; [reflexivity|]. unfold Sinv; simpl.
  do 4 (split; [reflexivity|]). split; [constructor|]. do 2 (split; [reflexivity|]).
  split; [exact NB|]. split; [apply I|]. split; [constructor|].
  unfold nnz_rows; simpl. lia.
Qed.
Lemma q_new_nodup m hb jb off s : q_new m hb jb off = Ok s -> NoDup hb.
Proof. unfold q_new. intros H. apply bind_ok in H. destruct H as (H0 & E & _).
  apply load_base_fail in E. tauto. Qed.

(** The Hessian after a structure call. *)
Lemma eval_hess_rows_ok off H : NoDup (hkeys H) -> dense H -> forall rows cs,
  Forall2 row_rep rows cs -> Forall (its_ok off H) rows -> forall lams vals,
  length lams = length rows -> length vals = length H ->
  exists vals', eval_hess_rows lams rows H vals = Ok vals' /\ length vals' = length H /\
    forall rc, getv H vals' rc == getv H vals rc +
       lagc off rc lams cs.
Proof.
  intros ND D rows cs F. induction F as [|r c rows cs RR F IH]; intros V lams vals LL LV; cbn [eval_hess_rows].
  - exists vals. split; [reflexivity|]. split; [exact LV|]. intros rc. cbn [lagc]. ring.
  - destruct lams as [|l lams]; [discriminate|]. inversion V; subst.
    destruct (eval_hess_row_ok off l H (tm_e (r_q r)) ND D (r_h r) vals H2 LV) as (v1 & -> & L1 & G1).
    cbn [bind]. destruct (IH H3 lams v1) as (v2 & -> & L2 & G2); [simpl in LL; lia|exact L1|].
    exists v2. split; [reflexivity|]. split; [exact L2|]. intros rc.
    cbn [lagc]. rewrite G2, G1, (row_rep_e _ _ RR). ring.
Qed.
End Machine.

Lemma stored_d2 off rc k : well_stored k ->
  qsum (map (dcontrib off rc) (stored k)) == cut_d2 off (AQuad k) rc.
Proof.
  unfold cut_d2, a_entries, well_stored, stored. destruct (k_ty k); intros W; [| |contradiction].
  - apply qsum_ext. intros t Ht. rewrite Forall_forall in W. apply W in Ht.
    unfold dcontrib, d2_at, ekey, key_eqb; simpl. rewrite Nat.max_r, Nat.min_l by exact Ht.
    rewrite (Nat.eqb_sym (fst rc)), (Nat.eqb_sym (snd rc)). reflexivity.
  - rewrite map_map. apply qsum_ext. intros t Ht. rewrite Forall_forall in W. apply W in Ht.
    unfold dcontrib, d2_at, ekey, key_eqb; simpl. rewrite Nat.max_l, Nat.min_r by exact Ht.
    rewrite (Nat.eqb_sym (fst rc)), (Nat.eqb_sym (snd rc)). reflexivity.
Qed.

Definition wf_cut (c : acut) := match c with AQuad k => well_stored k | ALin _ => True end.
Lemma legal_wf m ops : forall cs, Forall wf_cut cs -> legal_run m cs ops -> Forall wf_cut (a_run m cs ops).
Proof.
  induction ops as [|o ops IH]; intros cs W L; cbn [legal_run a_run fold_left] in *; [exact W|].
  destruct L as (L1 & L2). apply IH; [|exact L2].
  destruct o as [k|k|idxs| |]; simpl in *; try exact W.
  - apply Forall_app; split; [exact W|constructor; [exact L1|constructor]].
  - apply Forall_app; split; [exact W|constructor; [exact Logic.I|constructor]].
  - apply Forall_forall. intros c Hc. rewrite Forall_forall in W. apply W. eapply drop_at_in, Hc.
Qed.

Lemma lag_eq off rc cs : Forall wf_cut cs -> forall lams,
  lagc off rc lams cs == lag_d2 off lams cs rc.
Proof.
  induction 1 as [|c cs W F IH]; intros lams; [destruct lams; reflexivity|].
  destruct lams as [|l lams]; [reflexivity|]. cbn [lag_d2 lagc]. rewrite IH.
  assert (E : qsum (map (dcontrib off rc) (a_stored c)) == cut_d2 off c rc).
  { destruct c as [k|k]; [apply stored_d2, W|reflexivity]. }
  rewrite E. reflexivity.
Qed.

Lemma base_getv hb off es H base z rc : NoDup hb -> Hinv hb off es H -> length base = length hb ->
  getv H (base ++ repeat 0 z) rc == base_entry hb base rc.
Proof.
  intros NB (ND & A) LB. specialize (A rc). unfold getv.
  assert (Z : ~ In rc hb -> base_entry hb base rc == 0).
  { intros NI. unfold base_entry. apply qsum_zero. intros [k v] HI. simpl.
    change (key_is rc k) with (key_eqb rc k). destruct (key_eqb_spec rc k); [|reflexivity].
    subst. apply in_combine_l in HI. contradiction. }
  destruct (hfind rc H) as [n|].
  - destruct A as [(A1 & A2 & A3)|(A1 & A2 & A3 & A4)].
    + clear Z ND A1 A2. assert (L : (n_idx n < length hb)%nat) by (apply nth_error_Some; congruence).
      rewrite app_nth1 by lia. revert base LB A3 L NB. generalize (n_idx n). unfold base_entry.
      induction hb as [|k hb IH]; intros i base LB A3 L NB; simpl in L; [lia|].
      destruct base as [|b base]; [discriminate|]. inversion NB; subst. simpl.
      change (key_is rc k) with (key_eqb rc k). destruct i as [|i]; simpl in A3.
      * injection A3 as ->. rewrite key_eqb_refl. rewrite qsum_zero; [ring|].
        intros [k' v] HI. simpl. change (key_is rc k') with (key_eqb rc k').
        destruct (key_eqb_spec rc k'); [|reflexivity]. subst. apply in_combine_l in HI. contradiction.
      * destruct (key_eqb_spec rc k) as [e|N].
        -- exfalso. subst. apply H2. eapply nth_error_In. exact A3.
        -- rewrite (IH i base); [ring|simpl in LB; lia|exact A3|lia|assumption].
    + rewrite (Z A1). rewrite app_nth2 by lia.
      destruct (nth_in_or_default (n_idx n - length base) (repeat 0 z) 0) as [HI|E]; [|rewrite E; reflexivity].
      apply repeat_spec in HI. rewrite HI. reflexivity.
  - rewrite Z by tauto. reflexivity.
Qed.

(** Rows evaluated in a reachable state. *)
Lemma eval_rows_ok rows cs x : Forall2 row_rep rows cs ->
  exists vs, eval_rows x rows = Ok vs /\
    Forall2 (fun v c => v == poly 0 (a_lin c) (a_stored c) x) vs cs.
Proof.
  induction 1 as [|r c rows cs (RI & _) F IH]; cbn [eval_rows]; [eexists; split; [reflexivity|constructor]|].
  destruct (row_eval_f_ok _ _ _ _ x RI) as (v & r' & -> & _ & _ & E). cbn [bind].
  destruct IH as (vs & -> & F'). cbn [bind]. eexists; split; [reflexivity|constructor; assumption].
Qed.
Lemma poly_value c x : wf_cut c -> poly 0 (a_lin c) (a_stored c) x == a_value c x.
Proof.
  intros W. unfold poly. destruct c as [k|k]; simpl.
  - rewrite stored_form. ring.
  - unfold tri_form; simpl. ring.
Qed.

Lemma jac_ok off x rows cs : Forall2 row_rep rows cs -> forall i,
  length (jac_struct off i rows) = nnz_rows rows /\
  exists vs, jac_vals x rows = Ok vs /\ length vs = nnz_rows rows.
Proof.
  induction 1 as [|r c rows cs (RI & _) F IH]; intros i; cbn [jac_struct jac_vals].
  - split; [reflexivity|]. eexists; split; reflexivity.
  - destruct (row_eval_grad_ok _ _ _ _ x off RI) as (v & r' & -> & _ & _ & L1 & L2 & _). cbn [bind].
    destruct (IH (S i)) as (A & vs & -> & B). cbn [bind]. split.
    + rewrite app_length, map_length, L2, A. reflexivity.
    + eexists; split; [reflexivity|]. rewrite app_length, L1, B. reflexivity.
Qed.
