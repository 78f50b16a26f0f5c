(** Proofs for quadratic rows and cuts. *)
From Verif Require Import Base Quad_Model Quad_Spec.
#[local] Open Scope Q_scope.

(** ** Sums *)
Lemma qsum_ext {A} (f g : A -> Q) l :
  (forall a, In a l -> f a == g a) -> qsum (map f l) == qsum (map g l).
Proof.
  induction l as [|a l IH]; simpl; intros H; [reflexivity|].
  rewrite (H a) by (left; reflexivity). rewrite IH; [reflexivity|]. intros; apply H; now right.
Qed.
Lemma qsum_plus {A} (f g : A -> Q) l :
  qsum (map (fun a => f a + g a) l) == qsum (map f l) + qsum (map g l).
Proof. induction l as [|a l IH]; simpl; [ring|]. rewrite IH. ring. Qed.
Lemma qsum_scale {A} (c : Q) (f : A -> Q) l :
  qsum (map (fun a => c * f a) l) == c * qsum (map f l).
Proof. induction l as [|a l IH]; simpl; [ring|]. rewrite IH. ring. Qed.
Lemma qsum_zero {A} (f : A -> Q) l : (forall a, In a l -> f a == 0) -> qsum (map f l) == 0.
Proof.
  induction l as [|a l IH]; simpl; intros H; [reflexivity|].
  rewrite (H a) by (left; reflexivity). rewrite IH; [ring|]. intros; apply H; now right.
Qed.

(** ** The gradient map *)
Definition gkeys (g : gmap) := map fst g.
Definition qdot (y : nat -> Q) (g : gmap) := qsum (map (fun p => snd (snd p) * y (fst p)) g).
Definition ldot (y : nat -> Q) (g : gmap) := qsum (map (fun p => fst (snd p) * y (fst p)) g).

Lemma ginsert_in k v g k' : In k' (gkeys (ginsert k v g)) <-> k' = k \/ In k' (gkeys g).
Proof.
  induction g as [|[k0 p] g IH]; simpl; [intuition|].
  destruct (Nat.ltb_spec k k0); simpl; [intuition|].
  destruct (Nat.eqb_spec k k0); simpl; [subst; intuition|].
  rewrite IH. intuition.
Qed.
Lemma ginsert_sorted k v g : sorted lt (gkeys g) -> sorted lt (gkeys (ginsert k v g)).
Proof.
  induction g as [|[k0 p] g IH]; simpl; intros H.
  - constructor; constructor.
  - inversion H; subst. destruct (Nat.ltb_spec k k0); simpl.
    + constructor; [|exact H]. constructor; [exact H0|].
      eapply Forall_impl; [|exact H2]. simpl; intros; lia.
    + destruct (Nat.eqb_spec k k0); simpl; [exact H|].
      constructor; [|apply IH; assumption].
      apply Forall_forall. intros z Hz. apply ginsert_in in Hz. destruct Hz as [->|Hz]; [lia|].
      rewrite Forall_forall in H2. apply H2. exact Hz.
Qed.
Lemma ginsert_ldot_new k v g y : ~ In k (gkeys g) -> ldot y (ginsert k v g) == v * y k + ldot y g.
Proof.
  unfold ldot. induction g as [|[k0 p] g IH]; simpl; intros H; [ring|].
  destruct (Nat.ltb_spec k k0); simpl; [ring|].
  destruct (Nat.eqb_spec k k0); simpl; [subst; exfalso; apply H; now left|].
  rewrite IH; [ring|]. intros H'; apply H; now right.
Qed.
Lemma ginsert_ldot_zero k g y : ldot y (ginsert k 0 g) == ldot y g.
Proof.
  unfold ldot. induction g as [|[k0 p] g IH]; simpl; [ring|].
  destruct (Nat.ltb_spec k k0); simpl; [ring|].
  destruct (Nat.eqb_spec k k0); simpl; [reflexivity|].
  rewrite IH; ring.
Qed.

Lemma fold_ginsert_in {A} (f : A -> nat) (h : A -> Q) l g k :
  In k (gkeys (fold_left (fun g p => ginsert (f p) (h p) g) l g)) <->
  In k (map f l) \/ In k (gkeys g).
Proof.
  revert g; induction l as [|a l IH]; intros g; simpl; [intuition|].
  rewrite IH, ginsert_in. intuition.
Qed.
Lemma fold_ginsert_sorted {A} (f : A -> nat) (h : A -> Q) l g :
  sorted lt (gkeys g) -> sorted lt (gkeys (fold_left (fun g p => ginsert (f p) (h p) g) l g)).
Proof.
  revert g; induction l as [|a l IH]; intros g H; simpl; [exact H|].
  apply IH, ginsert_sorted, H.
Qed.
Lemma fold_ginsert_ldot_zero {A} (f : A -> nat) l g y :
  ldot y (fold_left (fun g p => ginsert (f p) 0 g) l g) == ldot y g.
Proof.
  revert g; induction l as [|a l IH]; intros g; simpl; [reflexivity|].
  rewrite IH. apply ginsert_ldot_zero.
Qed.
Lemma fold_ginsert_ldot (l : list (nat * Q)) g y :
  NoDup (map fst l) -> (forall k, In k (map fst l) -> ~ In k (gkeys g)) ->
  ldot y (fold_left (fun g p => ginsert (fst p) (snd p) g) l g) == lin_form l y + ldot y g.
Proof.
  unfold lin_form. revert g; induction l as [|a l IH]; intros g ND Hd; simpl.
  - ring.
  - simpl in ND. inversion ND; subst. rewrite IH.
    + rewrite ginsert_ldot_new; [ring|]. apply Hd; now left.
    + assumption.
    + intros k Hk Hi. apply ginsert_in in Hi. destruct Hi as [->|Hi]; [contradiction|].
      apply (Hd k); [now right|exact Hi].
Qed.

Lemma gadd_ok k v g :
  In k (gkeys g) -> exists g', gadd k v g = Ok g' /\ gkeys g' = gkeys g /\
    (forall y, ldot y g' = ldot y g) /\
    (sorted lt (gkeys g) -> forall y, qdot y g' == qdot y g + v * y k).
Proof.
  induction g as [|[k0 [l q]] g IH]; simpl; [tauto|]. intros H.
  destruct (Nat.eqb_spec k k0) as [->|N].
  - eexists; repeat split; simpl.
    intros _ y. unfold qdot; simpl. ring.
  - destruct H as [H|H]; [congruence|].
    destruct (IH H) as (g' & E & K & L & D). rewrite E. simpl.
    eexists; repeat split; simpl.
    + rewrite K; reflexivity.
    + intros y. unfold ldot in *; simpl. rewrite L. reflexivity.
    + intros S y. inversion S; subst. unfold qdot in *; simpl. rewrite D by assumption. ring.
Qed.

(** ** Group sums *)
Definition ne_sum (key : trip -> nat) (w : trip -> Q) (ord : list trip) (y : nat -> Q)
  (ne : list (nat * nat)) : Q :=
  qsum (map (fun p => run_sum key w (fst p) (skipn (snd p) ord) * y (fst p)) ne).

Definition kle (key : trip -> nat) (s t : trip) := (key s <= key t)%nat.

Lemma sorted_impl {A} (P R : A -> A -> Prop) l :
  (forall a b, P a b -> R a b) -> sorted P l -> sorted R l.
Proof.
  intros HI; induction 1; constructor; auto.
  eapply Forall_impl; [|eassumption]. auto.
Qed.

Lemma skipn_app_len {A} (l1 l2 : list A) n : n = length l1 -> skipn n (l1 ++ l2) = l2.
Proof. intros ->. induction l1; simpl; auto. Qed.

Lemma ne_aux_sum key w y l : forall last i pre,
  sorted (kle key) l -> Forall (fun t => (last <= key t)%nat) l -> i = length pre ->
  ne_sum key w (pre ++ l) y (ne_aux key last i l) + run_sum key w last l * y last
  == qsum (map (fun t => w t * y (key t)) l).
Proof.
  induction l as [|t l IH]; intros last i pre S F Hi; simpl.
  - unfold ne_sum; simpl; ring.
  - inversion S as [|? ? Ft St]; subst. inversion F as [|? ? Ht Fl]; subst.
    assert (EQ : pre ++ t :: l = (pre ++ [t]) ++ l) by (rewrite <- app_assoc; reflexivity).
    assert (LN : Datatypes.S (length pre) = length (pre ++ [t]))
      by (rewrite app_length; simpl; lia).
    destruct (Nat.ltb_spec last (key t)).
    + destruct (Nat.eqb_spec last (key t)); [lia|].
      unfold ne_sum; cbn [map qsum fst snd].
      rewrite (skipn_app_len pre (t :: l) (length pre) eq_refl). simpl.
      rewrite Nat.eqb_refl.
      assert (IH' := IH (key t) (Datatypes.S (length pre)) (pre ++ [t]) St Ft LN).
      rewrite <- EQ in IH'. unfold ne_sum in IH'.
      rewrite <- IH'. ring.
    + assert (last = key t) by lia. subst last. rewrite Nat.eqb_refl.
      assert (IH' := IH (key t) (Datatypes.S (length pre)) (pre ++ [t]) St Ft LN).
      rewrite <- EQ in IH'. rewrite <- IH'. ring.
Qed.

Lemma non_empty_sum key w y l :
  sorted (kle key) l ->
  ne_sum key w l y (non_empty key l) == qsum (map (fun t => w t * y (key t)) l).
Proof.
  destruct l as [|t l]; intros S; [reflexivity|].
  inversion S as [|? ? Ft St]; subst.
  assert (H := ne_aux_sum key w y l (key t) 1 [t] St Ft eq_refl). simpl in H.
  unfold non_empty, ne_sum in *. cbn [map qsum fst snd skipn run_sum]. rewrite Nat.eqb_refl.
  cbn [map qsum]. rewrite <- H. ring.
Qed.

Lemma ne_aux_pos key l : forall last i pre k s,
  i = length pre -> In (k, s) (ne_aux key last i l) ->
  exists t, nth_error (pre ++ l) s = Some t /\ key t = k /\ In t l.
Proof.
  induction l as [|t l IH]; intros last i pre k s Hi HI; simpl in HI; [contradiction|].
  subst i.
  assert (EQ : pre ++ t :: l = (pre ++ [t]) ++ l) by (rewrite <- app_assoc; reflexivity).
  assert (LN : Datatypes.S (length pre) = length (pre ++ [t]))
    by (rewrite app_length; simpl; lia).
  destruct (last <? key t)%nat; [destruct HI as [HI|HI]|].
  - injection HI as <- <-. exists t. rewrite nth_error_app2, Nat.sub_diag by lia. simpl; auto.
  - destruct (IH _ _ _ _ _ LN HI) as (t' & A & B & C). exists t'. rewrite EQ. simpl; auto.
  - destruct (IH _ _ _ _ _ LN HI) as (t' & A & B & C). exists t'. rewrite EQ. simpl; auto.
Qed.
Lemma non_empty_pos key l k s :
  In (k, s) (non_empty key l) -> exists t, nth_error l s = Some t /\ key t = k /\ In t l.
Proof.
  destruct l as [|t l]; simpl; [tauto|]. intros [H|H].
  - injection H as <- <-. exists t; simpl; auto.
  - destruct (ne_aux_pos key l (key t) 1 [t] k s eq_refl H) as (t' & A & B & C).
    exists t'. simpl in *; auto.
Qed.

Lemma ne_aux_cover key l : forall last i t,
  sorted (kle key) l -> Forall (fun t => (last <= key t)%nat) l -> In t l ->
  key t = last \/ exists s, In (key t, s) (ne_aux key last i l).
Proof.
  induction l as [|u l IH]; intros last i t S F HI; [contradiction|].
  inversion S as [|? ? Fu Su]; subst. inversion F as [|? ? Hu Fl]; subst. simpl.
  destruct (Nat.ltb_spec last (key u)).
  - right. destruct HI as [->|HI]; [eexists; now left|].
    destruct (IH (key u) (Datatypes.S i) t Su Fu HI) as [E|(s & E)].
    + rewrite E. eexists; now left.
    + exists s; now right.
  - assert (last = key u) by lia. subst last. destruct HI as [->|HI]; [now left|].
    exact (IH (key u) (Datatypes.S i) t Su Fu HI).
Qed.
Lemma non_empty_cover key l t :
  sorted (kle key) l -> In t l -> exists s, In (key t, s) (non_empty key l).
Proof.
  destruct l as [|u l]; intros S HI; [contradiction|]. inversion S as [|? ? Fu Su]; subst. simpl.
  destruct HI as [->|HI]; [eexists; now left|].
  destruct (ne_aux_cover key l (key u) 1 t Su Fu HI) as [E|(s & E)].
  - rewrite E. eexists; now left.
  - exists s; now right.
Qed.
Lemma non_empty_keys key l :
  sorted (kle key) l -> forall k, In k (map fst (non_empty key l)) <-> exists t, In t l /\ key t = k.
Proof.
  intros S k. split.
  - intros H. apply in_map_iff in H. destruct H as ([k' s] & <- & H).
    apply non_empty_pos in H. destruct H as (t & _ & A & B). simpl. eauto.
  - intros (t & HI & <-). destruct (non_empty_cover key l t S HI) as (s & H).
    apply in_map_iff. exists (key t, s). auto.
Qed.

Lemma grad_pass_ok key w ord ne g :
  (forall k s, In (k, s) ne -> In k (gkeys g) /\ exists t, nth_error ord s = Some t /\ key t = k) ->
  sorted lt (gkeys g) ->
  exists g', grad_pass key w ord ne g = Ok g' /\ gkeys g' = gkeys g /\
    (forall y, ldot y g' = ldot y g) /\
    (forall y, qdot y g' == qdot y g + ne_sum key w ord y ne).
Proof.
  revert g; induction ne as [|[k s] ne IH]; intros g H S; simpl.
  - exists g; split; [reflexivity|]; split; [reflexivity|]; split; [reflexivity|]. intros y. unfold ne_sum; simpl. ring.
  - destruct (H k s (or_introl eq_refl)) as (Hk & t & Ht & Kt). rewrite Ht.
    rewrite Kt, Nat.eqb_refl.
    destruct (gadd_ok k (run_sum key w k (skipn s ord)) g Hk) as (g1 & -> & K1 & L1 & D1).
    simpl. destruct (IH g1) as (g' & E & K & L & D).
    + intros k' s' H'. rewrite K1. apply H; now right.
    + rewrite K1; exact S.
    + exists g'. rewrite E. split; [reflexivity|]. split; [congruence|]. split.
      * intros y. rewrite L, L1. reflexivity.
      * intros y. rewrite D, D1 by exact S. unfold ne_sum; cbn [map qsum fst snd]. ring.
Qed.

(** ** Rows *)
Definition good (key : trip -> nat) (E ord : list trip) (ne : list (nat * nat)) (ks : list nat) :=
  (forall k s, In (k, s) ne -> In k ks /\ exists t, nth_error ord s = Some t /\ key t = k) /\
  (forall w y, ne_sum key w ord y ne == qsum (map (fun t => w t * y (key t)) E)).

Definition row_inv (c : Q) (a : list (nat * Q)) (E : list trip) (r : row) : Prop :=
  r_c r = c /\ r_a r = a /\ tm_e (r_q r) = E /\
  good t_i E (tm_ro (r_q r)) (tm_nr (r_q r)) (gkeys (r_g r)) /\
  good t_j E (tm_co (r_q r)) (tm_nc (r_q r)) (gkeys (r_g r)) /\
  sorted lt (gkeys (r_g r)) /\
  (NoDup (map fst a) -> forall y, ldot y (r_g r) == lin_form a y) /\
  (forall k, In k (gkeys (r_g r)) <->
     In k (map fst a) \/ exists t, In t E /\ (t_i t = k \/ t_j t = k)).

Lemma perm_sum {A} (f : A -> Q) l l' : Permutation l l' -> qsum (map f l) == qsum (map f l').
Proof. intros H. apply qsum_perm. apply Permutation_map. exact H. Qed.

Section Rows.
Variable sr sc : list trip -> list trip.
Hypothesis Hsr : sorts row_le sr.
Hypothesis Hsc : sorts col_le sc.

Lemma good_rows E ks :
  (forall p, In p (non_empty t_i (sr E)) -> In (fst p) ks) ->
  good t_i E (sr E) (non_empty t_i (sr E)) ks.
Proof.
  intros HK. destruct (Hsr E) as (P & S). split.
  - intros k s H. split; [exact (HK _ H)|].
    destruct (non_empty_pos _ _ _ _ H) as (t & A & B & _). eauto.
  - intros w y. rewrite non_empty_sum.
    + apply perm_sum, P.
    + eapply sorted_impl; [|exact S]. unfold row_le, kle. intros; lia.
Qed.
Lemma good_cols E ks :
  (forall p, In p (non_empty t_j (sc E)) -> In (fst p) ks) ->
  good t_j E (sc E) (non_empty t_j (sc E)) ks.
Proof.
  intros HK. destruct (Hsc E) as (P & S). split.
  - intros k s H. split; [exact (HK _ H)|].
    destruct (non_empty_pos _ _ _ _ H) as (t & A & B & _). eauto.
  - intros w y. rewrite non_empty_sum.
    + apply perm_sum, P.
    + eapply sorted_impl; [|exact S]. unfold col_le, kle. intros; lia.
Qed.
Lemma good_nil key ord ks : good key [] ord [] ks.
Proof. split; [intros k s []|]. intros; unfold ne_sum; simpl; reflexivity. Qed.

(** initialize establishes the invariant, provided the matrix is not empty or
    carries no left-over lists of nonempty rows. *)
Lemma initialize_inv c a m h r :
  (tm_e m = [] -> tm_nr m = [] /\ tm_nc m = []) ->
  initialize sr sc c a m h = Ok r -> row_inv c a (tm_e m) r /\ r_h r = h.
Proof.
  intros Hm H. unfold initialize in H.
  destruct (forallb upper_ok (tm_e m)) eqn:U; [|discriminate].
  injection H as <-.
  assert (E1 : tm_e (num_ne_cols sc (num_ne_rows sr m)) = tm_e m).
  { unfold num_ne_cols, num_ne_rows. destruct (tm_e m) eqn:E; simpl; rewrite ?E; reflexivity. }
  split; [|reflexivity].
  unfold row_inv; simpl. rewrite E1.
  set (g1 := fold_left (fun g p => ginsert (fst p) (snd p) g) a []).
  set (g2 := fold_left (fun g p => ginsert (fst p) 0 g) (tm_nr (num_ne_rows sr m)) g1).
  set (g3 := fold_left (fun g p => ginsert (fst p) 0 g)
                (tm_nc (num_ne_cols sc (num_ne_rows sr m))) g2).
  assert (S3 : sorted lt (gkeys g3)).
  { apply (fold_ginsert_sorted fst (fun _ => 0)), (fold_ginsert_sorted fst (fun _ => 0)),
      (fold_ginsert_sorted fst snd). constructor. }
  assert (K1 : forall p, In p (tm_nr (num_ne_rows sr m)) -> In (fst p) (gkeys g3)).
  { intros p Hp. apply (fold_ginsert_in fst (fun _ => 0)). right.
    apply (fold_ginsert_in fst (fun _ => 0)). left. apply in_map. exact Hp. }
  assert (K2 : forall p, In p (tm_nc (num_ne_cols sc (num_ne_rows sr m))) -> In (fst p) (gkeys g3)).
  { intros p Hp. apply (fold_ginsert_in fst (fun _ => 0)). left. apply in_map. exact Hp. }
  split; [reflexivity|]. split; [reflexivity|]. split; [reflexivity|].
  destruct (tm_e m) as [|t0 E0] eqn:Em.
  - destruct (Hm eq_refl) as (Hr & Hc).
    assert (R1 : num_ne_rows sr m = m) by (unfold num_ne_rows; rewrite Em; reflexivity).
    assert (R2 : num_ne_cols sc (num_ne_rows sr m) = m)
      by (rewrite R1; unfold num_ne_cols; rewrite Em; reflexivity).
    rewrite R2, Hr, Hc. split; [apply good_nil|]. split; [apply good_nil|].
    split; [exact S3|]. split.
    { intros ND y. unfold g3, g2. rewrite !fold_ginsert_ldot_zero. unfold g1.
      rewrite fold_ginsert_ldot; [unfold ldot; simpl; ring|exact ND|intros k _ []]. }
    intros k. unfold g3, g2, g1. rewrite R2, R1, Hr, Hc. simpl.
    rewrite (fold_ginsert_in fst snd). simpl. firstorder.
  - assert (R1 : num_ne_rows sr m =
       mkTMat (t0 :: E0) (sr (t0 :: E0)) (tm_co m) (non_empty t_i (sr (t0 :: E0))) (tm_nc m))
      by (unfold num_ne_rows; rewrite Em; reflexivity).
    assert (R2 : num_ne_cols sc (num_ne_rows sr m) =
       mkTMat (t0 :: E0) (sr (t0 :: E0)) (sc (t0 :: E0)) (non_empty t_i (sr (t0 :: E0)))
              (non_empty t_j (sc (t0 :: E0))))
      by (rewrite R1; reflexivity).
    rewrite R1 in K1. rewrite R2 in K2. rewrite R2. simpl tm_ro. simpl tm_nr. simpl tm_co. simpl tm_nc.
    split; [apply good_rows; exact K1|]. split; [apply good_cols; exact K2|].
    split; [exact S3|]. split.
    { intros ND y. unfold g3, g2. rewrite !fold_ginsert_ldot_zero. unfold g1.
      rewrite fold_ginsert_ldot; [unfold ldot; simpl; ring|exact ND|intros k _ []]. }
    intros k. unfold g3, g2, g1. rewrite R2, R1. cbn [tm_nr tm_nc].
    rewrite (fold_ginsert_in fst (fun _ => 0)), (fold_ginsert_in fst (fun _ => 0)),
      (fold_ginsert_in fst snd).
    destruct (Hsr (t0 :: E0)) as (Pr & Sr). destruct (Hsc (t0 :: E0)) as (Pc & Sc).
    rewrite (non_empty_keys t_j), (non_empty_keys t_i).
    + simpl (gkeys []). split.
      * intros [(t & A & B)|[(t & A & B)|[A|[]]]].
        -- right. exists t. split; [eapply Permutation_in; [exact Pc|exact A]|auto].
        -- right. exists t. split; [eapply Permutation_in; [exact Pr|exact A]|auto].
        -- auto.
      * intros [A|(t & A & [B|B])].
        -- auto.
        -- right. left. exists t. split; [eapply Permutation_in; [symmetry; exact Pr|exact A]|auto].
        -- left. exists t. split; [eapply Permutation_in; [symmetry; exact Pc|exact A]|auto].
    + eapply sorted_impl; [|exact Sr]. unfold row_le, kle. intros; lia.
    + eapply sorted_impl; [|exact Sc]. unfold col_le, kle. intros; lia.
Qed.

Lemma initialize_total c a m h :
  forallb upper_ok (tm_e m) = true -> exists r, initialize sr sc c a m h = Ok r.
Proof. unfold initialize; intros ->. eauto. Qed.

Lemma gzero_keys g : gkeys (gzero g) = gkeys g.
Proof. unfold gkeys, gzero. rewrite map_map. reflexivity. Qed.
Lemma gzero_ldot g y : ldot y (gzero g) = ldot y g.
Proof. unfold ldot, gzero. rewrite map_map. reflexivity. Qed.
Lemma gzero_qdot g y : qdot y (gzero g) == 0.
Proof. unfold qdot, gzero. rewrite map_map. apply qsum_zero. intros; simpl; ring. Qed.

Lemma internal_ok c a E r x :
  row_inv c a E r ->
  exists r', internal_eval_grad x r = Ok r' /\ row_inv c a E r' /\ gkeys (r_g r') = gkeys (r_g r) /\
    r_h r' = r_h r /\
    (forall y, qdot y (r_g r') ==
       qsum (map (fun t => row_weight x t * y (t_i t)) E)
       + qsum (map (fun t => col_weight x t * y (t_j t)) E)).
Proof.
  intros (Hc & Ha & He & (G1 & G1s) & (G2 & G2s) & S & L & PT). unfold internal_eval_grad.
  destruct (grad_pass_ok t_i (row_weight x) (tm_ro (r_q r)) (tm_nr (r_q r)) (gzero (r_g r)))
    as (g1 & -> & K1 & L1 & D1).
  { intros k s H. rewrite gzero_keys. apply G1; exact H. }
  { rewrite gzero_keys; exact S. }
  simpl. rewrite gzero_keys in K1.
  destruct (grad_pass_ok t_j (col_weight x) (tm_co (r_q r)) (tm_nc (r_q r)) g1)
    as (g2 & -> & K2 & L2 & D2).
  { intros k s H. rewrite K1. apply G2; exact H. }
  { rewrite K1; exact S. }
  simpl. eexists; split; [reflexivity|].
  assert (KK : gkeys g2 = gkeys (r_g r)) by congruence.
  split; [|split; [exact KK|split; [reflexivity|]]].
  - unfold row_inv, good; simpl. rewrite KK. split; [exact Hc|]. split; [exact Ha|].
    split; [exact He|]. split; [split; assumption|]. split; [split; assumption|].
    split; [exact S|]. split; [|exact PT].
    intros ND y. rewrite L2, L1, gzero_ldot. apply L; exact ND.
  - intros y. simpl. rewrite D2, D1, gzero_qdot, G1s, G2s. ring.
Qed.

Lemma weights_form E x :
  qsum (map (fun t => row_weight x t * x (t_i t)) E)
  + qsum (map (fun t => col_weight x t * x (t_j t)) E) == tri_form E x.
Proof.
  unfold tri_form. induction E as [|t E IH]; simpl; [ring|]. rewrite <- IH.
  unfold row_weight, col_weight, tri_term. destruct (Nat.eqb_spec (t_i t) (t_j t)) as [e|n].
  - rewrite e. ring.
  - ring.
Qed.

Lemma row_eval_f_ok c a E r x :
  row_inv c a E r ->
  exists v r', row_eval_f x r = Ok (v, r') /\ row_inv c a E r' /\ gkeys (r_g r') = gkeys (r_g r) /\
    v == poly c a E x.
Proof.
  intros I. destruct (internal_ok _ _ _ _ x I) as (r' & HE & I' & K & _ & D).
  unfold row_eval_f. rewrite HE. simpl. do 2 eexists; split; [reflexivity|].
  split; [exact I'|]. split; [exact K|].
  destruct I as (-> & -> & _). unfold poly, lin_form.
  assert (D' := D x). unfold qdot in D'. rewrite D', weights_form. reflexivity.
Qed.

Lemma combine_map {A B C} (f : A -> B) (g : A -> C) l :
  combine (map f l) (map g l) = map (fun a => (f a, g a)) l.
Proof. induction l; simpl; congruence. Qed.

Lemma tri_diff E x h :
  tri_form E (vadd x h) - tri_form E x - tri_form E h ==
  2 * (qsum (map (fun t => row_weight x t * h (t_i t)) E)
  + qsum (map (fun t => col_weight x t * h (t_j t)) E)).
Proof.
  unfold tri_form. induction E as [|t E IH]; simpl; [ring|].
  setoid_replace (tri_term (vadd x h) t + qsum (map (tri_term (vadd x h)) E)
    - (tri_term x t + qsum (map (tri_term x) E)) - (tri_term h t + qsum (map (tri_term h) E)))
  with ((tri_term (vadd x h) t - tri_term x t - tri_term h t)
    + (qsum (map (tri_term (vadd x h)) E) - qsum (map (tri_term x) E) - qsum (map (tri_term h) E)))
  by ring.
  rewrite IH. unfold row_weight, col_weight, tri_term, vadd.
  destruct (Nat.eqb_spec (t_i t) (t_j t)) as [e|n].
  - rewrite e. ring.
  - ring.
Qed.

Lemma lin_diff a x h : lin_form a (vadd x h) - lin_form a x == lin_form a h.
Proof.
  unfold lin_form. induction a as [|p a IH]; simpl; [ring|].
  rewrite <- IH. unfold vadd. ring.
Qed.

Lemma row_eval_grad_ok c a E r x off :
  row_inv c a E r ->
  exists vs r', row_eval_grad x r = Ok (vs, r') /\ row_inv c a E r' /\
    gkeys (r_g r') = gkeys (r_g r) /\
    length vs = nnz_grad r /\ length (gradiant_struct off r) = nnz_grad r /\
    (NoDup (map fst a) -> forall h,
       poly c a E (vadd x h) - poly c a E x ==
       sparse_dot (gradiant_struct 0 r) vs h + tri_form E h).
Proof.
  intros I. destruct (internal_ok _ _ _ _ x I) as (r' & HE & I' & K & _ & D).
  unfold row_eval_grad. rewrite HE. simpl. do 2 eexists; split; [reflexivity|].
  split; [exact I'|]. split; [exact K|].
  assert (LE : length (r_g r') = length (r_g r)).
  { unfold gkeys in K. apply (f_equal (@length nat)) in K. rewrite !map_length in K. exact K. }
  split; [unfold nnz_grad; rewrite map_length; exact LE|].
  split; [unfold nnz_grad, gradiant_struct; rewrite map_length; reflexivity|].
  intros ND h. unfold sparse_dot.
  assert (GS : gradiant_struct 0 r = map fst (r_g r')).
  { unfold gradiant_struct. transitivity (gkeys (r_g r)); [|symmetry; exact K].
    unfold gkeys. apply map_ext. intros; lia. }
  rewrite GS, combine_map, map_map. simpl.
  assert (L' : ldot h (r_g r') == lin_form a h).
  { destruct I' as (_ & _ & _ & _ & _ & _ & L & _). apply L; exact ND. }
  assert (DD : qsum (map (fun p => (2 * snd (snd p) + fst (snd p)) * h (fst p)) (r_g r'))
    == 2 * qdot h (r_g r') + ldot h (r_g r')).
  { unfold qdot, ldot. rewrite <- qsum_scale, <- qsum_plus. apply qsum_ext. intros; ring. }
  rewrite DD, L', D.
  assert (T := tri_diff E x h). assert (LL := lin_diff a x h).
  unfold poly. rewrite <- T, <- LL. ring.
Qed.

Lemma r_run_ok c a E ops : forall r, row_inv c a E r ->
  exists r', r_run r ops = Ok r' /\ row_inv c a E r' /\ gkeys (r_g r') = gkeys (r_g r).
Proof.
  induction ops as [|o ops IH]; intros r I; simpl.
  - eauto.
  - destruct o as [x|x]; simpl.
    + destruct (row_eval_f_ok _ _ _ _ x I) as (v & r1 & -> & I1 & K1 & _). simpl.
      destruct (IH r1 I1) as (r' & E' & I' & K'). exists r'. rewrite E'. split; [reflexivity|]. split; [exact I'|congruence].
    + destruct (row_eval_grad_ok _ _ _ _ x 0 I) as (v & r1 & -> & I1 & K1 & _). simpl.
      destruct (IH r1 I1) as (r' & E' & I' & K'). exists r'. rewrite E'. split; [reflexivity|]. split; [exact I'|congruence].
Qed.
End Rows.

(** ** Conversion of cuts *)
Definition stored (k : qcut) : list trip :=
  match k_ty k with Lower => map swap_ij (k_e k) | _ => k_e k end.

Lemma stored_form k x : tri_form (stored k) x == tri_form (k_e k) x.
Proof.
  unfold stored. destruct (k_ty k); try reflexivity.
  unfold tri_form. rewrite map_map. apply qsum_ext. intros t _. unfold tri_term, swap_ij; simpl.
  rewrite Nat.eqb_sym. destruct (Nat.eqb_spec (t_i t) (t_j t)) as [e|n]; [rewrite e|]; ring.
Qed.

Lemma make_upper_stored fuel order k :
  well_stored k -> make_upper fuel order (k_ty k) (k_e k) = Ok (stored k) /\
  forallb upper_ok (stored k) = true.
Proof.
  unfold well_stored, make_upper, stored. destruct (k_ty k); intros H.
  - assert (U : forallb upper_ok (k_e k) = true).
    { apply forallb_forall. intros t Ht. rewrite Forall_forall in H. apply Nat.leb_le, H, Ht. }
    rewrite U. simpl. rewrite U. auto.
  - assert (U : forallb lower_ok (k_e k) = true).
    { apply forallb_forall. intros t Ht. rewrite Forall_forall in H. apply Nat.leb_le, H, Ht. }
    assert (V : forallb upper_ok (map swap_ij (k_e k)) = true).
    { apply forallb_forall. intros t Ht. apply in_map_iff in Ht. destruct Ht as (u & <- & Hu).
      rewrite forallb_forall in U. apply U in Hu. exact Hu. }
    rewrite U. simpl. rewrite V. auto.
  - contradiction.
Qed.

Section Conv.
Variable sr sc : list trip -> list trip.
Hypothesis Hsr : sorts row_le sr.
Hypothesis Hsc : sorts col_le sc.
Variable fuel : nat.
Variable order : list trip -> list nat.

Lemma row_of_cut_ok k : well_stored k ->
  exists r, row_of_cut sr sc fuel order k = Ok r /\ row_inv 0 (k_a k) (stored k) r /\ r_h r = [].
Proof.
  intros W. destruct (make_upper_stored fuel order k W) as (M & U). unfold row_of_cut.
  rewrite M. simpl.
  destruct (initialize_total sr sc 0 (k_a k) (mkTMat (stored k) [] [] [] []) [] U) as (r & E).
  exists r. split; [exact E|].
  apply (initialize_inv sr sc Hsr Hsc) in E; [|auto]. exact E.
Qed.

Lemma row_of_lcut_ok k :
  exists r, row_of_lcut sr sc k = Ok r /\ row_inv 0 (l_a k) [] r /\ r_h r = [].
Proof.
  unfold row_of_lcut.
  destruct (initialize_total sr sc 0 (l_a k) tmat0 [] eq_refl) as (r & E).
  exists r. split; [exact E|].
  apply (initialize_inv sr sc Hsr Hsc) in E; [exact E|auto].
Qed.

Lemma row_assign_cut_ok k r0 : well_stored k ->
  (k_e k <> [] \/ (tm_nr (r_q r0) = [] /\ tm_nc (r_q r0) = [])) ->
  exists r, row_assign_cut sr sc fuel order r0 k = Ok r /\ row_inv (k_c k) (k_a k) (stored k) r.
Proof.
  intros W N. destruct (make_upper_stored fuel order k W) as (M & U). unfold row_assign_cut.
  rewrite M. simpl.
  destruct (initialize_total sr sc (k_c k) (k_a k)
     (mkTMat (stored k) [] [] (tm_nr (r_q r0)) (tm_nc (r_q r0))) (r_h r0) U) as (r & E).
  exists r. split; [exact E|].
  apply (initialize_inv sr sc Hsr Hsc) in E; [tauto|]. simpl. intros S.
  destruct N as [N|N]; [|exact N].
  exfalso. apply N. unfold stored in S. destruct (k_ty k); auto. destruct (k_e k); [auto|discriminate].
Qed.

Lemma row_copy_ok c a E r : row_inv c a E r -> forallb upper_ok E = true ->
  exists r', row_copy sr sc r = Ok r' /\ row_inv c a E r' /\ r_h r' = [].
Proof.
  intros (Hc & Ha & He & _) U. unfold row_copy.
  destruct (initialize_total sr sc (r_c r) (r_a r)
     (mkTMat (tm_e (r_q r)) (tm_ro (r_q r)) (tm_co (r_q r)) [] []) []) as (r' & R).
  { simpl. rewrite He. exact U. }
  exists r'. split; [exact R|]. apply (initialize_inv sr sc Hsr Hsc) in R; [|auto].
  simpl in R. rewrite Hc, Ha, He in R. exact R.
Qed.
Lemma row_assign_row_ok c a E r rhs : row_inv c a E rhs -> forallb upper_ok E = true ->
  exists r', row_assign_row sr sc r rhs = Ok r' /\ row_inv c a E r' /\ r_h r' = [].
Proof. intros; unfold row_assign_row; apply row_copy_ok; assumption. Qed.

Lemma cut_rhs_tri k x : cut_rhs k x == k_c k + lin_form (k_a k) x + tri_form (k_e k) x.
Proof.
  unfold cut_rhs, lin_form, tri_form. apply Qplus_comp; [reflexivity|].
  apply qsum_ext. intros t _. unfold tri_term. rewrite Nat.eqb_sym.
  destruct (Nat.eqb_spec (t_i t) (t_j t)) as [e|n]; [rewrite e|]; ring.
Qed.
End Conv.

(** ** Normalisation *)
Lemma full_loop_diverges fuel : forall E, E <> [] -> full_loop fuel 0 0 E = Diverges.
Proof.
  induction fuel as [|f IH]; intros E NE; [reflexivity|]. cbn [full_loop].
  destruct E as [|t E]; [congruence|]. simpl Nat.ltb. cbn [andb length Nat.ltb Nat.leb].
  cbn [nth_error]. match goal with |- (if ?b then _ else _) = _ => destruct b end;
    apply IH; simpl; congruence.
Qed.

Lemma set_nth_length {A} k (v : A) l : length (set_nth k v l) = length l.
Proof. revert k; induction l as [|a l IH]; intros [|k]; simpl; auto. Qed.

Lemma rd_loop_bound ro is : forall j E j' E',
  rd_loop ro is j E = Ok (j', E') -> (j' <= j + length is)%nat /\ length E' = length E.
Proof.
  induction is as [|i is IH]; intros j E j' E' H; cbn [rd_loop] in H.
  - injection H as <- <-. simpl; lia.
  - destruct (nth_error ro i); [|discriminate]. destruct (nth_error ro j); [|discriminate].
    destruct (nth_error E n); [|discriminate]. destruct (nth_error E n0); [|discriminate].
    destruct (_ && _)%bool.
    + apply IH in H. rewrite set_nth_length in H. simpl. lia.
    + destruct (nth_error ro (S j)); [|discriminate].
      apply IH in H. rewrite set_nth_length in H. simpl. lia.
Qed.
Lemma remove_duplicates_shrinks ro E E' :
  E <> [] -> remove_duplicates ro E = Ok E' -> (length E' < length E)%nat.
Proof.
  unfold remove_duplicates. intros NE H. apply bind_ok in H. destruct H as ([j E1] & H & K).
  injection K as <-. apply rd_loop_bound in H. rewrite seq_length in H.
  destruct E as [|t E]; [congruence|]. simpl in *. rewrite firstn_length. lia.
Qed.
