From Verif Require Import Base Arr Nlp Cur_Model Cur_Spec.
#[local] Open Scope Q_scope.

(** ** Sums *)
Lemma sumn_S n f : sumn (S n) f == sumn n f + f n.
Proof.
  unfold sumn. rewrite seq_S, map_app, qsum_app. cbn [map qsum Nat.add]. ring.
Qed.
Lemma sumn_ext n f g : (forall i, (i < n)%nat -> f i == g i) -> sumn n f == sumn n g.
Proof.
  induction n as [|n IH]; intros H; [reflexivity|].
  rewrite !sumn_S. rewrite IH, (H n) by (intros; apply H; lia) || lia. reflexivity.
Qed.
Lemma sumn_0 n f : (forall i, (i < n)%nat -> f i == 0) -> sumn n f == 0.
Proof.
  intros H. rewrite (sumn_ext n f (fun _ => 0) H). clear H.
  induction n as [|n IH]; [reflexivity|]. rewrite sumn_S, IH. reflexivity.
Qed.
Lemma sumn_add n f g : sumn n (fun i => f i + g i) == sumn n f + sumn n g.
Proof. induction n as [|n IH]; [reflexivity|]. rewrite !sumn_S, IH. ring. Qed.
Lemma sumn_scal n a f : sumn n (fun i => a * f i) == a * sumn n f.
Proof. induction n as [|n IH]; [unfold sumn; cbn [map qsum seq]; ring|]. rewrite !sumn_S, IH. ring. Qed.
Lemma sumn_pick n k a : (k < n)%nat -> sumn n (fun i => if Nat.eqb i k then a i else 0) == a k.
Proof.
  induction n as [|n IH]; intros H; [lia|]. rewrite sumn_S.
  destruct (Nat.eqb_spec n k) as [->|N].
  - rewrite sumn_0; [ring|]. intros i Hi. destruct (Nat.eqb_spec i k); [lia|reflexivity].
  - rewrite IH by lia. ring.
Qed.
Lemma sumn_pick' n k a : (k < n)%nat -> sumn n (fun i => if Nat.eqb k i then a i else 0) == a k.
Proof.
  intros H. rewrite <- (sumn_pick n k a H). apply sumn_ext. intros i _. rewrite Nat.eqb_sym. reflexivity.
Qed.
Lemma sumn_nonneg n f : (forall i, (i < n)%nat -> 0 <= f i) -> 0 <= sumn n f.
Proof.
  induction n as [|n IH]; intros H; [apply Qle_refl|]. rewrite sumn_S.
  assert (0 <= sumn n f) by (apply IH; intros; apply H; lia).
  assert (0 <= f n) by (apply H; lia). lra.
Qed.
Lemma sumn_qsum {A} n (F : A -> nat -> Q) l :
  sumn n (fun i => qsum (map (fun a => F a i) l)) == qsum (map (fun a => sumn n (F a)) l).
Proof.
  induction l as [|a l IH]; cbn [map qsum]; [apply sumn_0; reflexivity|].
  rewrite sumn_add, IH. reflexivity.
Qed.
Lemma qsum_scal {A} a (f : A -> Q) l : qsum (map (fun t => a * f t) l) == a * qsum (map f l).
Proof. induction l as [|b l IH]; cbn [map qsum]; [ring|]. rewrite IH. ring. Qed.
Lemma qsum_map_ext {A} (f g : A -> Q) l : (forall a, In a l -> f a == g a) -> qsum (map f l) == qsum (map g l).
Proof. apply qsum_ext. Qed.
Lemma qsum_map_add {A} (f g : A -> Q) l : qsum (map (fun t => f t + g t) l) == qsum (map f l) + qsum (map g l).
Proof. induction l as [|b l IH]; cbn [map qsum]; [ring|]. rewrite IH. ring. Qed.

(** ** Triplets *)
Notation trip := (nat * nat * Q)%type.
Definition wf_trip (m n : nat) (T : list trip) : Prop :=
  Forall (fun t => fst (fst t) < m /\ snd (fst t) < n)%nat T.
Definition zero0 (P : nlp) : list (nat * nat) := map (from0 P) (p_jst P).

Lemma dense_off off st vs i j : Forall (fun rc => off <= fst rc /\ off <= snd rc)%nat st ->
  dense off st vs i j == dense 0 (map (fun rc => (fst rc - off, snd rc - off)%nat) st) vs i j.
Proof.
  unfold dense. intros F. revert vs. induction F as [|[r c] st [H1 H2] F IH]; intros vs; [reflexivity|].
  destruct vs as [|v vs]; [reflexivity|]. cbn [map combine qsum fst snd] in *.
  rewrite IH. rewrite !Nat.add_0_r.
  replace (Nat.eqb r (i + off)) with (Nat.eqb (r - off) i)
    by (destruct (Nat.eqb_spec (r - off) i), (Nat.eqb_spec r (i + off)); try reflexivity; lia).
  replace (Nat.eqb c (j + off)) with (Nat.eqb (c - off) j)
    by (destruct (Nat.eqb_spec (c - off) j), (Nat.eqb_spec c (j + off)); try reflexivity; lia).
  reflexivity.
Qed.
(** Row of the matrix times a vector, by rows of the matrix and by entries. *)
Lemma dense_row_sum n st vs d r : Forall (fun rc => snd rc < n)%nat st ->
  sumn n (fun c => dense 0 st vs r c * at_ d c) == mul_row (combine st vs) d r.
Proof.
  unfold dense, mul_row. intros F. revert vs. induction F as [|[a c] st H F IH]; intros vs.
  - apply sumn_0. intros i _. cbn [combine map qsum]. ring.
  - destruct vs as [|v vs]; [apply sumn_0; intros i _; cbn [combine map qsum]; ring|].
    cbn [combine map qsum fst snd] in *. rewrite <- IH.
    transitivity (sumn n (fun k => (if Nat.eqb c k then (if Nat.eqb a r then v * at_ d k else 0) else 0) +
       qsum (map (fun p => if (Nat.eqb (fst (fst p)) (r + 0) && Nat.eqb (snd (fst p)) (k + 0))%bool then snd p else 0)
              (combine st vs)) * at_ d k)).
    { apply sumn_ext. intros k _. rewrite !Nat.add_0_r. destruct (Nat.eqb a r), (Nat.eqb c k); cbn [andb]; ring. }
    rewrite sumn_add. apply Qplus_comp; [|reflexivity].
    rewrite (sumn_pick' n c (fun k => if Nat.eqb a r then v * at_ d k else 0)) by exact H. reflexivity.
Qed.
Lemma row_change_trip P x d r : nlp_ok P ->
  row_change P x d r == mul_row (combine (zero0 P) (p_jv P x)) d r.
Proof.
  intros OK. unfold row_change, zero0.
  rewrite <- (dense_row_sum (p_n P)).
  - apply sumn_ext. intros c _. apply Qmult_comp; [|reflexivity]. apply dense_off.
    eapply Forall_impl; [|apply (ok_jst P OK)]. intros a H. simpl in H. lia.
  - apply Forall_map. eapply Forall_impl; [|apply (ok_jst P OK)]. intros a H. simpl in *. lia.
Qed.
(** The quadratic form by entries. *)
Lemma form_trip P x lam d : nlp_ok P ->
  form P x lam d ==
  qsum (map (fun t => if Nat.eqb (fst (fst t)) (snd (fst t)) then at_ d (fst (fst t)) * at_ d (fst (fst t)) * snd t
                      else 2 * at_ d (fst (fst t)) * at_ d (snd (fst t)) * snd t)
            (combine (map (from0 P) (p_hst P)) (p_hv P x 1 lam))).
Proof.
  intros OK. unfold form, hess.
  assert (Fo : Forall (fun rc => p_off P <= fst rc /\ p_off P <= snd rc)%nat (p_hst P)).
  { eapply Forall_impl; [|apply (ok_hst P OK)]. intros a H; simpl in H; lia. }
  assert (Fn : Forall (fun rc => fst rc < p_n P /\ snd rc < p_n P)%nat (map (from0 P) (p_hst P))).
  { apply Forall_map. eapply Forall_impl; [|apply (ok_hst P OK)]. intros a H; simpl in *; lia. }
  transitivity (sumn (p_n P) (fun i => sumn (p_n P) (fun j => at_ d i * at_ d j *
     (dense 0 (map (from0 P) (p_hst P)) (p_hv P x 1 lam) i j +
      (if Nat.eqb i j then 0 else dense 0 (map (from0 P) (p_hst P)) (p_hv P x 1 lam) j i))))).
  { apply sumn_ext; intros i _; apply sumn_ext; intros j _.
    rewrite (dense_off _ _ _ i j Fo). destruct (Nat.eqb i j); [reflexivity|]. rewrite (dense_off _ _ _ j i Fo). reflexivity. }
  generalize dependent (map (from0 P) (p_hst P)). intros st Fn. generalize (p_hv P x 1 lam) as vs.
  generalize dependent (p_n P). intros n Fn. clear Fo.
  induction Fn as [|[a c] st [Ha Hc] F IH]; intros vs.
  - cbn [combine map qsum]. apply sumn_0; intros i _. apply sumn_0; intros j _. unfold dense. cbn [combine map qsum].
    destruct (Nat.eqb i j); ring.
  - destruct vs as [|v vs].
    { cbn [combine map qsum]. apply sumn_0; intros i _. apply sumn_0; intros j _. unfold dense. cbn [combine map qsum].
      destruct (Nat.eqb i j); ring. }
    cbn [combine map qsum fst snd] in *. rewrite <- IH.
    transitivity (sumn n (fun i => sumn n (fun j => at_ d i * at_ d j *
         (if (Nat.eqb a i && Nat.eqb c j)%bool then v else 0)) +
       (sumn n (fun j => at_ d i * at_ d j * (if Nat.eqb i j then 0 else if (Nat.eqb a j && Nat.eqb c i)%bool then v else 0)) +
        sumn n (fun j => at_ d i * at_ d j * (dense 0 st vs i j + (if Nat.eqb i j then 0 else dense 0 st vs j i)))))).
    { apply sumn_ext; intros i _. rewrite <- sumn_add, <- sumn_add. apply sumn_ext; intros j _.
      unfold dense. cbn [combine map qsum fst snd]. rewrite !Nat.add_0_r.
      destruct (Nat.eqb i j), (Nat.eqb a i && Nat.eqb c j)%bool, (Nat.eqb a j && Nat.eqb c i)%bool; ring. }
    rewrite !sumn_add. rewrite Qplus_assoc. apply Qplus_comp; [|reflexivity].
    assert (E1 : sumn n (fun i => sumn n (fun j => at_ d i * at_ d j * (if (Nat.eqb a i && Nat.eqb c j)%bool then v else 0)))
                 == at_ d a * at_ d c * v).
    { transitivity (sumn n (fun i => if Nat.eqb a i then at_ d i * at_ d c * v else 0)).
      { apply sumn_ext; intros i _. destruct (Nat.eqb a i); cbn [andb].
        - rewrite <- (sumn_pick' n c (fun j => at_ d i * at_ d j * v) Hc). apply sumn_ext; intros j _.
          destruct (Nat.eqb c j); ring.
        - apply sumn_0; intros; ring. }
      apply (sumn_pick' n a (fun i => at_ d i * at_ d c * v) Ha). }
    assert (E2 : sumn n (fun i => sumn n (fun j => at_ d i * at_ d j * (if Nat.eqb i j then 0 else if (Nat.eqb a j && Nat.eqb c i)%bool then v else 0)))
                 == if Nat.eqb a c then 0 else at_ d c * at_ d a * v).
    { transitivity (sumn n (fun i => if Nat.eqb c i then (if Nat.eqb a c then 0 else at_ d i * at_ d a * v) else 0)).
      { apply sumn_ext; intros i _. destruct (Nat.eqb_spec c i) as [<-|N].
        - transitivity (sumn n (fun j => if Nat.eqb a j then (if Nat.eqb a c then 0 else at_ d c * at_ d j * v) else 0)).
          + apply sumn_ext; intros j _. rewrite andb_true_r. destruct (Nat.eqb_spec a j) as [<-|]; [|destruct (Nat.eqb c j); ring].
            rewrite (Nat.eqb_sym c a). destruct (Nat.eqb a c); ring.
          + rewrite (sumn_pick' n a (fun j => if Nat.eqb a c then 0 else at_ d c * at_ d j * v) Ha). reflexivity.
        - apply sumn_0; intros j _. rewrite andb_false_r. destruct (Nat.eqb i j); ring. }
      rewrite (sumn_pick' n c (fun i => if Nat.eqb a c then 0 else at_ d i * at_ d a * v) Hc). reflexivity. }
    rewrite E1, E2. destruct (Nat.eqb_spec a c) as [<-|]; ring.
Qed.
