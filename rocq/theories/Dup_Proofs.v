From Verif Require Import Base Arr Nlp FP_Model Dup_Model Dup_Spec.
#[local] Open Scope Q_scope.

Lemma rd_some {A} i (l : list A) x : rd i l = Ok x <-> nth_error l i = Some x.
Proof. unfold rd. destruct (nth_error l i); split; intros H; congruence. Qed.
Lemma nth_len {A} (l : list A) i x : nth_error l i = Some x -> (i < length l)%nat.
Proof. intros H. apply nth_error_Some. congruence. Qed.
Lemma upd_len {A} i (a : A) l : (i < length l)%nat -> length (upd i a l) = length l.
Proof. intros H. unfold upd. apply upd_length. exact H. Qed.
Lemma upd_same {A} i (a : A) l : (i < length l)%nat -> nth_error (upd i a l) i = Some a.
Proof.
  intros H. unfold upd. rewrite nth_error_app2; rewrite firstn_length_le by lia; [|lia]. rewrite Nat.sub_diag. reflexivity.
Qed.
Lemma nth_error_firstn' {A} (l : list A) : forall i j, (j < i)%nat -> nth_error (firstn i l) j = nth_error l j.
Proof. induction l as [|a l IH]; intros [|i] [|j] H; try lia; try reflexivity; cbn. apply IH. lia. Qed.
Lemma nth_error_skipn' {A} (l : list A) : forall i j, nth_error (skipn i l) j = nth_error l (i + j).
Proof. induction l as [|a l IH]; intros [|i] j; try reflexivity; cbn; [destruct j; reflexivity|apply IH]. Qed.
Lemma upd_other {A} i j (a : A) l : (i < length l)%nat -> j <> i -> nth_error (upd i a l) j = nth_error l j.
Proof.
  intros L H. unfold upd. destruct (Nat.lt_ge_cases j i) as [K|K].
  - rewrite nth_error_app1 by (rewrite firstn_length_le; lia). apply nth_error_firstn'. exact K.
  - rewrite nth_error_app2; rewrite firstn_length_le by lia; [|lia]. destruct (j - i)%nat eqn:E; [lia|].
    cbn [nth_error]. rewrite nth_error_skipn'. f_equal. lia.
Qed.
Lemma upd_id {A} i (l : list A) : forall a, nth_error l i = Some a -> upd i a l = l.
Proof.
  unfold upd. revert i. induction l as [|b l IH]; intros [|i] a H; try discriminate; cbn in *; [congruence|].
  rewrite (IH i a H). reflexivity.
Qed.

(** * Which objects an interface uses *)
Definition fpo (x : ifc) (f : nat) : Prop := i_fp x = Some f \/ i_opt x = Some (TFp f).
Definition owns (s : st) (x : ifc) (k : nat) : Prop :=
  i_prob x = Some k \/ i_opt x = Some (TProb k) \/ (exists f g, fpo x f /\ nth_error (s_fps s) f = Some g /\ fst g = k) \/
  (exists l, i_lin x = Some l /\ nth_error (s_lins s) l = Some k).
Record wfi (s : st) (x : ifc) : Prop := {
  w_owns : forall k, owns s x k -> (k < length (s_probs s))%nat;
  w_fpo : forall f, fpo x f -> (f < length (s_fps s))%nat;
  w_lin : forall l, i_lin x = Some l -> (l < length (s_lins s))%nat;
  w_trio : match i_user x, i_prob x, i_fp x with
           | Some _, Some k, Some f => (exists p, nth_error (s_fps s) f = Some (k, p)) /\ (i_opt x = Some (TProb k) \/ i_opt x = Some (TFp f))
           | None, None, None => True
           | _, _, _ => False
           end }.
Record wf (s : st) : Prop := {
  w_if : forall i x, at_ s i x -> wfi s x;
  w_sep : forall i j x y k, i <> j -> at_ s i x -> at_ s j y -> owns s x k -> ~ owns s y k;
  w_sepf : forall i j x y f, i <> j -> at_ s i x -> at_ s j y -> fpo x f -> ~ fpo y f;
  w_sepl : forall i j x y l, i <> j -> at_ s i x -> at_ s j y -> i_lin x = Some l -> i_lin y <> Some l }.
Definition grow (s s' : st) : Prop :=
  (length (s_probs s) <= length (s_probs s'))%nat /\ (length (s_fps s) <= length (s_fps s'))%nat /\
  (length (s_lins s) <= length (s_lins s'))%nat /\ (forall l, (l < length (s_lins s))%nat -> nth_error (s_lins s') l = nth_error (s_lins s) l).
Definition touch (s : st) (x : ifc) (s' : st) : Prop :=
  (forall k, (k < length (s_probs s))%nat -> ~ owns s x k -> nth_error (s_probs s') k = nth_error (s_probs s) k) /\
  (forall f, (f < length (s_fps s))%nat -> ~ fpo x f -> nth_error (s_fps s') f = nth_error (s_fps s) f).
Definition takes (s : st) (x : ifc) (s' : st) (x' : ifc) : Prop :=
  (forall k, owns s' x' k -> owns s x k \/ (length (s_probs s) <= k)%nat) /\ (forall f, fpo x' f -> fpo x f \/ (length (s_fps s) <= f)%nat) /\
  (forall l, i_lin x' = Some l -> i_lin x = Some l \/ (length (s_lins s) <= l)%nat).
Definition act (i : nat) (s s' : st) : Prop := exists x x',
  at_ s i x /\ s_ifs s' = upd i x' (s_ifs s) /\ grow s s' /\ touch s x s' /\ takes s x s' x' /\ wfi s' x'.
Definition adds (s s' : st) : Prop := exists x',
  s_ifs s' = s_ifs s ++ [x'] /\ grow s s' /\ touch s if0 s' /\ takes s if0 s' x' /\ wfi s' x'.

Lemma owns0 s k : ~ owns s if0 k.
Proof. intros [H|[H|[(f & g & [H|H] & _)|(l & H & _)]]]; discriminate H. Qed.
Lemma fpo0 f : ~ fpo if0 f.
Proof. intros [H|H]; discriminate H. Qed.
(** The objects of an interface that are not touched. *)
Lemma keep s s' x y : grow s s' -> touch s x s' -> wfi s y -> (forall k, owns s y k -> ~ owns s x k) -> (forall f, fpo y f -> ~ fpo x f) ->
  (forall k, owns s y k -> nth_error (s_probs s') k = nth_error (s_probs s) k) /\
  (forall f, fpo y f -> nth_error (s_fps s') f = nth_error (s_fps s) f) /\
  (forall l, i_lin y = Some l -> nth_error (s_lins s') l = nth_error (s_lins s) l) /\ (forall k, owns s' y k <-> owns s y k).
Proof.
  intros (G1 & G2 & G3 & G4) (T1 & T2) W H1 H2.
  assert (F : forall f, fpo y f -> nth_error (s_fps s') f = nth_error (s_fps s) f).
  { intros f H. apply T2; [apply (w_fpo _ _ W); exact H|apply H2; exact H]. }
  assert (Li : forall l, i_lin y = Some l -> nth_error (s_lins s') l = nth_error (s_lins s) l).
  { intros l H. apply G4. apply (w_lin _ _ W). exact H. }
  split; [|split; [exact F|split; [exact Li|]]].
  - intros k H. apply T1; [apply (w_owns _ _ W); exact H|apply H1; exact H].
  - intros k. unfold owns. split; (intros [H|[H|[(f & g & A & B & C)|(l & A & B)]]]; [auto|auto| |]).
    + right; right; left. exists f, g. rewrite <- (F f A). auto.
    + right; right; right. exists l. rewrite <- (Li l A). auto.
    + right; right; left. exists f, g. rewrite (F f A). auto.
    + right; right; right. exists l. rewrite (Li l A). auto.
Qed.
Lemma keep_wfi s s' x y : grow s s' -> touch s x s' -> wfi s y -> (forall k, owns s y k -> ~ owns s x k) -> (forall f, fpo y f -> ~ fpo x f) -> wfi s' y.
Proof.
  intros G T W H1 H2. destruct (keep s s' x y G T W H1 H2) as (K1 & K2 & K3 & K4). destruct G as (G1 & G2 & G3 & G4). split.
  - intros k H. apply K4 in H. apply (w_owns _ _ W) in H. lia.
  - intros f H. apply (w_fpo _ _ W) in H. lia.
  - intros l H. apply (w_lin _ _ W) in H. lia.
  - pose proof (w_trio _ _ W) as V. destruct (i_user y), (i_prob y) as [k|], (i_fp y) as [f|] eqn:E; auto.
    destruct V as [(p & V) O]. split; [|exact O]. exists p. rewrite K2; [exact V|left; exact E].
Qed.
Lemma at_upd i x' s s' j y : s_ifs s' = upd i x' (s_ifs s) -> (i < length (s_ifs s))%nat -> at_ s' j y -> (j = i /\ y = x') \/ (j <> i /\ at_ s j y).
Proof.
  intros E L H. unfold at_ in *. rewrite E in H. destruct (Nat.eq_dec j i) as [->|N].
  - rewrite upd_same in H by exact L. left. split; congruence.
  - rewrite upd_other in H by assumption. right. auto.
Qed.
Lemma act_wf i s s' : wf s -> act i s s' -> wf s'.
Proof.
  intros W (x & x' & Hx & E & G & T & (K1 & K2 & K3) & W').
  assert (Li : (i < length (s_ifs s))%nat) by (eapply nth_len; exact Hx).
  assert (Sep : forall j y, j <> i -> at_ s j y -> (forall k, owns s y k -> ~ owns s x k) /\ (forall f, fpo y f -> ~ fpo x f)).
  { intros j y N Hy. split; intros k Hk; [eapply (w_sep _ W); eauto|eapply (w_sepf _ W); eauto]. }
  split.
  - intros j y Hy. destruct (at_upd _ _ _ _ _ _ E Li Hy) as [[-> ->]|[N Hy']]; [exact W'|].
    destruct (Sep j y N Hy'). eapply keep_wfi; eauto. apply (w_if _ W j y Hy').
  - (* separation of problems *)
    assert (A : forall j y k, j <> i -> at_ s j y -> owns s' x' k -> ~ owns s' y k).
    { intros j y k N Hy H1 H2. destruct (Sep j y N Hy) as [S1 S2].
      destruct (keep s s' x y G T (w_if _ W j y Hy) S1 S2) as (_ & _ & _ & KO). apply KO in H2.
      destruct (K1 k H1) as [O|O]; [exact (S1 k H2 O)|]. apply (w_owns _ _ (w_if _ W j y Hy)) in H2. lia. }
    intros j1 j2 y1 y2 k N H1 H2.
    destruct (at_upd _ _ _ _ _ _ E Li H1) as [[-> ->]|[N1 H1']], (at_upd _ _ _ _ _ _ E Li H2) as [[-> ->]|[N2 H2']].
    + congruence.
    + apply (A j2); assumption.
    + intros O1 O2. revert O1. eapply (A j1); eassumption.
    + destruct (Sep j1 y1 N1 H1') as [S1 S2]. destruct (Sep j2 y2 N2 H2') as [S3 S4].
      destruct (keep s s' x y1 G T (w_if _ W _ _ H1') S1 S2) as (_ & _ & _ & KO1). destruct (keep s s' x y2 G T (w_if _ W _ _ H2') S3 S4) as (_ & _ & _ & KO2).
      intros O1 O2. apply KO1 in O1. apply KO2 in O2. exact (w_sep _ W _ _ _ _ _ N H1' H2' O1 O2).
  - intros j1 j2 y1 y2 f N H1 H2.
    destruct (at_upd _ _ _ _ _ _ E Li H1) as [[-> ->]|[N1 H1']], (at_upd _ _ _ _ _ _ E Li H2) as [[-> ->]|[N2 H2']].
    + congruence.
    + intros O1 O2. destruct (K2 f O1) as [O|O]; [exact (w_sepf _ W _ _ _ _ _ N Hx H2' O O2)|]. apply (w_fpo _ _ (w_if _ W _ _ H2')) in O2. lia.
    + intros O1 O2. destruct (K2 f O2) as [O|O]; [exact (w_sepf _ W _ _ _ _ _ N H1' Hx O1 O)|]. apply (w_fpo _ _ (w_if _ W _ _ H1')) in O1. lia.
    + apply (w_sepf _ W _ _ _ _ _ N H1' H2').
  - intros j1 j2 y1 y2 l N H1 H2.
    destruct (at_upd _ _ _ _ _ _ E Li H1) as [[-> ->]|[N1 H1']], (at_upd _ _ _ _ _ _ E Li H2) as [[-> ->]|[N2 H2']].
    + congruence.
    + intros O1 O2. destruct (K3 l O1) as [O|O]; [exact (w_sepl _ W _ _ _ _ _ N Hx H2' O O2)|]. apply (w_lin _ _ (w_if _ W _ _ H2')) in O2. lia.
    + intros O1 O2. destruct (K3 l O2) as [O|O]; [exact (w_sepl _ W _ _ _ _ _ N H1' Hx O1 O)|]. apply (w_lin _ _ (w_if _ W _ _ H1')) in O1. lia.
    + apply (w_sepl _ W _ _ _ _ _ N H1' H2').
Qed.
Lemma at_app s s' x' j y : s_ifs s' = s_ifs s ++ [x'] -> at_ s' j y -> (j = length (s_ifs s) /\ y = x') \/ ((j < length (s_ifs s))%nat /\ at_ s j y).
Proof.
  intros E H. unfold at_ in *. rewrite E in H. destruct (Nat.lt_ge_cases j (length (s_ifs s))) as [K|K].
  - rewrite nth_error_app1 in H by exact K. auto.
  - rewrite nth_error_app2 in H by exact K. destruct (j - length (s_ifs s))%nat as [|n] eqn:D; cbn in H; [|destruct n; discriminate H].
    left. split; [lia|congruence].
Qed.
Lemma adds_wf s s' : wf s -> adds s s' -> wf s'.
Proof.
  intros W (x' & E & G & T & (K1 & K2 & K3) & W').
  assert (N0 : forall y k, owns s y k -> ~ owns s if0 k) by (intros; apply owns0).
  assert (F0 : forall y f, fpo y f -> ~ fpo if0 f) by (intros; apply fpo0).
  assert (Li : forall j y, at_ s j y -> (j < length (s_ifs s))%nat) by (intros j y H; eapply nth_len; exact H).
  assert (KO : forall j y, at_ s j y -> forall k, owns s' y k <-> owns s y k).
  { intros j y Hy. apply (keep s s' if0 y G T (w_if _ W j y Hy) (N0 y) (F0 y)). }
  split.
  - intros j y Hy. destruct (at_app _ _ _ _ _ E Hy) as [[-> ->]|[L Hy']]; [exact W'|].
    eapply (keep_wfi s s' if0 y); eauto. apply (w_if _ W j y Hy').
  - assert (A : forall j y k, at_ s j y -> owns s' x' k -> ~ owns s' y k).
    { intros j y k Hy H1 H2. apply (KO j y Hy) in H2. destruct (K1 k H1) as [O|O]; [exact (owns0 _ _ O)|].
      apply (w_owns _ _ (w_if _ W j y Hy)) in H2. lia. }
    intros j1 j2 y1 y2 k N H1 H2.
    destruct (at_app _ _ _ _ _ E H1) as [[-> ->]|[L1 H1']], (at_app _ _ _ _ _ E H2) as [[-> ->]|[L2 H2']].
    + congruence.
    + apply (A j2); assumption.
    + intros O1 O2. revert O1. eapply (A j1); eassumption.
    + intros O1 O2. apply (KO j1 y1 H1') in O1. apply (KO j2 y2 H2') in O2. exact (w_sep _ W _ _ _ _ _ N H1' H2' O1 O2).
  - intros j1 j2 y1 y2 f N H1 H2.
    destruct (at_app _ _ _ _ _ E H1) as [[-> ->]|[L1 H1']], (at_app _ _ _ _ _ E H2) as [[-> ->]|[L2 H2']].
    + congruence.
    + intros O1 O2. destruct (K2 f O1) as [O|O]; [exact (fpo0 _ O)|]. apply (w_fpo _ _ (w_if _ W _ _ H2')) in O2. lia.
    + intros O1 O2. destruct (K2 f O2) as [O|O]; [exact (fpo0 _ O)|]. apply (w_fpo _ _ (w_if _ W _ _ H1')) in O1. lia.
    + apply (w_sepf _ W _ _ _ _ _ N H1' H2').
  - intros j1 j2 y1 y2 l N H1 H2.
    destruct (at_app _ _ _ _ _ E H1) as [[-> ->]|[L1 H1']], (at_app _ _ _ _ _ E H2) as [[-> ->]|[L2 H2']].
    + congruence.
    + intros O1 O2. destruct (K3 l O1) as [O|O]; [discriminate O|]. apply (w_lin _ _ (w_if _ W _ _ H2')) in O2. lia.
    + intros O1 O2. destruct (K3 l O2) as [O|O]; [discriminate O|]. apply (w_lin _ _ (w_if _ W _ _ H1')) in O1. lia.
    + apply (w_sepl _ W _ _ _ _ _ N H1' H2').
Qed.
Lemma init_wf : wf init.
Proof. split; intros i; intros; exfalso; match goal with H : at_ init i _ |- _ => unfold at_ in H; cbn in H; destruct i; discriminate H end. Qed.

(** * Each operation *)
Section S.
Variable U : nat -> nlp.
Lemma grow_refl s : grow s s.
Proof. repeat split; auto. Qed.
Lemma touch_refl s x : touch s x s.
Proof. split; auto. Qed.
(** Changing only the interface, not what it uses. *)
Lemma act_put i s x x' : at_ s i x -> wfi s x -> i_user x' = i_user x -> i_prob x' = i_prob x -> i_fp x' = i_fp x -> i_lin x' = i_lin x ->
  (i_opt x' = i_opt x \/ (exists k, i_prob x = Some k /\ i_opt x' = Some (TProb k)) \/ (exists f, i_fp x = Some f /\ i_opt x' = Some (TFp f)) \/ (i_prob x = None /\ i_opt x' = None)) ->
  act i s (put i x' s).
Proof.
  intros H W E1 E2 E3 E4 E5.
  assert (F : forall f, fpo x' f -> fpo x f).
  { intros f [A|A]; [left; congruence|]. destruct E5 as [E|[(k & _ & E)|[(g & B & E)|[_ E]]]]; [right; congruence|congruence|left; congruence|congruence]. }
  assert (O : forall k, owns s x' k -> owns s x k).
  { intros k [A|[A|[(f & g & A & B & C)|(l & A & B)]]].
    - left. congruence.
    - destruct E5 as [E|[(j & B & E)|[(g & B & E)|[_ E]]]]; [right; left; congruence|left; congruence|congruence|congruence].
    - right; right; left. exists f, g. auto.
    - right; right; right. exists l. split; [congruence|exact B]. }
  exists x, x'. split; [exact H|]. split; [reflexivity|]. split; [unfold grow; cbn; repeat split; auto|]. split; [split; cbn; auto|]. split; [|split].
  - split; [|split]; auto. intros l A. left. congruence.
  - intros k A. apply (w_owns _ _ W). apply O. exact A.
  - intros f A. apply (w_fpo _ _ W). apply F. exact A.
  - intros l A. apply (w_lin _ _ W). congruence.
  - pose proof (w_trio _ _ W) as V. rewrite E1, E2, E3. cbn [put wifs s_fps].
    destruct (i_user x), (i_prob x) as [k|], (i_fp x) as [f|]; auto. destruct V as [V1 V2]. split; [exact V1|].
    destruct E5 as [E|[(j & B & E)|[(g & B & E)|[B _]]]]; [rewrite E; exact V2| | |discriminate B].
    + left. congruence.
    + right. congruence.
Qed.
(** Storing a solution or bounds in an own problem object. *)
Definition same_but (k : nat) (s s' : st) : Prop :=
  s_fps s' = s_fps s /\ s_lins s' = s_lins s /\ s_sbs s' = s_sbs s /\ s_ifs s' = s_ifs s /\ length (s_probs s') = length (s_probs s) /\
  forall j, j <> k -> nth_error (s_probs s') j = nth_error (s_probs s) j.
Lemma same_but_refl k s : same_but k s s.
Proof. repeat split; auto. Qed.
Lemma same_but_trans k a b c : same_but k a b -> same_but k b c -> same_but k a c.
Proof. intros (A1 & A2 & A3 & A4 & A5 & A6) (B1 & B2 & B3 & B4 & B5 & B6). repeat split; try congruence. intros j N. rewrite B6, A6; auto. Qed.
Lemma same_but_upd k q s : (k < length (s_probs s))%nat -> same_but k s (wprobs (upd k q (s_probs s)) s).
Proof. intros L. repeat split; cbn [wprobs s_probs]; [apply upd_len; exact L|]. intros j N. apply upd_other; assumption. Qed.
Lemma store_but k v s s' : store k v s = Ok s' -> same_but k s s' /\ exists q, nth_error (s_probs s) k = Some q /\
  nth_error (s_probs s') k = Some (mkProb (q_user q) (q_lo q) (q_up q) v).
Proof.
  unfold store. intros H. apply bind_ok in H. destruct H as (q & A & H). apply rd_some in A. injection H as <-.
  pose proof (nth_len _ _ _ A) as L. split; [apply same_but_upd; exact L|]. exists q. split; [exact A|]. cbn. apply upd_same. exact L.
Qed.
Lemma others_but k l : forall s r s', others k l s = Ok (r, s') -> same_but k s s'.
Proof.
  induction l as [|[e sol] l IH]; intros s r s' H; cbn in H; [injection H as <- <-; apply same_but_refl|].
  apply bind_ok in H. destruct H as (q & A & H). apply bind_ok in H. destruct H as (s1 & B & H). apply store_but in B. destruct B as [B _].
  destruct e; [|injection H as <- <-; exact B].
  destruct (others k l s1) as [[[p|] s2]| | | | | | |] eqn:E; try discriminate H; injection H as <- <-; eapply same_but_trans; eauto.
Qed.
Lemma act_store i s s1 k x x' : at_ s i x -> wfi s x -> owns s x k -> same_but k s s1 ->
  i_user x' = i_user x -> i_prob x' = i_prob x -> i_fp x' = i_fp x -> i_lin x' = i_lin x -> i_opt x' = i_opt x -> act i s (put i x' s1).
Proof.
  intros H W O (A1 & A2 & A3 & A4 & A5 & A6) E1 E2 E3 E4 E5.
  assert (OO : forall j, owns (put i x' s1) x' j <-> owns s x j).
  { intros j. unfold owns, fpo. cbn [put wifs s_fps s_lins]. rewrite A1, A2, E2, E3, E4, E5. tauto. }
  exists x, x'. split; [exact H|]. split; [cbn; rewrite A4; reflexivity|]. split; [|split; [|split; [|split]]].
  - cbn. unfold grow. cbn. rewrite A1, A2, A5. repeat split; auto.
  - split; cbn [put wifs s_probs s_fps]; [|rewrite A1; auto]. intros j L N. apply A6. intros ->. exact (N O).
  - split; [|split].
    + intros j Oj. left. apply OO. exact Oj.
    + intros f. unfold fpo. rewrite E3, E5. auto.
    + intros l. rewrite E4. auto.
  - intros j Oj. apply OO in Oj. cbn. rewrite A5. apply (w_owns _ _ W). exact Oj.
  - intros f. unfold fpo. rewrite E3, E5. cbn. rewrite A1. apply (w_fpo _ _ W).
  - intros l. rewrite E4. cbn. rewrite A2. apply (w_lin _ _ W).
  - pose proof (w_trio _ _ W) as V. rewrite E1, E2, E3, E5. cbn. rewrite A1. exact V.
Qed.
(** A new problem and a new feasibility problem. *)
Lemma act_fresh i s x x' u p : at_ s i x -> wf s -> i_user x' <> None -> i_prob x' = Some (length (s_probs s)) -> i_fp x' = Some (length (s_fps s)) ->
  (i_opt x' = Some (TProb (length (s_probs s))) \/ i_opt x' = Some (TFp (length (s_fps s)))) -> i_lin x' = i_lin x ->
  act i s (put i x' (wfps (s_fps s ++ [(length (s_probs s), p)]) (wprobs (s_probs s ++ [u]) s))).
Proof.
  intros H W E1 E2 E3 E4 E5. pose proof (w_if _ W _ _ H) as Wx.
  assert (F : forall f, fpo x' f -> f = length (s_fps s)).
  { intros f [A|A]; [congruence|]. destruct E4; congruence. }
  assert (O : forall k, owns (put i x' (wfps (s_fps s ++ [(length (s_probs s), p)]) (wprobs (s_probs s ++ [u]) s))) x' k ->
     k = length (s_probs s) \/ exists l, i_lin x = Some l /\ nth_error (s_lins s) l = Some k).
  { intros k [A|[A|[(f & g & A & B & C)|(l & A & B)]]]; [left; congruence|left; destruct E4; congruence| |].
    - left. apply F in A. subst f. cbn in B. rewrite nth_error_app2, Nat.sub_diag in B by lia. injection B as <-. symmetry. exact C.
    - right. exists l. split; [congruence|exact B]. }
  exists x, x'. split; [exact H|]. split; [reflexivity|]. split; [|split; [|split; [|split]]].
  - unfold grow. cbn. rewrite !app_length. cbn. repeat split; auto; lia.
  - split; cbn; intros j L _; apply nth_error_app1; exact L.
  - split; [|split].
    + intros k A. destruct (O k A) as [->|(l & B & C)]; [right; lia|]. left. right; right; right. exists l. auto.
    + intros f A. rewrite (F f A). right. lia.
    + intros l A. left. congruence.
  - intros k A. cbn. rewrite app_length. destruct (O k A) as [->|(l & B & C)]; [cbn; lia|].
    assert (owns s x k) as K by (right; right; right; exists l; auto). apply (w_owns _ _ Wx) in K. lia.
  - intros f A. rewrite (F f A). cbn. rewrite app_length. cbn. lia.
  - intros l A. cbn. apply (w_lin _ _ Wx). congruence.
  - rewrite E2, E3. destruct (i_user x'); [|congruence]. split; [|exact E4]. exists p. cbn. rewrite nth_error_app2, Nat.sub_diag by lia. reflexivity.
Qed.
(** Rewriting an own feasibility problem. *)
Lemma act_fp i s x x' f r p : at_ s i x -> wfi s x -> i_fp x = Some f -> nth_error (s_fps s) f = Some r ->
  i_user x' = i_user x -> i_prob x' = i_prob x -> i_fp x' = i_fp x -> i_lin x' = i_lin x -> (i_opt x' = i_opt x \/ i_opt x' = Some (TFp f)) ->
  act i s (put i x' (wfps (upd f (fst r, p) (s_fps s)) s)).
Proof.
  intros H W E0 R E1 E2 E3 E4 E5. pose proof (nth_len _ _ _ R) as L.
  assert (F : forall g, fpo x' g -> fpo x g).
  { intros g [A|A]; [left; congruence|]. destruct E5; [right; congruence|left; congruence]. }
  set (s' := put i x' (wfps (upd f (fst r, p) (s_fps s)) s)).
  assert (O : forall k, owns s' x' k -> owns s x k).
  { intros k [A|[A|[(g & v & A & B & C)|(l & A & B)]]].
    - left. congruence.
    - right; left. destruct E5; congruence.
    - right; right; left. cbn in B. destruct (Nat.eq_dec g f) as [->|N].
      + rewrite upd_same in B by exact L. injection B as <-. exists f, r. auto.
      + rewrite upd_other in B by assumption. exists g, v. auto.
    - right; right; right. exists l. split; [congruence|exact B]. }
  exists x, x'. split; [exact H|]. split; [reflexivity|]. split; [|split; [|split; [|split]]].
  - unfold grow. cbn. rewrite upd_len by exact L. repeat split; auto.
  - split; cbn; auto. intros g Lg N. apply upd_other; [exact L|]. intros ->. apply N. left. exact E0.
  - split; [|split]; auto. intros l A. left. congruence.
  - intros k A. cbn. apply (w_owns _ _ W). apply O. exact A.
  - intros g A. cbn. rewrite upd_len by exact L. apply (w_fpo _ _ W). apply F. exact A.
  - intros l A. cbn. apply (w_lin _ _ W). congruence.
  - pose proof (w_trio _ _ W) as V. rewrite E1, E2, E3. cbn. rewrite E0 in *. destruct (i_user x), (i_prob x) as [k|]; auto.
    destruct V as [(q & V1) V2]. split; [|destruct E5 as [-> | ->]; auto]. rewrite V1 in R. injection R as <-. exists p. cbn. apply upd_same. exact L.
Qed.
Lemma act_trans i a b c : wf a -> act i a b -> act i b c -> act i a c.
Proof.
  intros W (x & y & H1 & E1 & G1 & T1 & K1 & W1) (y' & z & H2 & E2 & G2 & T2 & K2 & W2).
  assert (Li : (i < length (s_ifs a))%nat) by (eapply nth_len; exact H1).
  assert (y' = y) as ->.
  { unfold at_ in H2. rewrite E1, upd_same in H2 by exact Li. congruence. }
  exists x, z. split; [exact H1|].
  split. { rewrite E2, E1. unfold upd. rewrite firstn_app, firstn_firstn, firstn_length_le, Nat.min_id, Nat.sub_diag by lia. cbn [firstn]. rewrite app_nil_r.
    f_equal. f_equal. rewrite skipn_app, firstn_length_le by lia. rewrite skipn_all2 by (rewrite firstn_length_le; lia).
    replace (S i - i)%nat with 1%nat by lia. reflexivity. }
  destruct G1 as (G11 & G12 & G13 & G14), G2 as (G21 & G22 & G23 & G24). destruct T1 as [T11 T12], T2 as [T21 T22].
  destruct K1 as (K11 & K12 & K13), K2 as (K21 & K22 & K23).
  split; [|split; [|split; [|exact W2]]].
  - unfold grow. repeat split; try lia. intros l L. rewrite G24 by lia. apply G14. exact L.
  - split.
    + intros k L N. rewrite T21; [apply T11; assumption|lia|]. intros O. destruct (K11 k O) as [Q|Q]; [exact (N Q)|lia].
    + intros f L N. rewrite T22; [apply T12; assumption|lia|]. intros O. destruct (K12 f O) as [Q|Q]; [exact (N Q)|lia].
  - split; [|split].
    + intros k O. destruct (K21 k O) as [Q|Q]; [apply K11; exact Q|right; lia].
    + intros f O. destruct (K22 f O) as [Q|Q]; [apply K12; exact Q|right; lia].
    + intros l O. destruct (K23 l O) as [Q|Q]; [apply K13; exact Q|right; lia].
Qed.
Lemma act_id i s x : at_ s i x -> wfi s x -> act i s s.
Proof.
  intros H W. exists x, x. split; [exact H|]. split; [symmetry; apply upd_id; exact H|]. split; [apply grow_refl|]. split; [apply touch_refl|].
  split; [|exact W]. split; [|split]; auto.
Qed.
(** The strong-branching solvers are apart. *)
Lemma act_sbs i s s1 v : act i s s1 -> act i s (wsbs v s1).
Proof.
  intros (x & x' & H & E & G & T & K & W). exists x, x'. split; [exact H|]. split; [exact E|]. split; [exact G|]. split; [exact T|]. split; [exact K|].
  destruct W. split; assumption.
Qed.
Ltac inv_bind H := match type of H with (bind _ _ = Ok _) => let q := fresh "v" in let A := fresh "A" in apply bind_ok in H; destruct H as (q & A & H); try apply rd_some in A; inv_bind H | _ => idtac end.
Lemma initJac_act i s s' : wf s -> initJac U i s = Ok s' -> act i s s'.
Proof.
  intros W H. unfold initJac in H. inv_bind H. injection H as <-. eapply act_put; try exact A; try reflexivity; [apply (w_if _ W _ _ A)|left; reflexivity].
Qed.
Lemma exec_act o s s' : wf s -> exec U o s = Ok s' -> match target o with Some i => act i s s' | None => adds s s' end.
Proof.
  intros W H. destruct o; cbn [target exec] in *.
  - (* New *) injection H as <-. exists if0. split; [reflexivity|]. split; [unfold grow; cbn; repeat split; auto|]. split; [split; cbn; auto|].
    split; [split; [|split]; auto|]. split; try (intros k A; exfalso; first [exact (owns0 _ _ A)|exact (fpo0 _ A)|discriminate A]). exact Logic.I.
  - (* SetModel *) unfold setModel in H. inv_bind H. injection H as <-. eapply act_fresh; try exact A; try exact W; try reflexivity; cbn; [discriminate|].
    destruct (i_mode v); auto.
  - (* Use *) unfold use in H. inv_bind H. destruct (i_fp v) as [f|] eqn:E; [|discriminate H]. inv_bind H. injection H as <-.
    pose proof (w_if _ W _ _ A) as Wv. pose proof (nth_len _ _ _ A0) as L.
    match goal with |- act _ _ (put _ ?y ?t) => set (y' := y); set (t' := t) end.
    assert (F : forall g, fpo y' g -> g = f) by (intros g [B|B]; cbn in B; congruence).
    assert (O : forall k, owns (put i y' t') y' k -> k = length (s_probs s) \/ exists l, i_lin v = Some l /\ nth_error (s_lins s) l = Some k).
    { intros k [B|[B|[(g & w & B & C & D)|(l & B & C)]]]; [left; cbn in B; congruence|left; cbn in B; congruence| |].
      - left. apply F in B. subst g. cbn in C. rewrite upd_same in C by exact L. injection C as <-. symmetry. exact D.
      - right. exists l. auto. }
    exists v, y'. split; [exact A|]. split; [reflexivity|]. split; [|split; [|split; [|split]]].
    + unfold grow. cbn. rewrite app_length, upd_len by exact L. cbn. repeat split; auto; lia.
    + split; cbn; intros j Lj N; [apply nth_error_app1; exact Lj|]. apply upd_other; [exact L|]. intros ->. apply N. left. exact E.
    + split; [|split].
      * intros k B. destruct (O k B) as [->|(l & C & D)]; [right; lia|]. left. right; right; right. exists l. auto.
      * intros g B. left. rewrite (F g B). left. exact E.
      * intros l B. left. exact B.
    + intros k B. cbn. rewrite app_length. destruct (O k B) as [->|(l & C & D)]; [cbn; lia|].
      assert (owns s v k) as K by (right; right; right; exists l; auto). apply (w_owns _ _ Wv) in K. lia.
    + intros g B. rewrite (F g B). cbn. rewrite upd_len by exact L. exact L.
    + intros l B. cbn. apply (w_lin _ _ Wv). exact B.
    + pose proof (w_trio _ _ Wv) as V. cbn. rewrite E in V. destruct (i_user v); [|destruct (i_prob v); contradiction].
      split; [|left; reflexivity]. exists (snd v0). apply upd_same. exact L.
  - (* SetBounds *) unfold setColBounds in H. inv_bind H. destruct (i_prob v) as [k|] eqn:E; [|discriminate H]. unfold deref in A0. apply rd_some in A0.
    inv_bind H. injection H as <-. pose proof (w_if _ W _ _ A) as Wv. pose proof (nth_len _ _ _ A0) as L.
    set (q' := mkProb _ _ _ _).
    assert (X : act i s (put i v (wprobs (upd k q' (s_probs s)) s))).
    { eapply act_store; try exact A; try exact Wv; try reflexivity; [|apply same_but_upd; exact L]. left. exact E. }
    unfold put in X. cbn [s_ifs wprobs] in X. rewrite (upd_id i (s_ifs s) v A) in X. exact X.
  - (* ToPump *) unfold switchToPump, switchTo in H. inv_bind H. destruct (i_fp v) as [f|] eqn:E; [|discriminate H]. inv_bind H. injection H as <-.
    eapply act_fp; try exact A; try exact E; try exact A0; try reflexivity; [apply (w_if _ W _ _ A)|right; reflexivity].
  - unfold switchToLocal, switchTo in H. inv_bind H. destruct (i_fp v) as [f|] eqn:E; [|discriminate H]. inv_bind H. injection H as <-.
    eapply act_fp; try exact A; try exact E; try exact A0; try reflexivity; [apply (w_if _ W _ _ A)|right; reflexivity].
  - unfold switchToOriginal in H. inv_bind H. injection H as <-. eapply act_put; try exact A; try reflexivity; [apply (w_if _ W _ _ A)|].
    cbn. destruct (i_prob v) as [k|]; [right; left; exists k; auto|right; right; right; auto].
  - (* SolveF *) unfold solveFeasibility in H. inv_bind H. destruct (i_fp v) as [f|] eqn:E; [|discriminate H]. inv_bind H. injection H as <-.
    apply store_but in A3. destruct A3 as [B _]. pose proof (w_if _ W _ _ A) as Wv.
    assert (X : act i s (put i v (wfps (upd f (fst v0, v1) (s_fps s)) s))).
    { eapply act_fp; try exact A; try exact E; try exact A0; try reflexivity; [exact Wv|left; reflexivity]. }
    unfold put in X. cbn [s_ifs wfps] in X. rewrite (upd_id i (s_ifs s) v A) in X.
    change (wifs (s_ifs s) (wfps (upd f (fst v0, v1) (s_fps s)) s)) with (wfps (upd f (fst v0, v1) (s_fps s)) s) in X.
    eapply act_trans; [exact W|exact X|]. pose proof (act_wf _ _ _ W X) as W2.
    assert (A' : at_ (wfps (upd f (fst v0, v1) (s_fps s)) s) i v) by exact A.
    eapply act_store; try exact A'; try exact B; try reflexivity; [apply (w_if _ W2 _ _ A')|].
    right; right; left. exists f, (fst v0, v1). split; [left; exact E|]. split; [cbn; apply upd_same; eapply nth_len; exact A0|reflexivity].
  - (* Solve *) unfold solve in H. inv_bind H. destruct (i_prob v) as [k|] eqn:E; [|discriminate H]. destruct (i_opt v) as [t|] eqn:Et; [|discriminate H].
    inv_bind H. pose proof (w_if _ W _ _ A) as Wv. apply store_but in A2. destruct A2 as [B _].
    assert (O1 : owns s v v1).
    { unfold sink in A1. destruct t as [j|j].
      - injection A1 as <-. right; left. exact Et.
      - inv_bind A1. injection A1 as <-. right; right; left. exists j, v3. split; [right; exact Et|]. split; [exact A2|reflexivity]. }
    destruct (fst a).
    + destruct (others k l v2) as [[r s2]| | | | | | |] eqn:Eo; try discriminate H. cbn [bind] in H. injection H as <-. apply others_but in Eo.
      (* both problem objects are v1 or k *)
      assert (X : act i s (put i v v2)) by (eapply act_store; try exact A; try exact B; try exact Wv; try exact O1; reflexivity).
      assert (Hv2 : at_ v2 i v). { destruct B as (_ & _ & _ & B4 & _). unfold at_. rewrite B4. exact A. }
      unfold put in X. rewrite (upd_id i (s_ifs v2) v Hv2) in X. replace (wifs (s_ifs v2) v2) with v2 in X by (destruct v2; reflexivity).
      eapply act_trans; [exact W|exact X|]. pose proof (act_wf _ _ _ W X) as W2.
      eapply act_store; try exact Hv2; try exact Eo; try reflexivity; [apply (w_if _ W2 _ _ Hv2)|left; exact E].
    + injection H as <-. eapply act_store; try exact A; try exact B; try exact Wv; try exact O1; reflexivity.
  - (* SetLin *) unfold setLinearizer in H. inv_bind H. destruct (i_prob v) as [k|] eqn:E; [|discriminate H]. injection H as <-. pose proof (w_if _ W _ _ A) as Wv.
    match goal with |- act _ _ (put _ ?y ?t) => set (y' := y); set (t' := t) end.
    assert (O : forall j, owns (put i y' t') y' j -> owns s v j).
    { intros j [B|[B|[B|(l & B & C)]]]; [left; cbn in B; congruence|right; left; exact B|right; right; left; exact B|].
      cbn in B. injection B as <-. cbn in C. rewrite nth_error_app2, Nat.sub_diag in C by lia. cbn in C. left. congruence. }
    exists v, y'. split; [exact A|]. split; [reflexivity|]. split; [|split; [|split; [|split]]].
    + unfold grow. cbn. rewrite app_length. cbn. repeat split; auto; try lia. intros l L. apply nth_error_app1. exact L.
    + split; cbn; auto.
    + split; [|split]; auto. intros l B. cbn in B. right. injection B as <-. lia.
    + intros j B. apply (w_owns _ _ Wv). apply O. exact B.
    + intros f B. apply (w_fpo _ _ Wv). exact B.
    + intros l B. cbn in B. injection B as <-. cbn. rewrite app_length. cbn. lia.
    + pose proof (w_trio _ _ Wv) as V. cbn. rewrite E in V. exact V.
  - (* SetStrong *) unfold setStrong in H. inv_bind H. injection H as <-.
    match goal with |- act _ _ (put _ ?y (wsbs ?w _)) => change (act i s (wsbs w (put i y s))) end. apply act_sbs.
    eapply act_put; try exact A; try reflexivity; [apply (w_if _ W _ _ A)|left; reflexivity].
  - unfold markHotStart in H. inv_bind H. pose proof (w_if _ W _ _ A) as Wv. destruct (i_sbs v); [|injection H as <-; eapply act_id; eassumption].
    inv_bind H. injection H as <-. apply act_sbs. eapply act_id; eassumption.
  - unfold unmarkHotStart in H. inv_bind H. pose proof (w_if _ W _ _ A) as Wv. destruct (i_sbs v); [|injection H as <-; eapply act_id; eassumption].
    inv_bind H. injection H as <-. apply act_sbs. eapply act_id; eassumption.
  - (* Copy *) unfold copy in H. inv_bind H. destruct (i_user v) as [u|] eqn:Eu; [|discriminate H]. inv_bind H. injection H as <-.
    match goal with |- adds _ (wifs (_ ++ [?y]) ?t) => set (y' := y); set (t' := t) end.
    assert (F : forall f, fpo y' f -> f = length (s_fps s)).
    { intros f [B|B]; cbn in B; [congruence|]. destruct (i_mode v); congruence. }
    assert (O : forall k, owns (wifs (s_ifs s ++ [y']) t') y' k -> k = length (s_probs s)).
    { intros k [B|[B|[(g & w & B & C & D)|(l & B & C)]]]; [cbn in B; congruence|cbn in B; destruct (i_mode v); congruence| |discriminate B].
      apply F in B. subst g. cbn in C. rewrite nth_error_app2, Nat.sub_diag in C by lia. cbn in C. injection C as <-. symmetry. exact D. }
    exists y'. split; [reflexivity|]. split; [|split; [|split; [|split]]].
    + unfold grow. cbn. rewrite !app_length. cbn. repeat split; auto; lia.
    + split; cbn; intros j L _; apply nth_error_app1; exact L.
    + split; [|split]; [intros k B; rewrite (O k B); right; lia|intros f B; rewrite (F f B); right; lia|intros l B; discriminate B].
    + intros k B. rewrite (O k B). cbn. rewrite app_length. cbn. lia.
    + intros f B. rewrite (F f B). cbn. rewrite app_length. cbn. lia.
    + intros l B. discriminate B.
    + cbn. split; [|destruct (i_mode v); auto]. exists (snd v1). rewrite nth_error_app2, Nat.sub_diag by lia. reflexivity.
  - (* Assign *) unfold assign in H. inv_bind H. destruct (Nat.eqb_spec i j) as [->|N].
    + injection H as <-. eapply act_id; [exact A|apply (w_if _ W _ _ A)].
    + destruct (i_user v0) as [u|] eqn:Eu.
      * inv_bind H. injection H as <-. eapply act_fresh; try exact A; try exact W; try reflexivity; cbn; [discriminate|auto].
      * injection H as <-. pose proof (w_if _ W _ _ A) as Wv.
        match goal with |- act _ _ (put _ ?y ?t) => set (y' := y) end.
        assert (F : forall f, fpo y' f -> fpo v f) by (intros f [B|B]; [discriminate B|right; exact B]).
        assert (O : forall k, owns s y' k -> owns s v k).
        { intros k [B|[B|[(f & g & B & C)|B]]]; [discriminate B|right; left; exact B|right; right; left; exists f, g; auto|right; right; right; exact B]. }
        exists v, y'. split; [exact A|]. split; [reflexivity|]. split; [unfold grow; cbn; repeat split; auto|]. split; [split; cbn; auto|]. split; [|split].
        -- split; [|split]; auto.
        -- intros k B. apply (w_owns _ _ Wv). apply O. exact B.
        -- intros f B. apply (w_fpo _ _ Wv). apply F. exact B.
        -- intros l B. apply (w_lin _ _ Wv). exact B.
        -- exact Logic.I.
  - (* Cuts *) unfold outerApproximation in H. inv_bind H. destruct v as [c s2]. cbn in H. injection H as <-. inv_bind A.
    pose proof (w_if _ W _ _ A0) as Wv. destruct (i_lin v) as [l|].
    + inv_bind A. injection A as _ <-. eapply act_id; eassumption.
    + inv_bind A. destruct (i_pat v2); [|discriminate A]. destruct (i_types v2); [|discriminate A]. cbv zeta in A.
      repeat match type of A with (if ?b then _ else _) = _ => destruct b; [discriminate A|] end. injection A as _ <-.
      destruct (i_pat v); [injection A2 as <-; exact (act_id _ _ _ A0 Wv)|]. eapply initJac_act; eassumption.
  - unfold linearRelaxation in H. inv_bind H. destruct v as [c s2]. cbn in H. injection H as <-. inv_bind A.
    pose proof (w_if _ W _ _ A0) as Wv. destruct (i_lin v) as [l|].
    + inv_bind A. injection A as _ <-. eapply act_id; eassumption.
    + inv_bind A. destruct (i_pat v3); [|discriminate A]. destruct (i_types v3); [|discriminate A]. destruct (Nat.eqb _ _); [|discriminate A]. injection A as _ <-.
      eapply initJac_act; eassumption.
Qed.
Lemma reach_wf s : reach U s -> wf s.
Proof.
  intros (l & H). revert H. generalize init_wf. generalize init as a. induction l as [|o l IH]; cbn; intros a W H; [congruence|].
  apply bind_ok in H. destruct H as (b & A & H). apply (IH b); [|exact H]. pose proof (exec_act _ _ _ W A) as X. destruct (target o); [eapply act_wf|eapply adds_wf]; eassumption.
Qed.
End S.
