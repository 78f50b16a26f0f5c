(** Proofs about the solver of MILP sub-problems. *)
From Verif Require Import Base Arr Smp_Model Smp_Spec.
#[local] Open Scope Q_scope.

(** ** Heaps *)
Lemma put_len {A} i (v : A) l : length (put i v l) = length l.
Proof. unfold put. destruct (Nat.ltb_spec i (length l)); [apply upd_length; assumption | reflexivity]. Qed.
Lemma put_same {A} i (v d : A) l : (i < length l)%nat -> nth i (put i v l) d = v.
Proof. intros L. unfold put. destruct (Nat.ltb_spec i (length l)); [|lia]. rewrite upd_nth by assumption. rewrite Nat.eqb_refl. reflexivity. Qed.
Lemma put_other {A} i j (v d : A) l : j <> i -> nth j (put i v l) d = nth j l d.
Proof.
  intros N. unfold put. destruct (Nat.ltb_spec i (length l)); [|reflexivity]. rewrite upd_nth by assumption.
  destruct (Nat.eqb_spec j i); [contradiction | reflexivity].
Qed.
Lemma snoc_old {A} j (v d : A) l : (j < length l)%nat -> nth j (l ++ [v]) d = nth j l d.
Proof. apply app_nth1. Qed.
Lemma snoc_new {A} (v d : A) l : nth (length l) (l ++ [v]) d = v.
Proof. rewrite app_nth2 by lia. rewrite Nat.sub_diag. reflexivity. Qed.
Lemma snoc_far {A} j (v d : A) l : (length l < j)%nat -> nth j (l ++ [v]) d = d.
Proof. intros. apply nth_overflow. rewrite app_length. cbn [length]. lia. Qed.
Lemma obj_lt w i s : obj_at w i s -> (i < length (subs w))%nat.
Proof. unfold obj_at. intros H. destruct (Nat.lt_ge_cases i (length (subs w))); [assumption|]. rewrite nth_overflow in H by assumption. discriminate. Qed.
Lemma alive_lt w h : alive w h -> (h < length (heap w))%nat.
Proof. unfold alive. intros H. destruct (Nat.lt_ge_cases h (length (heap w))); [assumption|]. rewrite nth_overflow in H by assumption. exfalso. apply H. reflexivity. Qed.
Lemma look_ok h m p : look h m = Ok p -> c_prob (nth h m dcell) = Some p.
Proof. unfold look. destruct (c_prob _); intros H; [injection H as ->; reflexivity | discriminate]. Qed.
Lemma look_some h m p : c_prob (nth h m dcell) = Some p -> look h m = Ok p.
Proof. intros H. unfold look. rewrite H. reflexivity. Qed.
(** Objects after a change of one of them. *)
Lemma obj_put m l i s j t : obj_at (mkWorld m (put i (Some s) l)) j t -> (j = i /\ t = s) \/ (j <> i /\ nth j l None = Some t).
Proof.
  unfold obj_at. cbn [subs]. intros H. destruct (Nat.eq_dec j i) as [-> | N].
  - left. split; [reflexivity|]. destruct (Nat.lt_ge_cases i (length l)).
    + rewrite put_same in H by assumption. congruence.
    + rewrite nth_overflow in H; [discriminate|]. rewrite put_len. assumption.
  - right. rewrite put_other in H by assumption. auto.
Qed.
Lemma obj_put_same w m i s s' : obj_at w i s -> obj_at (mkWorld m (put i (Some s') (subs w))) i s'.
Proof. intros H. apply obj_lt in H. unfold obj_at. cbn [subs]. apply put_same. assumption. Qed.
Lemma obj_put_other w m i v j t : j <> i -> obj_at w j t -> obj_at (mkWorld m (put i v (subs w))) j t.
Proof. intros N H. unfold obj_at. cbn [subs]. rewrite put_other by assumption. exact H. Qed.
Lemma obj_del m l i j t : obj_at (mkWorld m (put i None l)) j t -> j <> i /\ nth j l None = Some t.
Proof.
  unfold obj_at. cbn [subs]. intros H. destruct (Nat.eq_dec j i) as [-> | N].
  - destruct (Nat.lt_ge_cases i (length l)).
    + rewrite put_same in H by assumption. discriminate.
    + rewrite nth_overflow in H; [discriminate|]. rewrite put_len. assumption.
  - rewrite put_other in H by assumption. auto.
Qed.
Lemma obj_snoc m l s j t : obj_at (mkWorld m (l ++ [Some s])) j t -> (j = length l /\ t = s) \/ nth j l None = Some t.
Proof.
  unfold obj_at. cbn [subs]. intros H. destruct (Nat.lt_trichotomy j (length l)) as [L | [-> | L]].
  - rewrite snoc_old in H by assumption. auto.
  - rewrite snoc_new in H. left. split; congruence.
  - rewrite snoc_far in H by assumption. discriminate.
Qed.
Lemma obj_snoc_old w m v j t : obj_at w j t -> obj_at (mkWorld m (subs w ++ [v])) j t.
Proof. intros H. pose proof (obj_lt _ _ _ H). unfold obj_at. cbn [subs]. rewrite snoc_old by assumption. exact H. Qed.

(** ** What solving does to an object *)
Definition kept (s s' : sub) : Prop :=
  s_clp s' = s_clp s /\ s_own s' = s_own s /\ s_strat s' = s_strat s /\ (s_cpx s = None <-> s_cpx s' = None) /\ s_plan s' = s_plan s /\ s_gap s' = s_gap s.
Lemma kept_refl s : kept s s.
Proof. unfold kept. tauto. Qed.
Lemma kept_cbc n a s s' : after_cbc n a s = Ok s' -> kept s s'.
Proof. unfold after_cbc. intros H. apply bind_ok in H. destruct H as (x & _ & H). injection H as <-. unfold kept. cbn. tauto. Qed.
Lemma kept_cpx n a p par nd s s' : s_cpx s <> None -> after_cpx n a p par nd s = Ok s' -> kept s s'.
Proof. unfold after_cpx. intros N H. apply bind_ok in H. destruct H as (x & _ & H). injection H as <-. unfold kept. cbn. repeat split; try tauto; try discriminate. Qed.
Section Run.
Variable nd : bool.
Variable cbc : prob -> cbc_par -> cbc_ans.
Variable cplex : nat -> prob -> list row -> cpx_par -> cpx_ans.
Variable el : nat -> Q.
Notation find := (find_good_sol cbc cplex el).
Notation opt := (optimize nd cbc cplex).
Notation slv := (solve nd cbc cplex el).
Notation stp := (step nd cbc cplex el).
Notation rn := (run nd cbc cplex el).
Lemma kept_find f c t s m s' : find f c t s m = Ok s' -> kept s s'.
Proof.
  unfold find_good_sol. destruct (s_clp s) as [h|].
  - intros H. apply bind_ok in H. destruct H as (p & _ & H). eapply kept_cbc, H.
  - destruct (s_cpx s) as [[p par]|] eqn:E; [|discriminate]. intros H. apply bind_ok in H. destruct H as ([b par'] & _ & H).
    eapply kept_cpx, H. congruence.
Qed.
Lemma kept_opt c t s m s' : opt c t s m = Ok s' -> kept s s'.
Proof.
  unfold optimize. destruct (s_clp s) as [h|].
  - intros H. apply bind_ok in H. destruct H as (u & _ & H). apply bind_ok in H. destruct H as (p & _ & H). eapply kept_cbc, H.
  - destruct (s_cpx s) as [[p par]|] eqn:E; [|discriminate]. intros H. eapply kept_cpx, H. congruence.
Qed.
Lemma kept_solve f c t s m s' : slv f c t s m = Ok s' -> kept s s'.
Proof. unfold solve. destruct (s_plan s); [apply kept_find | apply kept_opt]. Qed.

(** ** Ownership *)
Record inv (w : world) : Prop := {
  i_ptr : forall i s h, obj_at w i s -> s_clp s = Some h ->
            (h < length (heap w))%nat /\ s_own s = negb (c_client (nth h (heap w) dcell)) /\ s_cpx s = None;
  i_str : forall i s, obj_at w i s -> s_cpx s = None -> s_strat s = true;
  i_own : forall i s, obj_at w i s -> s_own s = true -> exists h, s_clp s = Some h /\ alive w h;
  i_one : forall i j s t h, obj_at w i s -> obj_at w j t -> s_own s = true -> s_clp s = Some h -> s_clp t = Some h -> i = j;
  i_all : forall h, alive w h -> c_client (nth h (heap w) dcell) = false -> exists i s, obj_at w i s /\ s_own s = true /\ s_clp s = Some h
}.
Lemma inv_start : inv start.
Proof.
  split; unfold obj_at, alive, start; cbn.
  - intros [|i] s h H; discriminate.
  - intros [|i] s H; discriminate.
  - intros [|i] s H; discriminate.
  - intros [|i] j s t h H; discriminate.
  - intros [|h] H; cbn in H; congruence.
Qed.
Lemma inv_spec w : inv w -> C236_spec w.
Proof.
  intros I. split; [|split].
  - intros h A N. apply (i_all w I h A). unfold of_client in N. destruct (c_client _); [exfalso; apply N; reflexivity | reflexivity].
  - intros i s H O. destruct (i_own w I i s H O) as (h & E & A). exists h. repeat split; auto. intros C. unfold of_client in C.
    destruct (i_ptr w I i s h H E) as (_ & G & _). rewrite C, O in G. discriminate.
  - apply (i_one w I).
Qed.
(** A change of one object that keeps its LP. *)
Lemma inv_kept w i s s' : inv w -> obj_at w i s -> s_clp s' = s_clp s -> s_own s' = s_own s -> s_strat s' = s_strat s -> (s_cpx s = None <-> s_cpx s' = None) ->
  inv (mkWorld (heap w) (put i (Some s') (subs w))).
Proof.
  intros I H E1 E2 E3 E4.
  assert (Back : forall j t, obj_at (mkWorld (heap w) (put i (Some s') (subs w))) j t ->
            exists t0, obj_at w j t0 /\ s_clp t = s_clp t0 /\ s_own t = s_own t0 /\ s_strat t = s_strat t0 /\ (s_cpx t0 = None <-> s_cpx t = None)).
  { intros j t J. apply obj_put in J. destruct J as [[-> ->] | [N J]]; [exists s; auto | exists t; tauto]. }
  split.
  - intros j t h J C. destruct (Back j t J) as (t0 & J0 & F1 & F2 & F3 & F4). destruct (i_ptr w I j t0 h J0 ltac:(congruence)) as (A & B & D).
    cbn [heap]. split; [exact A|]. split; [congruence | tauto].
  - intros j t J C. destruct (Back j t J) as (t0 & J0 & F1 & F2 & F3 & F4). rewrite F3. apply (i_str w I j t0 J0). apply F4, C.
  - intros j t J O. destruct (Back j t J) as (t0 & J0 & F1 & F2 & _). destruct (i_own w I j t0 J0 ltac:(congruence)) as (h & A & B). exists h. split; [congruence | exact B].
  - intros j k t u h J K O A B. destruct (Back j t J) as (t0 & J0 & F1 & F2 & _). destruct (Back k u K) as (u0 & K0 & G1 & G2 & _).
    apply (i_one w I j k t0 u0 h); congruence.
  - intros h A C. destruct (i_all w I h A C) as (j & t & J & O & P). destruct (Nat.eq_dec j i) as [-> | N].
    + exists i, s'. assert (t = s) by (unfold obj_at in *; congruence). subst t. split; [eapply obj_put_same, H|]. split; congruence.
    + exists j, t. split; [apply obj_put_other; assumption|]. auto.
Qed.
(** A change of an LP that stays alive or is the client's. *)
Lemma inv_heap w h c : inv w -> (h < length (heap w))%nat -> c_client c = c_client (nth h (heap w) dcell) -> (c_client c = false -> (c_prob c <> None <-> alive w h)) ->
  inv (mkWorld (put h c (heap w)) (subs w)).
Proof.
  intros I L E P.
  assert (Cl : forall k, c_client (nth k (put h c (heap w)) dcell) = c_client (nth k (heap w) dcell)).
  { intros k. destruct (Nat.eq_dec k h) as [-> | N]; [rewrite put_same by assumption; exact E | rewrite put_other by assumption; reflexivity]. }
  assert (Al : forall k, c_client (nth k (heap w) dcell) = false -> (alive (mkWorld (put h c (heap w)) (subs w)) k <-> alive w k)).
  { intros k Ck. unfold alive. cbn [heap]. destruct (Nat.eq_dec k h) as [-> | N].
    - rewrite put_same by assumption. apply P. congruence.
    - rewrite put_other by assumption. tauto. }
  split.
  - intros i s k H C. destruct (i_ptr w I i s k H C) as (A & B & D). cbn [heap]. rewrite put_len, Cl. auto.
  - apply (i_str w I).
  - intros i s H O. destruct (i_own w I i s H O) as (k & A & B). exists k. split; [exact A|]. apply Al; [|exact B].
    destruct (i_ptr w I i s k H A) as (_ & D & _). rewrite O in D. symmetry in D. apply negb_true_iff in D. exact D.
  - apply (i_one w I).
  - intros k A C. cbn [heap] in C. rewrite Cl in C. apply Al in A; [|exact C]. apply (i_all w I k A C).
Qed.
(** A new object with no LP of its own. *)
Lemma inv_add w s : inv w -> s_own s = false ->
  (forall h, s_clp s = Some h -> (h < length (heap w))%nat /\ c_client (nth h (heap w) dcell) = true /\ s_cpx s = None) -> (s_cpx s = None -> s_strat s = true) ->
  inv (mkWorld (heap w) (subs w ++ [Some s])).
Proof.
  intros I O P S1. split.
  - intros i t h H C. apply obj_snoc in H. destruct H as [[_ ->] | H]; [|apply (i_ptr w I i t h H C)].
    destruct (P h C) as (A & B & D). cbn [heap]. rewrite O, B. auto.
  - intros i t H. apply obj_snoc in H. destruct H as [[_ ->] | H]; [exact S1 | apply (i_str w I i t H)].
  - intros i t H C. apply obj_snoc in H. destruct H as [[_ ->] | H]; [congruence | apply (i_own w I i t H C)].
  - intros i j t u h H K C A B. apply obj_snoc in H. destruct H as [[_ ->] | H]; [congruence|].
    apply obj_snoc in K. destruct K as [[_ ->] | K]; [|apply (i_one w I i j t u h H K C A B)].
    destruct (P h B) as (_ & D & _). destruct (i_ptr w I i t h H A) as (_ & G & _). rewrite D, C in G. discriminate.
  - intros h A C. destruct (i_all w I h A C) as (i & t & H & R). exists i, t. split; [apply obj_snoc_old, H | exact R].
Qed.
(** A new object with an LP of its own. *)
Lemma inv_add_own w s p : inv w -> s_own s = true -> s_clp s = Some (length (heap w)) -> s_strat s = true -> s_cpx s = None ->
  inv (mkWorld (heap w ++ [mkCell (Some p) false]) (subs w ++ [Some s])).
Proof.
  intros I O P S1 X.
  assert (Old : forall k, (k < length (heap w))%nat -> nth k (heap w ++ [mkCell (Some p) false]) dcell = nth k (heap w) dcell) by (intros; apply snoc_old; assumption).
  split.
  - intros i t h H C. apply obj_snoc in H. cbn [heap]. rewrite app_length. cbn [length]. destruct H as [[_ ->] | H].
    + rewrite P in C. injection C as <-. rewrite snoc_new. cbn. repeat split; auto. lia.
    + destruct (i_ptr w I i t h H C) as (A & B & D). rewrite Old by assumption. repeat split; auto. lia.
  - intros i t H. apply obj_snoc in H. destruct H as [[_ ->] | H]; [auto | apply (i_str w I i t H)].
  - intros i t H C. apply obj_snoc in H. destruct H as [[_ ->] | H].
    + exists (length (heap w)). split; [exact P|]. unfold alive. cbn [heap]. rewrite snoc_new. discriminate.
    + destruct (i_own w I i t H C) as (h & A & B). exists h. split; [exact A|]. unfold alive. cbn [heap]. rewrite Old by (eapply alive_lt, B). exact B.
  - intros i j t u h H K C A B. apply obj_snoc in H. apply obj_snoc in K.
    destruct H as [[-> ->] | H]; destruct K as [[-> ->] | K]; auto.
    + rewrite P in A. injection A as <-. destruct (i_ptr w I j u _ K B) as (L & _). lia.
    + rewrite P in B. injection B as <-. destruct (i_ptr w I i t _ H A) as (L & _). lia.
    + apply (i_one w I i j t u h H K C A B).
  - intros h A C. unfold alive in A. cbn [heap] in *. destruct (Nat.lt_trichotomy h (length (heap w))) as [L | [-> | L]].
    + rewrite Old in A, C by assumption. destruct (i_all w I h A C) as (i & t & H & R). exists i, t. split; [apply obj_snoc_old, H | exact R].
    + exists (length (subs w)), s. split; [unfold obj_at; cbn [subs]; apply snoc_new | auto].
    + rewrite snoc_far in C by assumption. discriminate.
Qed.
(** An object that had no LP of its own is destroyed. *)
Lemma inv_del w i s : inv w -> obj_at w i s -> s_own s = false -> inv (mkWorld (heap w) (put i None (subs w))).
Proof.
  intros I H O. split.
  - intros j t h J C. apply obj_del in J. apply (i_ptr w I j t h); tauto.
  - intros j t J. apply obj_del in J. apply (i_str w I j t); tauto.
  - intros j t J C. apply obj_del in J. apply (i_own w I j t); tauto.
  - intros j k t u h J K. apply obj_del in J. apply obj_del in K. apply (i_one w I j k t u h); tauto.
  - intros h A C. destruct (i_all w I h A C) as (j & t & J & P & R). exists j, t. split; [|auto]. apply obj_put_other; [|exact J].
    intros ->. unfold obj_at in *. congruence.
Qed.
(** An object's own LP is deleted and the object is gone or has none of its own any more. *)
Lemma inv_free w i s h c v : inv w -> obj_at w i s -> s_own s = true -> s_clp s = Some h -> c_prob c = None -> c_client c = false ->
  (v = None \/ exists s', v = Some s' /\ s_own s' = false /\
     (s_cpx s' = None -> s_strat s' = true) /\ forall k, s_clp s' = Some k -> (k < length (heap w))%nat /\ c_client (nth k (heap w) dcell) = true /\ s_cpx s' = None) ->
  inv (mkWorld (put h c (heap w)) (put i v (subs w))).
Proof.
  intros I H O C P Q1 V. destruct (i_ptr w I i s h H C) as (L & G & _). rewrite O in G. symmetry in G. apply negb_true_iff in G.
  assert (Cl : forall k, c_client (nth k (put h c (heap w)) dcell) = c_client (nth k (heap w) dcell)).
  { intros k. destruct (Nat.eq_dec k h) as [-> | N]; [rewrite put_same by assumption; congruence | rewrite put_other by assumption; reflexivity]. }
  assert (Back : forall j t, obj_at (mkWorld (put h c (heap w)) (put i v (subs w))) j t -> (j <> i /\ obj_at w j t) \/
            (j = i /\ s_own t = false /\ (s_cpx t = None -> s_strat t = true) /\ forall k, s_clp t = Some k -> (k < length (heap w))%nat /\ c_client (nth k (heap w) dcell) = true /\ s_cpx t = None)).
  { intros j t J. destruct V as [-> | (s' & -> & V)].
    - apply obj_del in J. left. exact J.
    - apply obj_put in J. destruct J as [[-> ->] | J]; [right; auto | left; exact J]. }
  split.
  - intros j t k J D. cbn [heap]. rewrite put_len, Cl. destruct (Back j t J) as [[N J0] | (-> & O' & T' & R)].
    + apply (i_ptr w I j t k J0 D).
    + destruct (R k D) as (A & B & E). rewrite O', B. auto.
  - intros j t J. destruct (Back j t J) as [[N J0] | (-> & O' & T' & R)]; [apply (i_str w I j t J0) | exact T'].
  - intros j t J D. destruct (Back j t J) as [[N J0] | (-> & O' & T' & R)]; [|congruence].
    destruct (i_own w I j t J0 D) as (k & A & B). exists k. split; [exact A|]. unfold alive. cbn [heap].
    rewrite put_other; [exact B|]. intros ->. apply N. apply (i_one w I j i t s h); assumption.
  - intros j k t u g J K D A B. destruct (Back j t J) as [[N J0] | (-> & O' & T' & R)]; [|congruence].
    destruct (Back k u K) as [[N' K0] | (-> & O'' & T' & R)]; [apply (i_one w I j k t u g); assumption|].
    destruct (R g B) as (_ & R' & _). destruct (i_ptr w I j t g J0 A) as (_ & G' & _). rewrite D, R' in G'. discriminate.
  - intros k A D. cbn [heap] in D. rewrite Cl in D. unfold alive in A. cbn [heap] in A. destruct (Nat.eq_dec k h) as [-> | N].
    + rewrite put_same in A by assumption. congruence.
    + rewrite put_other in A by assumption. destruct (i_all w I k A D) as (j & t & J & R1 & R2). exists j, t. split; [|auto].
      apply obj_put_other; [|exact J]. intros ->. unfold obj_at in *. congruence.
Qed.
Lemma on_ok i w f w' : on i w f = Ok w' -> (nth i (subs w) None = None /\ w' = w) \/ exists s, obj_at w i s /\ f s = Ok w'.
Proof. unfold on, obj_at. destruct (nth i (subs w) None) as [s|]; intros H; [right; exists s; auto | left; split; [reflexivity | congruence]]. Qed.
Lemma inv_copy w s i m s' : inv w -> obj_at w i s -> copy s (heap w) = Ok (m, s') -> inv (mkWorld m (subs w ++ [Some s'])).
Proof.
  intros I H E. unfold copy in E. destruct (s_clp s) as [h|] eqn:C.
  - destruct (i_ptr w I i s h H C) as (L & G & X). pose proof (i_str w I i s H X) as S1. rewrite X in E. destruct (s_own s) eqn:O.
    + apply bind_ok in E. destruct E as (p & _ & E). injection E as <- <-. apply inv_add_own; auto.
    + injection E as <- <-. apply inv_add; [exact I | reflexivity | | auto]. cbn. intros k K. injection K as <-. symmetry in G. apply negb_false_iff in G. auto.
  - injection E as <- <-. apply inv_add; [exact I | | cbn; intros; discriminate |].
    2: { cbn. destruct (s_cpx s) as [[q par]|] eqn:X; [discriminate|]. intros _. apply (i_str w I i s H X). }
    cbn. destruct (s_own s) eqn:O; [|reflexivity].
    destruct (i_own w I i s H O) as (h & A & _). congruence.
Qed.
Lemma free_ok h m m' : free h m = Ok m' -> m' = put h (mkCell None (c_client (nth h m dcell))) m /\ exists p, c_prob (nth h m dcell) = Some p.
Proof. unfold free. intros H. apply bind_ok in H. destruct H as (p & E & H). injection H as <-. split; [reflexivity|]. exists p. apply look_ok, E. Qed.
Lemma inv_destroy w s i m : inv w -> obj_at w i s -> destroy s (heap w) = Ok m -> inv (mkWorld m (put i None (subs w))).
Proof.
  intros I H E. unfold destroy in E. destruct (s_own s) eqn:O.
  - destruct (i_own w I i s H O) as (h & C & A). rewrite C in E. apply free_ok in E. destruct E as (-> & _).
    destruct (i_ptr w I i s h H C) as (_ & G & _). rewrite O in G. symmetry in G. apply negb_true_iff in G. rewrite G.
    eapply inv_free; eauto.
  - injection E as <-. eapply inv_del; eauto.
Qed.
Lemma inv_set w s i lp m s' : inv w -> obj_at w i s -> (forall h, lp = Some h -> c_client (nth h (heap w) dcell) = true /\ alive w h) ->
  set_lp nd lp s (heap w) = Ok (m, s') -> inv (mkWorld m (put i (Some s') (subs w))).
Proof.
  intros I H V E. unfold set_lp in E. destruct (s_cpx s) as [[q par]|] eqn:X.
  - destruct lp as [h|]; [|discriminate]. apply bind_ok in E. destruct E as (p & _ & E). injection E as <- <-.
    assert (C : s_clp s = None). { destruct (s_clp s) as [k|] eqn:K; [|reflexivity]. destruct (i_ptr w I i s k H K) as (_ & _ & G). congruence. }
    apply (inv_kept w i s); auto. cbn. rewrite X. split; discriminate.
  - pose proof (i_str w I i s H X) as S1. apply bind_ok in E. destruct E as (m1 & F & E). destruct (s_own s) eqn:O.
    + destruct (i_own w I i s H O) as (h & C & A). rewrite C in F. apply free_ok in F. destruct F as (-> & _).
      destruct (i_ptr w I i s h H C) as (_ & G & _). rewrite O in G. symmetry in G. apply negb_true_iff in G. rewrite G in E.
      destruct lp as [k|].
      * apply bind_ok in E. destruct E as (p & _ & E). injection E as <- <-. eapply inv_free; eauto. right. eexists. split; [reflexivity|].
        cbn. split; [reflexivity|]. split; [auto|]. intros k' K. injection K as <-. destruct (V k eq_refl) as (V1 & V2). split; [eapply alive_lt, V2|]. auto.
      * destruct nd; [|discriminate]. injection E as <- <-. eapply inv_free; eauto. right. eexists. split; [reflexivity|]. cbn. split; [reflexivity|]. split; [auto | intros; discriminate].
    + injection F as <-.
      assert (K : forall s', s_own s' = false -> (s_cpx s' = None -> s_strat s' = true) -> (forall h, s_clp s' = Some h -> (h < length (heap w))%nat /\ c_client (nth h (heap w) dcell) = true /\ s_cpx s' = None) ->
                inv (mkWorld (heap w) (put i (Some s') (subs w)))).
      { intros t T1 T3 T2. split.
        - intros j u h J C. apply obj_put in J. destruct J as [[-> ->] | [N J]]; [|apply (i_ptr w I j u h J C)]. destruct (T2 h C) as (A & B & G). cbn [heap]. rewrite T1, B. auto.
        - intros j u J. apply obj_put in J. destruct J as [[-> ->] | [N J]]; [exact T3 | apply (i_str w I j u J)].
        - intros j u J C. apply obj_put in J. destruct J as [[-> ->] | [N J]]; [congruence | apply (i_own w I j u J C)].
        - intros j k u v h J K C A B. apply obj_put in J. destruct J as [[-> ->] | [N J]]; [congruence|].
          apply obj_put in K. destruct K as [[-> ->] | [N' K]]; [|apply (i_one w I j k u v h J K C A B)].
          destruct (T2 h B) as (_ & G & _). destruct (i_ptr w I j u h J A) as (_ & G' & _). rewrite C, G in G'. discriminate.
        - intros h A C. destruct (i_all w I h A C) as (j & u & J & P & R). exists j, u. split; [|auto]. apply obj_put_other; [|exact J].
          intros ->. unfold obj_at in *. congruence. }
      destruct lp as [k|].
      * apply bind_ok in E. destruct E as (p & _ & E). injection E as <- <-. apply K; [reflexivity | auto |]. cbn. intros k' Y. injection Y as <-.
        destruct (V k eq_refl) as (V1 & V2). split; [eapply alive_lt, V2|]. auto.
      * destruct nd; [|discriminate]. injection E as <- <-. apply K; [reflexivity | auto |]. cbn. intros; discriminate.
Qed.
Lemma client_cell w h p : nth h (heap w) dcell = mkCell (Some p) true -> c_client (nth h (heap w) dcell) = true /\ alive w h /\ (h < length (heap w))%nat.
Proof. intros E. assert (A : alive w h) by (unfold alive; rewrite E; discriminate). rewrite E. repeat split; auto. eapply alive_lt, A. Qed.
Lemma inv_step w o w' : inv w -> stp w o = Ok w' -> inv w'.
Proof.
  intros I E. destruct o as [p|h p|h|cpx pl gap|i|i|i lp|i p|i f c t|i f c t|i c t]; cbn [step] in E.
  - injection E as <-. split.
    + intros i s h H C. destruct (i_ptr w I i s h H C) as (A & B & D). cbn [heap]. rewrite app_length. cbn [length]. rewrite snoc_old by assumption. repeat split; auto. lia.
    + apply (i_str w I).
    + intros i s H O. destruct (i_own w I i s H O) as (h & A & B). exists h. split; [exact A|]. unfold alive. cbn [heap]. rewrite snoc_old by (eapply alive_lt, B). exact B.
    + apply (i_one w I).
    + intros h A C. unfold alive in A. cbn [heap] in *. destruct (Nat.lt_trichotomy h (length (heap w))) as [L | [-> | L]].
      * rewrite snoc_old in A, C by assumption. apply (i_all w I h A C).
      * rewrite snoc_new in C. discriminate.
      * rewrite snoc_far in C by assumption. discriminate.
  - destruct (nth h (heap w) dcell) as [[q|] [|]] eqn:N; injection E as <-; try exact I.
    destruct (client_cell w h q N) as (A & B & L). apply inv_heap; cbn; [exact I | exact L | congruence | intros; discriminate].
  - destruct (nth h (heap w) dcell) as [[q|] [|]] eqn:N; injection E as <-; try exact I.
    destruct (client_cell w h q N) as (A & B & L). apply inv_heap; cbn; [exact I | exact L | congruence | intros; discriminate].
  - destruct cpx; cbn in E; injection E as <-.
    + apply inv_add; auto; cbn; intros; discriminate.
    + apply inv_add_own; auto.
  - apply on_ok in E. destruct E as [[_ ->] | (s & H & E)]; [exact I|]. apply bind_ok in E. destruct E as ([m s'] & E & F). injection F as <-. eapply inv_copy; eauto.
  - apply on_ok in E. destruct E as [[_ ->] | (s & H & E)]; [exact I|]. apply bind_ok in E. destruct E as (m & E & F). injection F as <-. eapply inv_destroy; eauto.
  - destruct lp as [h|].
    + destruct (nth h (heap w) dcell) as [[q|] [|]] eqn:N; try (injection E as <-; exact I).
      apply on_ok in E. destruct E as [[_ ->] | (s & H & E)]; [exact I|]. apply bind_ok in E. destruct E as ([m s'] & E & F). injection F as <-.
      eapply inv_set; eauto. intros k K. injection K as <-. destruct (client_cell w h q N) as (A & B & _). auto.
    + apply on_ok in E. destruct E as [[_ ->] | (s & H & E)]; [exact I|]. apply bind_ok in E. destruct E as ([m s'] & E & F). injection F as <-.
      eapply inv_set; eauto. intros k K. discriminate.
  - apply on_ok in E. destruct E as [[_ ->] | (s & H & E)]; [exact I|]. destruct (s_clp s) as [h|] eqn:C.
    + apply bind_ok in E. destruct E as (q & L & E). injection E as <-. destruct (i_ptr w I i s h H C) as (A & B & _). apply look_ok in L.
      apply inv_heap; auto. cbn. intros _. unfold alive. rewrite L. split; discriminate.
    + destruct (s_cpx s) as [[q par]|] eqn:X; [|discriminate]. injection E as <-. apply (inv_kept w i s); auto. cbn. rewrite X. split; discriminate.
  - apply on_ok in E. destruct E as [[_ ->] | (s & H & E)]; [exact I|]. apply bind_ok in E. destruct E as (s' & E & F). injection F as <-.
    apply kept_solve in E. destruct E as (A & B & C & D & _). apply (inv_kept w i s); auto.
  - apply on_ok in E. destruct E as [[_ ->] | (s & H & E)]; [exact I|]. apply bind_ok in E. destruct E as (s' & E & F). injection F as <-.
    apply kept_find in E. destruct E as (A & B & C & D & _). apply (inv_kept w i s); auto.
  - apply on_ok in E. destruct E as [[_ ->] | (s & H & E)]; [exact I|]. apply bind_ok in E. destruct E as (s' & E & F). injection F as <-.
    apply kept_opt in E. destruct E as (A & B & C & D & _). apply (inv_kept w i s); auto.
Qed.
Lemma inv_run ops : forall w w', inv w -> rn ops w = Ok w' -> inv w'.
Proof.
  induction ops as [|o r IH]; intros w w' I E; cbn [run] in E; [injection E as <-; exact I|].
  apply bind_ok in E. destruct E as (w1 & S1 & E). eapply IH; [|exact E]. eapply inv_step; eauto.
Qed.

(** ** No deleted LP is used *)
Lemma aset_oc {A} i (v : A) a : (exists b, aset i v a = Ok b /\ length b = length a) \/ aset i v a = OutOfBounds.
Proof.
  destruct (Nat.lt_ge_cases i (length a)) as [L|L]; [left | right; apply aset_oob, L].
  rewrite aset_ok by exact L. eexists. split; [reflexivity | apply upd_length, L].
Qed.
Lemma ablit_oc {A} (l : list A) : forall o a, (exists b, ablit o l a = Ok b /\ length b = length a) \/ (ablit o l a = OutOfBounds /\ (length a < o + length l)%nat).
Proof.
  induction l as [|v l IH]; intros o a; cbn [ablit]; [left; exists a; auto|].
  destruct (Nat.lt_ge_cases o (length a)) as [L|L].
  - rewrite aset_ok by exact L. cbn [bind]. destruct (IH (S o) (firstn o a ++ Some v :: skipn (S o) a)) as [(b & E & K) | (E & K)].
    + left. exists b. split; [exact E|]. rewrite K. apply upd_length, L.
    + right. split; [exact E|]. rewrite upd_length in K by exact L. cbn [length]. lia.
  - rewrite aset_oob by exact L. right. split; [reflexivity|]. cbn [length]. lia.
Qed.
Definition room (n : nat) (old : option (arr Q)) : nat := match old with Some a => length a | None => n end.
Lemma store_oc n x old : (exists b, store n x old = Ok (Some b) /\ length b = room n old) \/ (store n x old = OutOfBounds /\ (room n old < n)%nat).
Proof.
  unfold store, room. set (a := match old with Some a => a | None => fresh n end).
  assert (La : length a = match old with Some a => length a | None => n end) by (unfold a; destruct old; [reflexivity | apply fresh_length]).
  destruct (ablit_oc (firstn n x) 0 a) as [(b & -> & K) | (-> & K)]; cbn [bind].
  - left. exists b. split; [reflexivity | congruence].
  - right. split; [reflexivity|]. rewrite firstn_length in K. lia.
Qed.
Lemma get_mipx_oc n a old : (exists b, get_mipx n a old = Ok (Some b) /\ length b = room n old) \/ (get_mipx n a old = OutOfBounds /\ (room n old < n)%nat).
Proof.
  unfold get_mipx. destruct (x_x a); [apply store_oc|]. left. eexists. split; [reflexivity|]. unfold room. destruct old; [reflexivity | apply fresh_length].
Qed.
(** The outcome of a solve, and the array it leaves. *)
Definition good_sol (n : nat) (s s' : sub) : Prop := forall a, s_sol s' = Some a -> length a = room n (s_sol s).
Lemma after_cbc_oc n a s : (exists s', after_cbc n a s = Ok s' /\ good_sol n s s') \/ (after_cbc n a s = OutOfBounds /\ (room n (s_sol s) < n)%nat).
Proof.
  unfold after_cbc. destruct (a_sols a).
  - left. cbn [bind]. eexists. split; [reflexivity|]. intros b B. discriminate.
  - destruct (store_oc n (a_best a) (s_sol s)) as [(b & -> & K) | (-> & K)]; cbn [bind]; [left | right; auto].
    eexists. split; [reflexivity|]. intros c C. cbn in C. injection C as <-. exact K.
Qed.
Lemma after_cpx_oc n a p par k s : (exists s', after_cpx n a p par k s = Ok s' /\ good_sol n s s' /\ exists par', s_cpx s' = Some (p, par')) \/ (after_cpx n a p par k s = OutOfBounds /\ (room n (s_sol s) < n)%nat).
Proof.
  unfold after_cpx. destruct (is_infeasible (x_stat a)).
  - left. cbn [bind]. eexists. split; [reflexivity|]. split; [intros b B; discriminate | eexists; reflexivity].
  - destruct (get_mipx_oc n a (s_sol s)) as [(b & -> & K) | (-> & K)]; cbn [bind]; [left | right; auto].
    eexists. split; [reflexivity|]. split; [intros c C; cbn in C; injection C as <-; exact K | eexists; reflexivity].
Qed.
Lemma more_oc f : forall k p par t ty a, (exists b par', more cplex el f k p par t ty a = Ok (b, par')) \/ more cplex el f k p par t ty a = Diverges.
Proof.
  induction f as [|f IH]; intros k p par t ty a; cbn [more]; [right; reflexivity|].
  destruct (_ && _); [apply IH | left; eexists; eexists; reflexivity].
Qed.
(** [fine s m]: the LP of the object is there. *)
Definition there (s : sub) (m : list cell) : Prop := forall h, s_clp s = Some h -> c_prob (nth h m dcell) <> None.
Definition enough (s : sub) (m : list cell) : Prop := forall p a, problem_of s m p -> s_sol s = Some a -> (ncols p <= length a)%nat.
Definition next_sol (s : sub) (m : list cell) (s' : sub) : Prop := forall p a, problem_of s m p -> problem_of s' m p /\ (s_sol s' = Some a -> length a = room (ncols p) (s_sol s)).
Lemma enough_room s m p : enough s m -> problem_of s m p -> ~ (room (ncols p) (s_sol s) < ncols p)%nat.
Proof. intros H P. unfold room. destruct (s_sol s) as [a|] eqn:E; [|lia]. pose proof (H p a P E). lia. Qed.
Lemma find_oc f c t s m : there s m ->
  (exists s', find f c t s m = Ok s' /\ next_sol s m s') \/ (find f c t s m = OutOfBounds /\ ~ enough s m) \/ find f c t s m = Thrown \/ find f c t s m = Diverges.
Proof.
  intros T. unfold find_good_sol. destruct (s_clp s) as [h|] eqn:C.
  - specialize (T h C). destruct (c_prob (nth h m dcell)) as [p|] eqn:E; [|congruence]. rewrite (look_some _ _ _ E). cbn [bind].
    destruct (after_cbc_oc (ncols p) (cbc p (mkCbcPar c t true None)) s) as [(s' & F & G) | (F & G)]; rewrite F.
    + left. exists s'. split; [reflexivity|]. apply kept_cbc in F. intros q a P. unfold problem_of in *. destruct F as (F & _). rewrite F, C in *. split; [exact P|].
      assert (q = p) by congruence. subst q. apply G.
    + right. left. split; [reflexivity|]. intros H. apply (enough_room s m p H); [unfold problem_of; rewrite C; exact E | exact G].
  - destruct (s_cpx s) as [[p par]|] eqn:X; [|right; right; left; reflexivity]. cbv zeta.
    match goal with |- context [more cplex el f 0 p ?r t ?y ?a] => destruct (more_oc f 0%nat p r t y a) as [(b & par' & E) | E]; rewrite E; cbn [bind] end; [|right; right; right; reflexivity].
    match goal with |- context [after_cpx ?n ?a ?q ?r ?k s] => destruct (after_cpx_oc n a q r k s) as [(s' & F & G & par2 & K) | (F & G)]; rewrite F end.
    + left. exists s'. split; [reflexivity|]. apply kept_cpx in F; [|congruence]. destruct F as (F & _). intros q a P. unfold problem_of in *. rewrite F, C in *. destruct P as (r & P).
      assert (q = p) by congruence. subst q. split; [eexists; exact K | apply G].
    + right. left. split; [reflexivity|]. intros H. apply (enough_room s m p H); [unfold problem_of; rewrite C; eexists; exact X | exact G].
Qed.
Lemma opt_oc c t s m : there s m ->
  (exists s', opt c t s m = Ok s' /\ next_sol s m s') \/ (opt c t s m = OutOfBounds /\ ~ enough s m) \/ opt c t s m = Thrown \/
  ((opt c t s m = NullDeref \/ opt c t s m = AssertFail) /\ s_clp s <> None /\ s_strat s = false).
Proof.
  intros T. unfold optimize. destruct (s_clp s) as [h|] eqn:C.
  - destruct (s_strat s) eqn:S1; cbn [bind].
    2: { right. right. right. split; [destruct nd; cbn [bind]; auto | split; [discriminate | reflexivity]]. }
    specialize (T h C). destruct (c_prob (nth h m dcell)) as [p|] eqn:E; [|congruence]. rewrite (look_some _ _ _ E). cbn [bind].
    destruct (after_cbc_oc (ncols p) (cbc p (mkCbcPar c t false (Some (s_gap s)))) s) as [(s' & F & G) | (F & G)]; rewrite F.
    + left. exists s'. split; [reflexivity|]. apply kept_cbc in F. intros q a P. unfold problem_of in *. destruct F as (F & _). rewrite F, C in *. split; [exact P|].
      assert (q = p) by congruence. subst q. apply G.
    + right. left. split; [reflexivity|]. intros H. apply (enough_room s m p H); [unfold problem_of; rewrite C; exact E | exact G].
  - destruct (s_cpx s) as [[p par]|] eqn:X; [|right; right; left; reflexivity]. cbv zeta.
    match goal with |- context [after_cpx ?n ?a ?q ?r ?k s] => destruct (after_cpx_oc n a q r k s) as [(s' & F & G & par2 & K) | (F & G)]; rewrite F end.
    + left. exists s'. split; [reflexivity|]. apply kept_cpx in F; [|congruence]. destruct F as (F & _). intros q a P. unfold problem_of in *. rewrite F, C in *. destruct P as (r & P).
      assert (q = p) by congruence. subst q. split; [eexists; exact K | apply G].
    + right. left. split; [reflexivity|]. intros H. apply (enough_room s m p H); [unfold problem_of; rewrite C; eexists; exact X | exact G].
Qed.
(** [live w]: every LP that an object uses is there. *)
Definition live (w : world) : Prop := forall i s, obj_at w i s -> there s (heap w).
Lemma live_at w i s h : live w -> obj_at w i s -> s_clp s = Some h -> exists p, look h (heap w) = Ok p.
Proof. intros L H C. specialize (L i s H h C). destruct (c_prob (nth h (heap w) dcell)) as [p|] eqn:E; [|congruence]. exists p. apply look_some, E. Qed.
Lemma on_bad {o : outcome world} i w f : on i w f = o -> (forall w', o <> Ok w') -> exists s, obj_at w i s /\ f s = o.
Proof. unfold on, obj_at. destruct (nth i (subs w) None) as [s|]; intros E N; [exists s; auto | exfalso; apply (N w); congruence]. Qed.
Lemma bind_bad {A B} (x : outcome A) (f : A -> outcome B) o : bind x f = o -> (exists a, x = Ok a /\ f a = o) \/ (forall a, x <> Ok a).
Proof. destruct x; cbn; intros; [left; eauto | right; intros; discriminate ..]. Qed.
Lemma own_or_not w i s : inv w -> obj_at w i s -> live w -> exists m1, (if s_own s then match s_clp s with Some h => free h (heap w) | None => Ok (heap w) end else Ok (heap w)) = Ok m1 /\
  (forall k, c_client (nth k (heap w) dcell) = true -> nth k m1 dcell = nth k (heap w) dcell) /\
  (forall k, s_own s = false \/ s_clp s <> Some k -> nth k m1 dcell = nth k (heap w) dcell).
Proof.
  intros I H L. destruct (s_own s) eqn:O; [|exists (heap w); auto]. destruct (i_own w I i s H O) as (h & C & A). rewrite C.
  destruct (live_at w i s h L H C) as (p & E). unfold free. rewrite E. cbn [bind]. eexists. split; [reflexivity|].
  destruct (i_ptr w I i s h H C) as (_ & G & _). rewrite O in G. symmetry in G. apply negb_true_iff in G.
  split; intros k K; apply put_other; [congruence | destruct K; congruence].
Qed.
Lemma step_not_dangling w o : inv w -> live w -> stp w o <> Dangling.
Proof.
  intros I L E. destruct o as [p|h p|h|cpx pl gap|i|i|i lp|i p|i f c t|i f c t|i c t]; cbn [step] in E.
  - discriminate.
  - destruct (nth h (heap w) dcell) as [[q|] [|]]; discriminate.
  - destruct (nth h (heap w) dcell) as [[q|] [|]]; discriminate.
  - destruct cpx; discriminate.
  - apply on_bad in E; [|discriminate]. destruct E as (s & H & E). unfold copy in E. destruct (s_clp s) as [h|] eqn:C; [|discriminate].
    destruct (s_own s); [|discriminate]. destruct (live_at w i s h L H C) as (p & F). rewrite F in E. discriminate.
  - apply on_bad in E; [|discriminate]. destruct E as (s & H & E). unfold destroy in E. destruct (own_or_not w i s I H L) as (m1 & F & _).
    rewrite F in E. discriminate.
  - assert (K : forall s lp, obj_at w i s -> (forall h, lp = Some h -> exists q, nth h (heap w) dcell = mkCell (Some q) true) -> set_lp nd lp s (heap w) <> Dangling).
    { intros s lp' H V X. unfold set_lp in X. destruct (s_cpx s) as [[q par]|].
      - destruct lp' as [h|]; [|discriminate]. destruct (V h eq_refl) as (q' & N). unfold look in X. rewrite N in X. discriminate.
      - destruct (own_or_not w i s I H L) as (m1 & F & M & _). rewrite F in X. cbn [bind] in X. destruct lp' as [h|].
        + destruct (V h eq_refl) as (q' & N). unfold look in X. rewrite M in X by (rewrite N; reflexivity). rewrite N in X. discriminate.
        + destruct nd; discriminate. }
    destruct lp as [h|].
    + destruct (nth h (heap w) dcell) as [[q|] [|]] eqn:N; try discriminate. apply on_bad in E; [|discriminate]. destruct E as (s & H & E).
      destruct (set_lp nd (Some h) s (heap w)) as [[m s']| | | | | | |] eqn:X; try discriminate. apply (K s (Some h) H); [|exact X]. intros k Y. injection Y as <-. eauto.
    + apply on_bad in E; [|discriminate]. destruct E as (s & H & E).
      destruct (set_lp nd None s (heap w)) as [[m s']| | | | | | |] eqn:X; try discriminate. apply (K s None H); [|exact X]. intros; discriminate.
  - apply on_bad in E; [|discriminate]. destruct E as (s & H & E). destruct (s_clp s) as [h|] eqn:C.
    + destruct (live_at w i s h L H C) as (q & F). rewrite F in E. discriminate.
    + destruct (s_cpx s) as [[q par]|]; discriminate.
  - apply on_bad in E; [|discriminate]. destruct E as (s & H & E). specialize (L i s H). unfold solve in E. destruct (s_plan s).
    + destruct (find_oc f c t s (heap w) L) as [(s' & F & _) | [(F & _) | [F | F]]]; rewrite F in E; discriminate.
    + destruct (opt_oc c t s (heap w) L) as [(s' & F & _) | [(F & _) | [F | ([F | F] & _)]]]; rewrite F in E; discriminate.
  - apply on_bad in E; [|discriminate]. destruct E as (s & H & E). specialize (L i s H).
    destruct (find_oc f c t s (heap w) L) as [(s' & F & _) | [(F & _) | [F | F]]]; rewrite F in E; discriminate.
  - apply on_bad in E; [|discriminate]. destruct E as (s & H & E). specialize (L i s H).
    destruct (opt_oc c t s (heap w) L) as [(s' & F & _) | [(F & _) | [F | ([F | F] & _)]]]; rewrite F in E; discriminate.
Qed.
(** What a step does to the LPs. *)
Lemma set_shape lp s w i m s' : inv w -> obj_at w i s -> live w -> set_lp nd lp s (heap w) = Ok (m, s') ->
  (forall k, c_client (nth k (heap w) dcell) = true -> nth k m dcell = nth k (heap w) dcell) /\
  (forall k, s_own s = false \/ s_clp s <> Some k -> nth k m dcell = nth k (heap w) dcell) /\ (forall h, s_clp s' = Some h -> lp = Some h) /\ s_sol s' = None.
Proof.
  intros I H L E. unfold set_lp in E. destruct (s_cpx s) as [[q par]|].
  - destruct lp as [h|]; [|discriminate]. apply bind_ok in E. destruct E as (p & _ & E). injection E as <- <-. cbn. repeat split; auto. intros; discriminate.
  - destruct (own_or_not w i s I H L) as (m1 & F & M1 & M2). rewrite F in E. cbn [bind] in E. destruct lp as [h|].
    + apply bind_ok in E. destruct E as (p & _ & E). injection E as <- <-. cbn. repeat split; auto.
    + destruct nd; [|discriminate]. injection E as <- <-. cbn. repeat split; auto.
Qed.
Lemma live_step w o w' : inv w -> live w -> (match o with CDelete h => forall i s, obj_at w i s -> s_clp s <> Some h | _ => True end) -> stp w o = Ok w' -> live w'.
Proof.
  intros I L Cf E. destruct o as [p|h p|h|cpx pl gap|i|i|i lp|i p|i f c t|i f c t|i c t]; cbn [step] in E.
  - injection E as <-. intros i s H h C. cbn [heap]. rewrite snoc_old; [apply (L i s H h C)|]. apply (i_ptr w I i s h H C).
  - destruct (nth h (heap w) dcell) as [[q|] [|]] eqn:N; injection E as <-; try exact L. intros i s H k C. cbn [heap].
    destruct (Nat.eq_dec k h) as [-> | D]; [rewrite put_same; [discriminate | apply (i_ptr w I i s h H C)] | rewrite put_other by assumption; apply (L i s H k C)].
  - destruct (nth h (heap w) dcell) as [[q|] [|]] eqn:N; injection E as <-; try exact L. intros i s H k C. cbn [heap].
    rewrite put_other; [apply (L i s H k C)|]. intros ->. apply (Cf i s H C).
  - destruct cpx; cbn in E; injection E as <-.
    + intros i s H h C. apply obj_snoc in H. destruct H as [[_ ->] | H]; [discriminate | apply (L i s H h C)].
    + intros i s H h C. cbn [heap]. apply obj_snoc in H. destruct H as [[_ ->] | H].
      * injection C as <-. rewrite snoc_new. discriminate.
      * rewrite snoc_old; [apply (L i s H h C) | apply (i_ptr w I i s h H C)].
  - apply on_ok in E. destruct E as [[_ ->] | (s & H & E)]; [exact L|]. apply bind_ok in E. destruct E as ([m s'] & E & F). injection F as <-. unfold copy in E.
    destruct (s_clp s) as [h|] eqn:C.
    + destruct (s_own s).
      * apply bind_ok in E. destruct E as (p & _ & E). injection E as <- <-. intros j t J k K. cbn [heap]. apply obj_snoc in J. destruct J as [[_ ->] | J].
        -- injection K as <-. rewrite snoc_new. discriminate.
        -- rewrite snoc_old; [apply (L j t J k K) | apply (i_ptr w I j t k J K)].
      * injection E as <- <-. intros j t J k K. cbn [heap]. apply obj_snoc in J. destruct J as [[_ ->] | J]; [|apply (L j t J k K)]. apply (L i s H). cbn in K. congruence.
    + injection E as <- <-. intros j t J k K. apply obj_snoc in J. destruct J as [[_ ->] | J]; [discriminate | apply (L j t J k K)].
  - apply on_ok in E. destruct E as [[_ ->] | (s & H & E)]; [exact L|]. apply bind_ok in E. destruct E as (m & E & F). injection F as <-. unfold destroy in E.
    destruct (own_or_not w i s I H L) as (m1 & F & _ & M2). rewrite F in E. injection E as <-. intros j t J k K. apply obj_del in J. destruct J as [N J]. cbn [heap].
    rewrite M2; [apply (L j t J k K)|]. destruct (s_own s) eqn:O; [right | left; reflexivity]. intros C. apply N. symmetry. apply (i_one w I i j s t k); auto.
  - assert (Go : forall lp, (forall h, lp = Some h -> exists q, nth h (heap w) dcell = mkCell (Some q) true) -> forall s m s', obj_at w i s -> set_lp nd lp s (heap w) = Ok (m, s') -> live (mkWorld m (put i (Some s') (subs w)))).
    { intros lp' V s m s' H X. destruct (set_shape lp' s w i m s' I H L X) as (M1 & M2 & M3 & _). intros j t J k K. cbn [heap]. apply obj_put in J. destruct J as [[-> ->] | [N J]].
      - destruct (V k (M3 k K)) as (q & Y). rewrite M1 by (rewrite Y; reflexivity). rewrite Y. discriminate.
      - rewrite M2; [apply (L j t J k K)|]. destruct (s_own s) eqn:O; [right | left; reflexivity]. intros C. apply N. symmetry. apply (i_one w I i j s t k); auto. }
    destruct lp as [h|].
    + destruct (nth h (heap w) dcell) as [[q|] [|]] eqn:N; try (injection E as <-; exact L).
      apply on_ok in E. destruct E as [[_ ->] | (s & H & E)]; [exact L|]. apply bind_ok in E. destruct E as ([m s'] & E & F). injection F as <-.
      eapply Go; eauto. intros k K. injection K as <-. eauto.
    + apply on_ok in E. destruct E as [[_ ->] | (s & H & E)]; [exact L|]. apply bind_ok in E. destruct E as ([m s'] & E & F). injection F as <-.
      eapply (Go None); eauto; intros; discriminate.
  - apply on_ok in E. destruct E as [[_ ->] | (s & H & E)]; [exact L|]. destruct (s_clp s) as [h|] eqn:C.
    + apply bind_ok in E. destruct E as (q & _ & E). injection E as <-. intros j u J k K. cbn [heap].
      destruct (Nat.eq_dec k h) as [-> | D]; [rewrite put_same; [discriminate | apply (i_ptr w I i s h H C)] | rewrite put_other by assumption; apply (L j u J k K)].
    + destruct (s_cpx s) as [[q par]|]; [|discriminate]. injection E as <-. intros j u J k K. apply obj_put in J. destruct J as [[-> ->] | [N J]]; [discriminate | apply (L j u J k K)].
  - apply on_ok in E. destruct E as [[_ ->] | (s & H & E)]; [exact L|]. apply bind_ok in E. destruct E as (s' & E & F). injection F as <-.
    apply kept_solve in E. destruct E as (A & _). intros j u J k K. cbn [heap]. apply obj_put in J. destruct J as [[-> ->] | [N J]]; [apply (L i s H); congruence | apply (L j u J k K)].
  - apply on_ok in E. destruct E as [[_ ->] | (s & H & E)]; [exact L|]. apply bind_ok in E. destruct E as (s' & E & F). injection F as <-.
    apply kept_find in E. destruct E as (A & _). intros j u J k K. cbn [heap]. apply obj_put in J. destruct J as [[-> ->] | [N J]]; [apply (L i s H); congruence | apply (L j u J k K)].
  - apply on_ok in E. destruct E as [[_ ->] | (s & H & E)]; [exact L|]. apply bind_ok in E. destruct E as (s' & E & F). injection F as <-.
    apply kept_opt in E. destruct E as (A & _). intros j u J k K. cbn [heap]. apply obj_put in J. destruct J as [[-> ->] | [N J]]; [apply (L i s H); congruence | apply (L j u J k K)].
Qed.
Lemma live_start : live start.
Proof. intros [|i] s H; discriminate. Qed.
Lemma careful_run ops : forall w, inv w -> live w -> careful nd cbc cplex el ops w -> rn ops w <> Dangling.
Proof.
  induction ops as [|o r IH]; intros w I L C E; cbn [run] in E; [discriminate|]. destruct C as [C1 C2].
  destruct (stp w o) as [w1| | | | | | |] eqn:S1; cbn [bind] in E; try discriminate.
  - apply (IH w1); [eapply inv_step; eauto | eapply live_step; eauto | apply C2; reflexivity | exact E].
  - exact (step_not_dangling w o I L S1).
Qed.

(** ** The array of the solution is large enough *)
Definition roomy (w : world) : Prop := forall i s, obj_at w i s -> enough s (heap w).
Lemma problem_fun s m p q : problem_of s m p -> problem_of s m q -> p = q.
Proof. unfold problem_of. destruct (s_clp s); [congruence|]. intros (r & A) (r' & B). congruence. Qed.
Lemma find_problem f c t s m s' : find f c t s m = Ok s' -> exists p, problem_of s m p.
Proof.
  unfold find_good_sol, problem_of. destruct (s_clp s) as [h|].
  - intros H. apply bind_ok in H. destruct H as (p & E & _). exists p. apply look_ok, E.
  - destruct (s_cpx s) as [[p par]|]; [|discriminate]. intros _. eauto.
Qed.
Lemma opt_problem c t s m s' : opt c t s m = Ok s' -> exists p, problem_of s m p.
Proof.
  unfold optimize, problem_of. destruct (s_clp s) as [h|].
  - intros H. apply bind_ok in H. destruct H as (u & _ & H). apply bind_ok in H. destruct H as (p & E & _). exists p. apply look_ok, E.
  - destruct (s_cpx s) as [[p par]|]; [|discriminate]. intros _. eauto.
Qed.
Lemma there_problem s m p : problem_of s m p -> there s m.
Proof. unfold problem_of, there. intros P h C. rewrite C in P. congruence. Qed.
Lemma find_next f c t s m s' : find f c t s m = Ok s' -> next_sol s m s'.
Proof.
  intros E. destruct (find_problem _ _ _ _ _ _ E) as (p & P).
  destruct (find_oc f c t s m (there_problem _ _ _ P)) as [(s2 & F & G) | [(F & _) | [F | F]]]; rewrite F in E; try discriminate. injection E as <-. exact G.
Qed.
Lemma opt_next c t s m s' : opt c t s m = Ok s' -> next_sol s m s'.
Proof.
  intros E. destruct (opt_problem _ _ _ _ _ E) as (p & P).
  destruct (opt_oc c t s m (there_problem _ _ _ P)) as [(s2 & F & G) | [(F & _) | [F | ([F | F] & _)]]]; rewrite F in E; try discriminate. injection E as <-. exact G.
Qed.
Lemma enough_next s m s' : enough s m -> (exists p, problem_of s m p) -> next_sol s m s' -> enough s' m.
Proof.
  intros N (p & P) X q a Y A. destruct (X p a P) as (P' & R). pose proof (problem_fun _ _ _ _ Y P'). subst q. specialize (R A).
  pose proof (enough_room s m p N P). lia.
Qed.
Lemma dead_or_there s m : (exists h, s_clp s = Some h /\ look h m = Dangling) \/ there s m.
Proof.
  unfold there, look. destruct (s_clp s) as [h|]; [|right; intros; discriminate].
  destruct (c_prob (nth h m dcell)) eqn:E; [right; intros k K; injection K as <-; congruence | left; exists h; split; [reflexivity | rewrite E; reflexivity]].
Qed.
Lemma find_not_oob f c t s m : enough s m -> find f c t s m <> OutOfBounds.
Proof.
  intros N E. destruct (dead_or_there s m) as [(h & C & K) | T].
  - unfold find_good_sol in E. rewrite C, K in E. discriminate.
  - destruct (find_oc f c t s m T) as [(s2 & F & G) | [(F & X) | [F | F]]]; rewrite F in E; try discriminate. contradiction.
Qed.
Lemma opt_not_oob c t s m : enough s m -> opt c t s m <> OutOfBounds.
Proof.
  intros N E. destruct (dead_or_there s m) as [(h & C & K) | T].
  - unfold optimize in E. rewrite C, K in E. destruct (s_strat s); [discriminate|]. destruct nd; discriminate.
  - destruct (opt_oc c t s m T) as [(s2 & F & G) | [(F & X) | [F | ([F | F] & _)]]]; rewrite F in E; try discriminate. contradiction.
Qed.
Lemma free_not_oob h m : free h m <> OutOfBounds.
Proof. unfold free, look. destruct (c_prob (nth h m dcell)); discriminate. Qed.
Lemma set_not_oob lp s m : set_lp nd lp s m <> OutOfBounds.
Proof.
  unfold set_lp. intros E. destruct (s_cpx s) as [[q par]|].
  - destruct lp as [h|]; [|discriminate]. unfold look in E. destruct (c_prob (nth h m dcell)); discriminate.
  - assert (F : (if s_own s then match s_clp s with Some h => free h m | None => Ok m end else Ok m) <> OutOfBounds).
    { destruct (s_own s); [|discriminate]. destruct (s_clp s); [apply free_not_oob | discriminate]. }
    destruct (if s_own s then match s_clp s with Some h => free h m | None => Ok m end else Ok m) as [m1| | | | | | |]; try discriminate; [|congruence].
    cbn [bind] in E. destruct lp as [h|]; [unfold look in E; destruct (c_prob (nth h m1 dcell)); discriminate | destruct nd; discriminate].
Qed.
Lemma step_not_oob w o : roomy w -> stp w o <> OutOfBounds.
Proof.
  intros R E. destruct o as [p|h p|h|cpx pl gap|i|i|i lp|i p|i f c t|i f c t|i c t]; cbn [step] in E.
  - discriminate.
  - destruct (nth h (heap w) dcell) as [[q|] [|]]; discriminate.
  - destruct (nth h (heap w) dcell) as [[q|] [|]]; discriminate.
  - destruct cpx; discriminate.
  - apply on_bad in E; [|discriminate]. destruct E as (s & H & E). unfold copy in E. destruct (s_clp s) as [h|] eqn:C; [|discriminate].
    destruct (s_own s); [|discriminate]. unfold look in E. destruct (c_prob (nth h (heap w) dcell)); discriminate.
  - apply on_bad in E; [|discriminate]. destruct E as (s & H & E). unfold destroy in E. destruct (s_own s); [|discriminate]. destruct (s_clp s) as [h|]; [|discriminate].
    destruct (free h (heap w)) eqn:F; try discriminate. exact (free_not_oob _ _ F).
  - assert (K : forall s lp, set_lp nd lp s (heap w) <> OutOfBounds) by (intros; apply set_not_oob).
    destruct lp as [h|].
    + destruct (nth h (heap w) dcell) as [[q|] [|]]; try discriminate. apply on_bad in E; [|discriminate]. destruct E as (s & H & E).
      specialize (K s (Some h)). destruct (set_lp nd (Some h) s (heap w)) as [[m s']| | | | | | |]; try discriminate. congruence.
    + apply on_bad in E; [|discriminate]. destruct E as (s & H & E). specialize (K s None). destruct (set_lp nd None s (heap w)) as [[m s']| | | | | | |]; try discriminate. congruence.
  - apply on_bad in E; [|discriminate]. destruct E as (s & H & E). destruct (s_clp s) as [h|].
    + unfold look in E. destruct (c_prob (nth h (heap w) dcell)); discriminate.
    + destruct (s_cpx s) as [[q par]|]; discriminate.
  - apply on_bad in E; [|discriminate]. destruct E as (s & H & E). specialize (R i s H). unfold solve in E. destruct (s_plan s).
    + pose proof (find_not_oob f c t s (heap w) R). destruct (find f c t s (heap w)); try discriminate. congruence.
    + pose proof (opt_not_oob c t s (heap w) R). destruct (opt c t s (heap w)); try discriminate. congruence.
  - apply on_bad in E; [|discriminate]. destruct E as (s & H & E). specialize (R i s H).
    pose proof (find_not_oob f c t s (heap w) R). destruct (find f c t s (heap w)); try discriminate. congruence.
  - apply on_bad in E; [|discriminate]. destruct E as (s & H & E). specialize (R i s H).
    pose proof (opt_not_oob c t s (heap w) R). destruct (opt c t s (heap w)); try discriminate. congruence.
Qed.
(** Cells that stay, or die. *)
Definition fewer (m m' : list cell) : Prop := forall k p, c_prob (nth k m' dcell) = Some p -> (k < length m)%nat -> c_prob (nth k m dcell) = Some p.
Lemma enough_fewer s m m' : fewer m m' -> (forall h, s_clp s = Some h -> (h < length m)%nat) -> enough s m -> enough s m'.
Proof.
  intros F B N p a P A. apply (N p a); [|exact A]. unfold problem_of in *. destruct (s_clp s) as [h|] eqn:C; [|exact P]. apply F; auto.
Qed.
Lemma fewer_refl m : fewer m m.
Proof. unfold fewer. auto. Qed.
Lemma fewer_snoc m c : fewer m (m ++ [c]).
Proof. intros k p H L. rewrite snoc_old in H by assumption. exact H. Qed.
Lemma fewer_free h m b : fewer m (put h (mkCell None b) m).
Proof.
  intros k p H L. destruct (Nat.eq_dec k h) as [-> | N]; [rewrite put_same in H by assumption; discriminate | rewrite put_other in H by assumption; exact H].
Qed.
Lemma fewer_set lp s m m' s' : set_lp nd lp s m = Ok (m', s') -> fewer m m' /\ s_sol s' = None.
Proof.
  intros E. unfold set_lp in E. destruct (s_cpx s) as [[q par]|].
  - destruct lp as [h|]; [|discriminate]. apply bind_ok in E. destruct E as (p & _ & E). injection E as <- <-. split; [apply fewer_refl | reflexivity].
  - apply bind_ok in E. destruct E as (m1 & F & E).
    assert (G : fewer m m1). { destruct (s_own s); [|injection F as <-; apply fewer_refl]. destruct (s_clp s); [|injection F as <-; apply fewer_refl]. apply free_ok in F. destruct F as (-> & _). apply fewer_free. }
    destruct lp as [h|].
    + apply bind_ok in E. destruct E as (p & _ & E). injection E as <- <-. auto.
    + destruct nd; [|discriminate]. injection E as <- <-. auto.
Qed.
Lemma no_sol_enough s m : s_sol s = None -> enough s m.
Proof. intros E p a _ A. congruence. Qed.
Lemma roomy_step w o w' : inv w -> roomy w -> steady nd cbc cplex el [o] w -> stp w o = Ok w' -> roomy w'.
Proof.
  intros I R [St _] E. assert (B : forall i s, obj_at w i s -> forall h, s_clp s = Some h -> (h < length (heap w))%nat) by (intros i s H h C; apply (i_ptr w I i s h H C)).
  assert (Re : forall m, fewer (heap w) m -> forall i s, obj_at w i s -> enough s m) by (intros m F i s H; apply (enough_fewer s (heap w)); [exact F | exact (B i s H) | exact (R i s H)]).
  destruct o as [p|h p|h|cpx pl gap|i|i|i lp|i p|i f c t|i f c t|i c t]; cbn [step] in E.
  - injection E as <-. intros i s H. apply (Re _ (fewer_snoc _ _) i s H).
  - destruct (nth h (heap w) dcell) as [[q|] [|]] eqn:N; injection E as <-; try exact R. intros i s H r a P A. cbn [heap] in P.
    unfold problem_of in P. destruct (s_clp s) as [k|] eqn:C.
    + destruct (Nat.eq_dec k h) as [-> | D].
      * rewrite put_same in P by (apply (B i s H h C)). injection P as <-. assert (Y : problem_of s (heap w) q) by (unfold problem_of; rewrite C, N; reflexivity).
        pose proof (R i s H q a Y A). pose proof (St i s q H C ltac:(congruence) eq_refl). lia.
      * rewrite put_other in P by assumption. apply (R i s H r a); [unfold problem_of; rewrite C; exact P | exact A].
    + apply (R i s H r a); [unfold problem_of; rewrite C; exact P | exact A].
  - destruct (nth h (heap w) dcell) as [[q|] [|]] eqn:N; injection E as <-; try exact R. intros i s H. apply (Re _ (fewer_free _ _ _) i s H).
  - destruct cpx; cbn in E; injection E as <-; intros i s H; apply obj_snoc in H; destruct H as [[_ ->] | H]; try (apply no_sol_enough; reflexivity).
    + apply (R i s H).
    + apply (Re _ (fewer_snoc _ _) i s H).
  - apply on_ok in E. destruct E as [[_ ->] | (s & H & E)]; [exact R|]. apply bind_ok in E. destruct E as ([m s'] & E & F). injection F as <-.
    assert (G : fewer (heap w) m /\ s_sol s' = None).
    { unfold copy in E. destruct (s_clp s) as [h|]; [destruct (s_own s)|].
      - apply bind_ok in E. destruct E as (p & _ & E). injection E as <- <-. split; [apply fewer_snoc | reflexivity].
      - injection E as <- <-. split; [apply fewer_refl | reflexivity].
      - injection E as <- <-. split; [apply fewer_refl | reflexivity]. }
    destruct G as (G1 & G2). intros j t J. apply obj_snoc in J. destruct J as [[_ ->] | J]; [apply no_sol_enough, G2 | apply (Re _ G1 j t J)].
  - apply on_ok in E. destruct E as [[_ ->] | (s & H & E)]; [exact R|]. apply bind_ok in E. destruct E as (m & E & F). injection F as <-.
    assert (G : fewer (heap w) m). { unfold destroy in E. destruct (s_own s); [|injection E as <-; apply fewer_refl]. destruct (s_clp s); [|injection E as <-; apply fewer_refl].
      apply free_ok in E. destruct E as (-> & _). apply fewer_free. }
    intros j t J. apply obj_del in J. apply (Re _ G j t). apply J.
  - assert (Go : forall lp s m s', set_lp nd lp s (heap w) = Ok (m, s') -> roomy (mkWorld m (put i (Some s') (subs w)))).
    { intros lp' s m s' X. apply fewer_set in X. destruct X as (X1 & X2). intros j t J. apply obj_put in J. destruct J as [[-> ->] | [N J]]; [apply no_sol_enough, X2 | apply (Re _ X1 j t J)]. }
    destruct lp as [h|].
    + destruct (nth h (heap w) dcell) as [[q|] [|]]; try (injection E as <-; exact R).
      apply on_ok in E. destruct E as [[_ ->] | (s & H & E)]; [exact R|]. apply bind_ok in E. destruct E as ([m s'] & E & F). injection F as <-. eapply Go, E.
    + apply on_ok in E. destruct E as [[_ ->] | (s & H & E)]; [exact R|]. apply bind_ok in E. destruct E as ([m s'] & E & F). injection F as <-. eapply Go, E.
  - destruct St as (St1 & St2). apply on_ok in E. destruct E as [[_ ->] | (s & H & E)]; [exact R|]. destruct (s_clp s) as [h|] eqn:C.
    + apply bind_ok in E. destruct E as (q & L & E). injection E as <-. apply look_ok in L. intros j u J r a P A. cbn [heap] in P.
      unfold problem_of in P. destruct (s_clp u) as [k|] eqn:K.
      * destruct (Nat.eq_dec k h) as [-> | D].
        -- rewrite put_same in P by (apply (B j u J h K)). injection P as <-. assert (Y : problem_of u (heap w) q) by (unfold problem_of; rewrite K; exact L).
           pose proof (R j u J q a Y A). pose proof (St1 j u s h q H C J K ltac:(congruence) L). lia.
        -- rewrite put_other in P by assumption. apply (R j u J r a); [unfold problem_of; rewrite K; exact P | exact A].
      * apply (R j u J r a); [unfold problem_of; rewrite K; exact P | exact A].
    + destruct (s_cpx s) as [[q par]|] eqn:X; [|discriminate]. injection E as <-. intros j u J. apply obj_put in J. destruct J as [[-> ->] | [N J]]; [|apply (R j u J)].
      intros r a (par' & P) A. cbn in P, A. injection P as <- _. assert (Y : problem_of s (heap w) q) by (unfold problem_of; rewrite C; eauto).
      pose proof (R i s H q a Y A). pose proof (St2 s q par H X ltac:(congruence)). lia.
  - apply on_ok in E. destruct E as [[_ ->] | (s & H & E)]; [exact R|]. apply bind_ok in E. destruct E as (s' & E & F). injection F as <-.
    intros j u J. apply obj_put in J. destruct J as [[-> ->] | [N J]]; [|apply (R j u J)]. cbn [heap]. unfold solve in E. destruct (s_plan s).
    + apply (enough_next s); [apply (R i s H) | eapply find_problem, E | eapply find_next, E].
    + apply (enough_next s); [apply (R i s H) | eapply opt_problem, E | eapply opt_next, E].
  - apply on_ok in E. destruct E as [[_ ->] | (s & H & E)]; [exact R|]. apply bind_ok in E. destruct E as (s' & E & F). injection F as <-.
    intros j u J. apply obj_put in J. destruct J as [[-> ->] | [N J]]; [|apply (R j u J)]. cbn [heap].
    apply (enough_next s); [apply (R i s H) | eapply find_problem, E | eapply find_next, E].
  - apply on_ok in E. destruct E as [[_ ->] | (s & H & E)]; [exact R|]. apply bind_ok in E. destruct E as (s' & E & F). injection F as <-.
    intros j u J. apply obj_put in J. destruct J as [[-> ->] | [N J]]; [|apply (R j u J)]. cbn [heap].
    apply (enough_next s); [apply (R i s H) | eapply opt_problem, E | eapply opt_next, E].
Qed.
Lemma roomy_start : roomy start.
Proof. intros [|i] s H; discriminate. Qed.
Lemma steady_run ops : forall w, inv w -> roomy w -> steady nd cbc cplex el ops w -> rn ops w <> OutOfBounds.
Proof.
  induction ops as [|o r IH]; intros w I R C E; cbn [run] in E; [discriminate|]. destruct C as [C1 C2].
  destruct (stp w o) as [w1| | | | | | |] eqn:S1; cbn [bind] in E; try discriminate.
  - apply (IH w1); [eapply inv_step; eauto | | apply C2; reflexivity | exact E]. eapply (roomy_step w o); eauto. split; [exact C1 | intros; exact Logic.I].
  - exact (step_not_oob w o R S1).
Qed.
(** ** Objects leave the LPs of clients alone *)
Lemma client_step w o w' h : inv w -> stp w o = Ok w' -> of_client w h -> alive w h -> o <> CDelete h ->
  of_client w' h /\ alive w' h /\ (nth h (heap w') dcell = nth h (heap w) dcell \/ (exists p, o = CChange h p) \/ exists i p s, o = OLoad i p /\ obj_at w i s /\ s_clp s = Some h).
Proof.
  intros I E C A N. pose proof (alive_lt _ _ A) as L.
  assert (Same : forall m l, nth h m dcell = nth h (heap w) dcell -> of_client (mkWorld m l) h /\ alive (mkWorld m l) h /\ nth h (heap (mkWorld m l)) dcell = nth h (heap w) dcell)
    by (intros m l X; unfold of_client, alive; cbn [heap]; rewrite X; auto).
  assert (Keep : forall m l, nth h m dcell = nth h (heap w) dcell -> of_client (mkWorld m l) h /\ alive (mkWorld m l) h /\
     (nth h (heap (mkWorld m l)) dcell = nth h (heap w) dcell \/ (exists p, o = CChange h p) \/ exists i p s, o = OLoad i p /\ obj_at w i s /\ s_clp s = Some h)).
  { intros m l X. destruct (Same m l X) as (X1 & X2 & X3). auto. }
  assert (Own : forall i s k, obj_at w i s -> s_own s = true -> s_clp s = Some k -> h <> k).
  { intros i s k H O P ->. destruct (i_ptr w I i s k H P) as (_ & G & _). unfold of_client in C. rewrite O, C in G. discriminate. }
  assert (Id : of_client w h /\ alive w h /\ (nth h (heap w) dcell = nth h (heap w) dcell \/ (exists p, o = CChange h p) \/ exists i p s, o = OLoad i p /\ obj_at w i s /\ s_clp s = Some h)) by auto.
  assert (Fr : forall i s m, obj_at w i s -> (if s_own s then match s_clp s with Some h => free h (heap w) | None => Ok (heap w) end else Ok (heap w)) = Ok m -> nth h m dcell = nth h (heap w) dcell).
  { intros i s m H X. destruct (s_own s) eqn:O; [|injection X as <-; reflexivity]. destruct (s_clp s) as [k|] eqn:K; [|injection X as <-; reflexivity].
    apply free_ok in X. destruct X as (-> & _). apply put_other. apply (Own i s k H O K). }
  assert (Set1 : forall i s lp m s', obj_at w i s -> set_lp nd lp s (heap w) = Ok (m, s') -> nth h m dcell = nth h (heap w) dcell).
  { intros i s lp m s' H X. unfold set_lp in X. destruct (s_cpx s) as [[q par]|].
    - destruct lp; [|discriminate]. apply bind_ok in X. destruct X as (p & _ & X). injection X as <- _. reflexivity.
    - apply bind_ok in X. destruct X as (m1 & F & X). apply (Fr i s m1 H) in F. destruct lp.
      + apply bind_ok in X. destruct X as (p & _ & X). injection X as <- _. exact F.
      + destruct nd; [|discriminate]. injection X as <- _. exact F. }
  destruct o as [p|k p|k|cpx pl gap|i|i|i lp|i p|i f c t|i f c t|i c t]; cbn [step] in E.
  - injection E as <-. apply Keep. apply snoc_old, L.
  - destruct (nth k (heap w) dcell) as [[q|] [|]] eqn:X; injection E as <-; try exact Id. destruct (Nat.eq_dec h k) as [-> | D].
    + unfold of_client, alive. cbn [heap]. rewrite put_same by exact L. cbn. split; [reflexivity|]. split; [discriminate|]. right. left. eauto.
    + apply Keep. apply put_other, D.
  - destruct (nth k (heap w) dcell) as [[q|] [|]] eqn:X; injection E as <-; try exact Id. apply Keep. apply put_other. congruence.
  - destruct cpx; cbn in E; injection E as <-; apply Keep; [reflexivity | apply snoc_old, L].
  - apply on_ok in E. destruct E as [[_ ->] | (s & H & E)]; [exact Id|]. apply bind_ok in E. destruct E as ([m s'] & E & F). injection F as <-. apply Keep. unfold copy in E.
    destruct (s_clp s); [destruct (s_own s)|]; [apply bind_ok in E; destruct E as (p & _ & E)| |]; injection E as <- _; [apply snoc_old, L | reflexivity | reflexivity].
  - apply on_ok in E. destruct E as [[_ ->] | (s & H & E)]; [exact Id|]. apply bind_ok in E. destruct E as (m & E & F). injection F as <-. apply Keep. apply (Fr i s m H E).
  - destruct lp as [k|].
    + destruct (nth k (heap w) dcell) as [[q|] [|]]; try (injection E as <-; exact Id).
      apply on_ok in E. destruct E as [[_ ->] | (s & H & E)]; [exact Id|]. apply bind_ok in E. destruct E as ([m s'] & E & F). injection F as <-. apply Keep. eapply Set1; eauto.
    + apply on_ok in E. destruct E as [[_ ->] | (s & H & E)]; [exact Id|]. apply bind_ok in E. destruct E as ([m s'] & E & F). injection F as <-. apply Keep. eapply Set1; eauto.
  - apply on_ok in E. destruct E as [[_ ->] | (s & H & E)]; [exact Id|]. destruct (s_clp s) as [k|] eqn:K.
    + apply bind_ok in E. destruct E as (q & _ & E). injection E as <-. destruct (Nat.eq_dec h k) as [-> | D]; [|apply Keep; apply put_other, D].
      unfold of_client, alive. cbn [heap]. rewrite put_same by exact L. cbn. split; [exact C|]. split; [discriminate|]. right. right. eauto 6.
    + destruct (s_cpx s) as [[q par]|]; [|discriminate]. injection E as <-. apply Keep. reflexivity.
  - apply on_ok in E. destruct E as [[_ ->] | (s & H & E)]; [exact Id|]. apply bind_ok in E. destruct E as (s' & E & F). injection F as <-. apply Keep. reflexivity.
  - apply on_ok in E. destruct E as [[_ ->] | (s & H & E)]; [exact Id|]. apply bind_ok in E. destruct E as (s' & E & F). injection F as <-. apply Keep. reflexivity.
  - apply on_ok in E. destruct E as [[_ ->] | (s & H & E)]; [exact Id|]. apply bind_ok in E. destruct E as (s' & E & F). injection F as <-. apply Keep. reflexivity.
Qed.
End Run.
