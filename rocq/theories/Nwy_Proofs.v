(** Proofs for branching on sets. *)
From Verif Require Import Base Arr Nwy_Model Nwy_Spec.
#[local] Open Scope Q_scope.

Ltac inv H := inversion H; subst; clear H.
Ltac bnd H v E := apply bind_ok in H; destruct H as (v & E & H); try discriminate.
Lemma rd_ok : forall A i (l : list A) v, rd i l = Ok v -> nth_error l i = Some v.
Proof. intros A i l v H. unfold rd in H. destruct (nth_error l i); congruence. Qed.
Lemma lset_eq : forall A i (v : A) l l', lset i v l = Ok l' -> (i < length l)%nat /\ l' = firstn i l ++ v :: skipn (S i) l.
Proof.
  intros A i v l l' H. destruct (Nat.lt_ge_cases i (length l)) as [L|G].
  - rewrite lset_ok in H by auto. inv H. auto.
  - unfold lset in H. rewrite (proj2 (Nat.ltb_ge i (length l)) G) in H. discriminate H.
Qed.
Lemma upd_nth_error : forall A i (v : A) l j, (i < length l)%nat -> nth_error (firstn i l ++ v :: skipn (S i) l) j = if Nat.eqb j i then Some v else nth_error l j.
Proof.
  intros A i v l. revert i. induction l as [|a l IH]; intros i j L; cbn in L; [lia|]. destruct i as [|i]; cbn.
  - destruct j; reflexivity.
  - destruct j as [|j]; cbn; auto. rewrite IH by lia. reflexivity.
Qed.
Lemma upd_len : forall A i (v : A) l, (i < length l)%nat -> length (firstn i l ++ v :: skipn (S i) l) = length l.
Proof. intros. rewrite app_length. cbn [length]. rewrite firstn_length, skipn_length. lia. Qed.
Lemma upd_nth : forall A i (v : A) l j d, (i < length l)%nat -> nth j (firstn i l ++ v :: skipn (S i) l) d = if Nat.eqb j i then v else nth j l d.
Proof.
  intros A i v l. revert i. induction l as [|a l IH]; intros i j d L; cbn in L; [lia|]. destruct i as [|i]; cbn.
  - destruct j; reflexivity.
  - destruct j as [|j]; cbn; auto. rewrite IH by lia. reflexivity.
Qed.
Lemma chk_ok : forall c u, chk c = Ok u -> c = true.
Proof. intros [] u H; cbn in H; [auto|discriminate]. Qed.

(** ** Bounds *)
Lemma getLo_ok : forall c b v, getLo c b = Ok v -> (c < length (b_lo b))%nat /\ v = lo b c.
Proof.
  intros c b v H. apply rd_ok in H. split; [apply nth_error_Some; congruence|]. unfold lo. symmetry. apply nth_error_nth. auto.
Qed.
Lemma getUp_ok : forall c b v, getUp c b = Ok v -> (c < length (b_up b))%nat /\ v = up b c.
Proof.
  intros c b v H. apply rd_ok in H. split; [apply nth_error_Some; congruence|]. unfold up. symmetry. apply nth_error_nth. auto.
Qed.
Lemma getLo_get : forall c b, (c < length (b_lo b))%nat -> getLo c b = Ok (lo b c).
Proof. intros. unfold getLo, rd, lo. rewrite (nth_error_nth' _ 0) by auto. reflexivity. Qed.
Lemma getUp_get : forall c b, (c < length (b_up b))%nat -> getUp c b = Ok (up b c).
Proof. intros. unfold getUp, rd, up. rewrite (nth_error_nth' _ 0) by auto. reflexivity. Qed.
Record upd_up (c : nat) (v : Q) (b b' : box) : Prop := mkUU {
  uu_c : (c < length (b_up b))%nat; uu_lo : b_lo b' = b_lo b; uu_len : length (b_up b') = length (b_up b); uu_at : up b' c = v;
  uu_off : forall d, d <> c -> up b' d = up b d }.
Record upd_lo (c : nat) (v : Q) (b b' : box) : Prop := mkUL {
  ul_c : (c < length (b_lo b))%nat; ul_up : b_up b' = b_up b; ul_len : length (b_lo b') = length (b_lo b); ul_at : lo b' c = v;
  ul_off : forall d, d <> c -> lo b' d = lo b d }.
Lemma setUp_ok : forall c v b b', setUp c v b = Ok b' -> upd_up c v b b'.
Proof.
  intros c v b b' H. unfold setUp in H. bnd H l E. inv H. apply lset_eq in E. destruct E as [L ->]. constructor; cbn; auto; [apply upd_len; auto|..].
  - unfold up. cbn. rewrite upd_nth by auto. rewrite Nat.eqb_refl. auto.
  - intros d N. unfold up. cbn. rewrite upd_nth by auto. apply Nat.eqb_neq in N. rewrite N. auto.
Qed.
Lemma setLo_ok : forall c v b b', setLo c v b = Ok b' -> upd_lo c v b b'.
Proof.
  intros c v b b' H. unfold setLo in H. bnd H l E. inv H. apply lset_eq in E. destruct E as [L ->]. constructor; cbn; auto; [apply upd_len; auto|..].
  - unfold lo. cbn. rewrite upd_nth by auto. rewrite Nat.eqb_refl. auto.
  - intros d N. unfold lo. cbn. rewrite upd_nth by auto. apply Nat.eqb_neq in N. rewrite N. auto.
Qed.
Lemma setUp_set : forall c v b, (c < length (b_up b))%nat -> exists b', setUp c v b = Ok b'.
Proof. intros c v b L. unfold setUp. rewrite lset_ok by auto. cbn. eauto. Qed.
Lemma setLo_set : forall c v b, (c < length (b_lo b))%nat -> exists b', setLo c v b = Ok b'.
Proof. intros c v b L. unfold setLo. rewrite lset_ok by auto. cbn. eauto. Qed.
Lemma uu_lov : forall c v b b', upd_up c v b b' -> forall d, lo b' d = lo b d.
Proof. intros c v b b' U d. unfold lo. rewrite (uu_lo _ _ _ _ U). auto. Qed.
Lemma ul_upv : forall c v b b', upd_lo c v b b' -> forall d, up b' d = up b d.
Proof. intros c v b b' U d. unfold up. rewrite (ul_up _ _ _ _ U). auto. Qed.
(** Fixing at the lower bound. *)
Lemma drop_in : forall c b b' x, upd_up c (lo b c) b b' -> inside b x -> x c == lo b c -> inside b' x.
Proof.
  intros c b b' x U I X d L. rewrite (uu_lo _ _ _ _ U) in L. rewrite (uu_lov _ _ _ _ U). specialize (I d L). destruct (Nat.eq_dec d c) as [-> |N].
  - rewrite (uu_at _ _ _ _ U). lra.
  - rewrite (uu_off _ _ _ _ U d N). auto.
Qed.
Lemma raise_in : forall c b b' x, upd_lo c (up b c) b b' -> inside b x -> x c == up b c -> inside b' x.
Proof.
  intros c b b' x U I X d L. rewrite (ul_len _ _ _ _ U) in L. rewrite (ul_upv _ _ _ _ U). specialize (I d L). destruct (Nat.eq_dec d c) as [-> |N].
  - rewrite (ul_at _ _ _ _ U). lra.
  - rewrite (ul_off _ _ _ _ U d N). auto.
Qed.
(** What an operation leaves: sizes, and columns already fixed. *)
Definition keeps (b b' : box) : Prop := length (b_lo b') = length (b_lo b) /\ length (b_up b') = length (b_up b) /\
  forall c v, lo b c = v -> up b c = v -> lo b' c = v /\ up b' c = v.
Lemma keeps_refl : forall b, keeps b b.
Proof. intros b. split; [|split]; auto. Qed.
Lemma keeps_trans : forall a b c, keeps a b -> keeps b c -> keeps a c.
Proof.
  intros a b c (A1 & A2 & A3) (B1 & B2 & B3). split; [congruence|]. split; [congruence|]. intros d v L U. destruct (A3 d v L U). auto.
Qed.
Lemma drop_keeps : forall c b b', upd_up c (lo b c) b b' -> keeps b b'.
Proof.
  intros c b b' U. split; [rewrite (uu_lo _ _ _ _ U); auto|]. split; [apply (uu_len _ _ _ _ U)|]. intros d v L V. rewrite (uu_lov _ _ _ _ U). split; auto.
  destruct (Nat.eq_dec d c) as [-> |N]; [rewrite (uu_at _ _ _ _ U); auto|rewrite (uu_off _ _ _ _ U d N); auto].
Qed.
Lemma raise_keeps : forall c b b', upd_lo c (up b c) b b' -> keeps b b'.
Proof.
  intros c b b' U. split; [apply (ul_len _ _ _ _ U)|]. split; [rewrite (ul_up _ _ _ _ U); auto|]. intros d v L V. rewrite (ul_upv _ _ _ _ U). split; auto.
  destruct (Nat.eq_dec d c) as [-> |N]; [rewrite (ul_at _ _ _ _ U); auto|rewrite (ul_off _ _ _ _ U d N); auto].
Qed.

(** ** Consequences *)
Lemma applyAll_ok : forall l ones b b', applyAll l ones b = Ok b' -> keeps b b' /\ (forall d, lo b' d = lo b d) /\ (forall d, In d l -> up b' d = lo b d) /\ (forall d, ~ In d l -> up b' d = up b d).
Proof.
  induction l as [|c l IH]; intros ones b b' H; cbn [applyAll] in H.
  - bnd H u E. inv H. split; [apply keeps_refl|]. split; auto. split; [intros ? []|auto].
  - bnd H v Ev. apply getLo_ok in Ev. destruct Ev as [Lc ->]. bnd H b1 E1. apply setUp_ok in E1. destruct (IH _ _ _ H) as (K & A & B & C).
    pose proof (drop_keeps _ _ _ E1) as K1. split; [eapply keeps_trans; eauto|]. split; [intros d; rewrite A; apply (uu_lov _ _ _ _ E1)|]. split.
    + intros d [<- |I].
      * destruct (in_dec Nat.eq_dec c l) as [J|J]; [rewrite (B c J); apply (uu_lov _ _ _ _ E1)|rewrite (C c J), (uu_at _ _ _ _ E1); auto].
      * rewrite (B d I). apply (uu_lov _ _ _ _ E1).
    + intros d N. rewrite C by (intros J; apply N; right; auto). apply (uu_off _ _ _ _ E1). intros ->. apply N. left. auto.
Qed.
Lemma applyAll_in : forall l ones b b' x, applyAll l ones b = Ok b' -> inside b x -> (forall d, In d l -> x d == lo b d) -> inside b' x.
Proof.
  induction l as [|c l IH]; intros ones b b' x H I X; cbn [applyAll] in H.
  - bnd H u E. inv H. auto.
  - bnd H v Ev. apply getLo_ok in Ev. destruct Ev as [Lc ->]. bnd H b1 E1. apply setUp_ok in E1. eapply IH; eauto.
    + eapply drop_in; eauto. apply X. left. auto.
    + intros d J. rewrite (uu_lov _ _ _ _ E1). apply X. right. auto.
Qed.
Lemma applyAll_runs : forall l b, length (b_up b) = length (b_lo b) -> (forall d, In d l -> (d < length (b_lo b))%nat /\ lo b d <= 9 # 10) -> exists b', applyAll l false b = Ok b'.
Proof.
  induction l as [|c l IH]; intros b L F; cbn [applyAll]; [cbn; eauto|]. destruct (F c (or_introl eq_refl)) as [Lc Q]. rewrite getLo_get by auto. cbn [bind].
  destruct (setUp_set c (lo b c) b ltac:(lia)) as (b1 & E). rewrite E. cbn [bind]. apply setUp_ok in E.
  assert (Qltb (9 # 10) (lo b c) = false) as -> by (apply Qltb_ge; auto). cbn [orb]. apply IH.
  - rewrite (uu_len _ _ _ _ E), (uu_lo _ _ _ _ E). auto.
  - intros d I. rewrite (uu_lo _ _ _ _ E), (uu_lov _ _ _ _ E). apply F. right. auto.
Qed.
Lemma applyC_ok : forall o s b b', applyConsequence o s b = Ok b' -> keeps b b' /\ (forall d, lo b' d = lo b d) /\ (forall d, In d (consequences o s) -> up b' d = lo b d) /\
  (forall d, ~ In d (consequences o s) -> up b' d = up b d).
Proof.
  intros o s b b' H. unfold applyConsequence in H. unfold consequences. destruct (n_cons o) as [l|].
  - bnd H c Ec. apply rd_ok in Ec. rewrite Ec. destruct c as [c|]; [eapply applyAll_ok; eauto|]. inv H. split; [apply keeps_refl|]. split; auto. split; [intros ? []|auto].
  - inv H. split; [apply keeps_refl|]. split; auto. split; [intros ? []|auto].
Qed.
Lemma applyC_in : forall o s b b' x, applyConsequence o s b = Ok b' -> inside b x -> (forall d, In d (consequences o s) -> x d == lo b d) -> inside b' x.
Proof.
  intros o s b b' x H I X. unfold applyConsequence in H. unfold consequences in X. destruct (n_cons o) as [l|]; [|inv H; auto].
  bnd H c Ec. apply rd_ok in Ec. rewrite Ec in X. destruct c as [c|]; [|inv H; auto]. eapply applyAll_in; eauto.
Qed.
Lemma applyC_runs : forall o s b, length (b_up b) = length (b_lo b) -> (forall l, n_cons o = Some l -> (s < length l)%nat) ->
  (forall d, In d (consequences o s) -> (d < length (b_lo b))%nat /\ lo b d <= 9 # 10) -> exists b', applyConsequence o s b = Ok b'.
Proof.
  intros o s b L Ls F. unfold applyConsequence. unfold consequences in F. destruct (n_cons o) as [l|]; [|eauto]. unfold rd. specialize (Ls l eq_refl).
  destruct (nth_error l s) as [[c|]|] eqn:E; cbn [bind]; [apply applyAll_runs; auto|eauto|apply nth_error_None in E; lia].
Qed.

(** ** One branch *)
Definition is_up (which : option nat) (j : nat) : bool := match which with Some w => Nat.eqb j w | None => false end.
Lemma is_up_iff : forall which j, is_up which j = true <-> which = Some j.
Proof. intros [w|] j; cbn; [rewrite Nat.eqb_eq; split; congruence|split; discriminate]. Qed.
(** What the first member of the rest does. *)
Record one (o : nway) (u : bool) (s c : nat) (b b' : box) : Prop := mkOne {
  on_keeps : keeps b b';
  on_c : (c < length (b_lo b))%nat;
  on_self : if u then lo b' c = up b c else lo b' c = lo b c /\ up b' c = lo b c;
  on_lo : forall d, d <> c -> lo b' d = lo b d;
  on_up : forall d, d <> c -> ~ (u = true /\ In d (consequences o s)) -> up b' d = up b d;
  on_cons : u = true -> forall d, d <> c -> In d (consequences o s) -> up b' d = lo b d;
  on_selfup : u = true -> ~ In c (consequences o s) -> up b' c = up b c;
  on_in : forall x, inside b x -> (if u then x c == up b c /\ forall d, In d (consequences o s) -> d <> c /\ x d == lo b d else x c == lo b c) -> inside b' x }.
Lemma arms_cons : forall o which j s order b b', arms o which j (s :: order) b = Ok b' ->
  exists c b1, nth_error (n_mem o) s = Some c /\ one o (is_up which j) s c b b1 /\ arms o which (S j) order b1 = Ok b'.
Proof.
  intros o which j s order b b' H. cbn [arms] in H. bnd H c Ec. apply rd_ok in Ec. bnd H b1 E1. exists c, b1. split; auto. split; auto.
  change (match which with Some w => Nat.eqb j w | None => false end) with (is_up which j) in E1. destruct (is_up which j).
  - bnd E1 u Eu. apply getUp_ok in Eu. destruct Eu as [Lu ->]. bnd E1 b2 E2. apply setLo_ok in E2. bnd E1 t Et. destruct (applyC_ok _ _ _ _ E1) as (K & A & B & C).
    constructor.
    + eapply keeps_trans; [eapply raise_keeps; eauto|auto].
    + apply (ul_c _ _ _ _ E2).
    + rewrite A. apply (ul_at _ _ _ _ E2).
    + intros d N. rewrite A. apply (ul_off _ _ _ _ E2). auto.
    + intros d N M. rewrite C by (intros I; apply M; auto). apply (ul_upv _ _ _ _ E2).
    + intros _ d N I. rewrite (B d I). apply (ul_off _ _ _ _ E2). auto.
    + intros _ N. rewrite (C c N). apply (ul_upv _ _ _ _ E2).
    + intros x I [X Y]. eapply applyC_in; eauto; [eapply raise_in; eauto|]. intros d D. destruct (Y d D) as [N Z]. rewrite (ul_off _ _ _ _ E2); auto.
  - bnd E1 l El. apply getLo_ok in El. destruct El as [Ll ->]. bnd E1 b2 E2. apply setUp_ok in E2. bnd E1 t Et. inv E1. constructor.
    + eapply drop_keeps; eauto.
    + auto.
    + split; [apply (uu_lov _ _ _ _ E2)|apply (uu_at _ _ _ _ E2)].
    + intros d _. apply (uu_lov _ _ _ _ E2).
    + intros d N _. apply (uu_off _ _ _ _ E2). auto.
    + discriminate.
    + discriminate.
    + intros x I X. eapply drop_in; eauto.
Qed.
Lemma arms_keeps : forall o which order j b b', arms o which j order b = Ok b' -> keeps b b'.
Proof.
  intros o which. induction order as [|s order IH]; intros j b b' H; [inv H; apply keeps_refl|]. destruct (arms_cons _ _ _ _ _ _ _ H) as (c & b1 & _ & O & H').
  eapply keeps_trans; [apply (on_keeps _ _ _ _ _ _ O)|eauto].
Qed.
Section Wf.
Variable o : nway.
Hypothesis Nd : NoDup (n_mem o).
Hypothesis Own : forall s c, nth_error (n_mem o) s = Some c -> ~ In c (consequences o s).
Lemma pos_inj : forall s s' c, nth_error (n_mem o) s = Some c -> nth_error (n_mem o) s' = Some c -> s = s'.
Proof. intros s s' c A B. eapply (proj1 (NoDup_nth_error (n_mem o)) Nd); [apply nth_error_Some; congruence|congruence]. Qed.
(** The values a branch gives. *)
Lemma arms_fix : forall which order j b b', arms o which j order b = Ok b' -> NoDup order -> forall j' s c, nth_error order j' = Some s -> nth_error (n_mem o) s = Some c ->
  if is_up which (j + j') then lo b' c = up b c /\ up b' c = up b c /\ (forall d, In d (consequences o s) -> lo b' d = lo b d /\ up b' d = lo b d)
  else lo b' c = lo b c /\ up b' c = lo b c.
Proof.
  intros which. induction order as [|s0 order IH]; intros j b b' H N j' s c E C; [destruct j'; discriminate|]. inv N.
  destruct (arms_cons _ _ _ _ _ _ _ H) as (c0 & b1 & C0 & O & H'). pose proof (arms_keeps _ _ _ _ _ _ H') as (_ & _ & K). destruct j' as [|j'].
  - cbn in E. inv E. rewrite C0 in C. inv C. rewrite Nat.add_0_r. pose proof (on_self _ _ _ _ _ _ O) as Sf. destruct (is_up which j) eqn:U.
    + assert (Sc := on_selfup _ _ _ _ _ _ O eq_refl (Own _ _ C0)). destruct (K c (up b c) Sf Sc). split; auto. split; auto. intros d D.
      assert (Nd' : d <> c) by (intros ->; apply (Own _ _ C0 D)). apply K; [apply (on_lo _ _ _ _ _ _ O); auto|apply (on_cons _ _ _ _ _ _ O); auto].
    + destruct Sf as [S1 S2]. apply K; auto.
  - cbn in E. assert (Ne : s <> s0) by (intros ->; apply H2; eapply nth_error_In; eauto). assert (Nc : c <> c0) by (intros ->; apply Ne; eapply pos_inj; eauto).
    specialize (IH _ _ _ H' H3 _ _ _ E C). replace (S j + j')%nat with (j + S j')%nat in IH by lia. rewrite (on_lo _ _ _ _ _ _ O c Nc) in IH.
    destruct (is_up which (j + S j')) eqn:U.
    + apply is_up_iff in U. assert (U0 : is_up which j = false) by (rewrite U; cbn; apply Nat.eqb_neq; lia). rewrite U0 in O.
      rewrite (on_up _ _ _ _ _ _ O c Nc) in IH by (intros [X _]; discriminate). destruct IH as (A & B & D). split; auto. split; auto. intros d I. specialize (D d I).
      assert (L : lo b1 d = lo b d). { destruct (Nat.eq_dec d c0) as [-> |N0]; [apply (on_self _ _ _ _ _ _ O)|apply (on_lo _ _ _ _ _ _ O); auto]. } rewrite L in D. auto.
    + auto.
Qed.
(** Columns a branch does not touch. *)
Lemma arms_lo : forall which order j b b', arms o which j order b = Ok b' -> forall c,
  (forall j' s, nth_error order j' = Some s -> nth_error (n_mem o) s = Some c -> is_up which (j + j') = false) -> lo b' c = lo b c.
Proof.
  intros which. induction order as [|s0 order IH]; intros j b b' H c F; [inv H; auto|]. destruct (arms_cons _ _ _ _ _ _ _ H) as (c0 & b1 & C0 & O & H').
  rewrite (IH _ _ _ H' c).
  - destruct (Nat.eq_dec c c0) as [-> |N]; [|apply (on_lo _ _ _ _ _ _ O); auto]. specialize (F 0%nat s0 eq_refl C0). rewrite Nat.add_0_r in F.
    pose proof (on_self _ _ _ _ _ _ O) as Sf. rewrite F in Sf. apply Sf.
  - intros j' s E C. replace (S j + j')%nat with (j + S j')%nat by lia. eapply F; eauto.
Qed.
Lemma arms_up : forall which order j b b', arms o which j order b = Ok b' -> forall c,
  (forall s, In s order -> nth_error (n_mem o) s <> Some c /\ ~ In c (consequences o s)) -> up b' c = up b c.
Proof.
  intros which. induction order as [|s0 order IH]; intros j b b' H c F; [inv H; auto|]. destruct (arms_cons _ _ _ _ _ _ _ H) as (c0 & b1 & C0 & O & H').
  rewrite (IH _ _ _ H' c) by (intros; apply F; right; auto). destruct (F s0 (or_introl eq_refl)) as [A B]. apply (on_up _ _ _ _ _ _ O); [congruence|]. intros [_ I]. contradiction.
Qed.
(** Points a branch keeps. *)
Lemma arms_in : forall which order j b b' x, arms o which j order b = Ok b' -> NoDup order -> inside b x ->
  (forall j' s c, nth_error order j' = Some s -> nth_error (n_mem o) s = Some c ->
     if is_up which (j + j') then x c == up b c /\ (forall d, In d (consequences o s) -> x d == lo b d) else x c == lo b c) -> inside b' x.
Proof.
  intros which. induction order as [|s0 order IH]; intros j b b' x H N I F; [inv H; auto|]. inv N.
  destruct (arms_cons _ _ _ _ _ _ _ H) as (c0 & b1 & C0 & O & H'). eapply IH; eauto.
  - apply (on_in _ _ _ _ _ _ O); auto. specialize (F 0%nat s0 c0 eq_refl C0). rewrite Nat.add_0_r in F. destruct (is_up which j); auto.
    destruct F as [A B]. split; auto. intros d D. split; auto. intros ->. eapply Own; eauto.
  - intros j' s c E C. assert (Ne : s <> s0) by (intros ->; apply H2; eapply nth_error_In; eauto). assert (Nc : c <> c0) by (intros ->; apply Ne; eapply pos_inj; eauto).
    specialize (F (S j') s c E C). replace (S j + j')%nat with (j + S j')%nat by lia. rewrite (on_lo _ _ _ _ _ _ O c Nc). destruct (is_up which (j + S j')) eqn:U; auto.
    apply is_up_iff in U. assert (U0 : is_up which j = false) by (rewrite U; cbn; apply Nat.eqb_neq; lia). rewrite U0 in O.
    rewrite (on_up _ _ _ _ _ _ O c Nc) by (intros [X _]; discriminate). destruct F as [A B]. split; auto. intros d D.
    assert (L : lo b1 d = lo b d). { destruct (Nat.eq_dec d c0) as [-> |N0]; [apply (on_self _ _ _ _ _ _ O)|apply (on_lo _ _ _ _ _ _ O); auto]. } rewrite L. auto.
Qed.
Hypothesis Clen : forall l, n_cons o = Some l -> length l = length (n_mem o).
Lemma arms_runs : forall which order j b, NoDup order -> length (b_up b) = length (b_lo b) ->
  (forall s, In s order -> exists c, nth_error (n_mem o) s = Some c /\ (c < length (b_lo b))%nat /\ - 100000000000000000000 < lo b c /\ up b c < 100000000000000000000) ->
  (forall j' s d, nth_error order j' = Some s -> is_up which (j + j') = true -> In d (consequences o s) -> (d < length (b_lo b))%nat /\ lo b d <= 9 # 10) ->
  exists b', arms o which j order b = Ok b'.
Proof.
  intros which. induction order as [|s order IH]; intros j b N L F G; [cbn; eauto|]. inv N. destruct (F s (or_introl eq_refl)) as (c & C & Lc & S1 & S2).
  assert (Hd : exists b1, arms o which j [s] b = Ok b1).
  { cbn [arms]. unfold rd at 1. rewrite C. cbn [bind]. change (match which with Some w => Nat.eqb j w | None => false end) with (is_up which j).
    destruct (is_up which j) eqn:U.
    - rewrite getUp_get by lia. cbn [bind]. destruct (setLo_set c (up b c) b Lc) as (b1 & E1). rewrite E1. cbn [bind]. apply setLo_ok in E1.
      rewrite (proj2 (Qltb_lt _ _) S2). cbn [chk bind].
      destruct (applyC_runs o s b1) as (b2 & E2); [| | |rewrite E2; cbn [bind]; eauto].
      + rewrite (ul_up _ _ _ _ E1), (ul_len _ _ _ _ E1). auto.
      + intros l El. rewrite (Clen _ El). apply nth_error_Some. congruence.
      + intros d D. rewrite (ul_len _ _ _ _ E1). rewrite (ul_off _ _ _ _ E1) by (intros ->; eapply Own; eauto). apply (G 0%nat s); auto. rewrite Nat.add_0_r. auto.
    - rewrite getLo_get by lia. cbn [bind]. destruct (setUp_set c (lo b c) b ltac:(lia)) as (b1 & E1). rewrite E1. cbn [bind].
      rewrite (proj2 (Qltb_lt _ _) S1). cbn [chk bind]. eauto. }
  destruct Hd as (b1 & E1). destruct (arms_cons _ _ _ _ _ _ _ E1) as (c0 & b1' & C0 & O & E). cbn in E. injection E as E. subst b1. rewrite C in C0. injection C0 as C0. subst c.
  pose proof (on_keeps _ _ _ _ _ _ O) as (K1 & K2 & _).
  destruct (IH (S j) b1') as (b2 & E2); auto.
  - congruence.
  - intros s' I. destruct (F s' (or_intror I)) as (c & C' & Lc' & S1' & S2'). exists c. split; auto. rewrite K1. split; auto.
    assert (Nc : c <> c0) by (intros ->; apply H1; rewrite (pos_inj _ _ _ C C'); auto). rewrite (on_lo _ _ _ _ _ _ O c Nc). split; auto.
    destruct (in_dec Nat.eq_dec c (consequences o s)) as [J|J]; [|rewrite (on_up _ _ _ _ _ _ O c Nc); auto; intros [_ ?]; contradiction].
    destruct (is_up which j) eqn:U.
    + rewrite (on_cons _ _ _ _ _ _ O eq_refl c Nc J). destruct (G 0%nat s c eq_refl) as [_ X]; [rewrite Nat.add_0_r; auto|auto|]. lra.
    + rewrite (on_up _ _ _ _ _ _ O c Nc); auto. intros [X _]. discriminate.
  - intros j' s' d E U D. replace (S j + j')%nat with (j + S j')%nat in U by lia. rewrite K1. destruct (G (S j') s' d E U D) as [X Y]. split; auto.
    apply is_up_iff in U. assert (U0 : is_up which j = false) by (rewrite U; cbn; apply Nat.eqb_neq; lia). rewrite U0 in O.
    assert (Z : lo b1' d = lo b d). { destruct (Nat.eq_dec d c0) as [-> |N0]; [apply (on_self _ _ _ _ _ _ O)|apply (on_lo _ _ _ _ _ _ O); auto]. } rewrite Z. auto.
  - exists b2. replace (arms o which j (s :: order) b) with (do b1 <- arms o which j [s] b; arms o which (S j) order b1); [rewrite E1; exact E2|].
    cbn [arms]. destruct (rd s (n_mem o)); cbn [bind]; auto. match goal with |- bind (bind ?t _) _ = _ => destruct t; reflexivity end.
Qed.
(** The skipped members. *)
Lemma skips_ok : forall sk b b', skips o sk b = Ok b' -> keeps b b' /\ (forall d, lo b' d = lo b d) /\
  (forall s c, In s sk -> nth_error (n_mem o) s = Some c -> up b' c = lo b c) /\ (forall c, (forall s, In s sk -> nth_error (n_mem o) s <> Some c) -> up b' c = up b c).
Proof.
  induction sk as [|s sk IH]; intros b b' H; cbn [skips] in H.
  - inv H. split; [apply keeps_refl|]. split; auto. split; [intros ? ? []|auto].
  - bnd H c Ec. apply rd_ok in Ec. bnd H l El. apply getLo_ok in El. destruct El as [Lc ->]. bnd H u Eu. bnd H t Et. bnd H b1 E1. apply setUp_ok in E1.
    destruct (IH _ _ H) as (K & A & B & C). split; [eapply keeps_trans; [eapply drop_keeps; eauto|auto]|]. split; [intros d; rewrite A; apply (uu_lov _ _ _ _ E1)|]. split.
    + intros s' c' [<- |I] C'.
      * assert (c' = c) by congruence. subst. destruct K as (_ & _ & K). apply K; [apply (uu_lov _ _ _ _ E1)|apply (uu_at _ _ _ _ E1)].
      * rewrite (B s' c' I C'). apply (uu_lov _ _ _ _ E1).
    + intros c' F. rewrite C by (intros; apply F; right; auto). apply (uu_off _ _ _ _ E1). intros ->. apply (F s (or_introl eq_refl)). auto.
Qed.
Lemma skips_in : forall sk b b' x, skips o sk b = Ok b' -> inside b x -> (forall s c, In s sk -> nth_error (n_mem o) s = Some c -> x c == lo b c) -> inside b' x.
Proof.
  induction sk as [|s sk IH]; intros b b' x H I F; cbn [skips] in H; [inv H; auto|].
  bnd H c Ec. apply rd_ok in Ec. bnd H l El. apply getLo_ok in El. destruct El as [Lc ->]. bnd H u Eu. bnd H t Et. bnd H b1 E1. apply setUp_ok in E1.
  eapply IH; eauto; [eapply drop_in; eauto; apply (F s); auto; left; auto|]. intros s' c' J C. rewrite (uu_lov _ _ _ _ E1). apply (F s'); auto. right. auto.
Qed.
Lemma skips_runs : forall sk b, NoDup sk -> length (b_up b) = length (b_lo b) ->
  (forall s, In s sk -> exists c, nth_error (n_mem o) s = Some c /\ (c < length (b_lo b))%nat /\ lo b c + (1 # 2) < up b c) -> exists b', skips o sk b = Ok b'.
Proof.
  induction sk as [|s sk IH]; intros b N L F; cbn [skips]; [eauto|]. inv N. destruct (F s (or_introl eq_refl)) as (c & C & Lc & R). unfold rd at 1. rewrite C. cbn [bind].
  rewrite getLo_get by auto. cbn [bind]. rewrite getUp_get by lia. cbn [bind]. rewrite (proj2 (Qltb_lt _ _) R). cbn [chk bind].
  destruct (setUp_set c (lo b c) b ltac:(lia)) as (b1 & E1). rewrite E1. cbn [bind]. apply setUp_ok in E1. apply IH; auto.
  - rewrite (uu_len _ _ _ _ E1), (uu_lo _ _ _ _ E1). auto.
  - intros s' I. destruct (F s' (or_intror I)) as (c' & C' & L' & R'). exists c'. rewrite (uu_lo _ _ _ _ E1), (uu_lov _ _ _ _ E1). rewrite (uu_off _ _ _ _ E1); auto.
    intros ->. apply H1. rewrite (pos_inj _ _ _ C C'). auto.
Qed.
End Wf.

(** ** The branches *)
Definition fathomed (o : nway) (cutoff : Q) (s : nat) : Prop := exists d, nth_error (n_bnd o) s = Some d /\ cutoff < d.
Lemma nodup_mid : forall A (a b : list A) x, NoDup (a ++ b) -> ~ In x (a ++ b) -> NoDup (a ++ x :: b).
Proof. intros A a b x N I. apply (Permutation_NoDup (Permutation_middle a b x)). constructor; auto. Qed.
Lemma collect_ok : forall o i b mem s0 r, collect o i b s0 mem = Ok r ->
  NoDup (map snd (fst r) ++ map snd (snd r)) /\
  (forall s, In s (map snd (fst r) ++ map snd (snd r)) <-> (s0 <= s)%nat /\ exists c, nth_error mem (s - s0) = Some c /\ lo b c < up b c /\ ~ fathomed o (i_cutoff i) s) /\
  ((i_depth i <= n_frac o)%nat -> snd r = []).
Proof.
  intros o i b. induction mem as [|c mem IH]; intros s0 r H; cbn [collect] in H.
  - inv H. cbn. split; [constructor|]. split; auto. intros s. split; [intros []|]. intros (_ & c & E & _). destruct (s - s0)%nat; discriminate.
  - bnd H v Ev. bnd H l El. apply getLo_ok in El. destruct El as [_ ->]. bnd H u Eu. apply getUp_ok in Eu. destruct Eu as [_ ->]. cbv zeta in H.
    assert (Sh : forall r0 : list (Q * nat) * list (Q * nat), (forall s, In s (map snd (fst r0) ++ map snd (snd r0)) <-> (S s0 <= s)%nat /\ exists c, nth_error mem (s - S s0) = Some c /\ lo b c < up b c /\ ~ fathomed o (i_cutoff i) s) ->
      forall s, In s (map snd (fst r0) ++ map snd (snd r0)) <-> s <> s0 /\ (s0 <= s)%nat /\ exists c', nth_error (c :: mem) (s - s0) = Some c' /\ lo b c' < up b c' /\ ~ fathomed o (i_cutoff i) s).
    { intros r0 P s. rewrite P. split.
      - intros (A & c' & B & C). split; [lia|]. split; [lia|]. exists c'. replace (s - s0)%nat with (S (s - S s0)) by lia. auto.
      - intros (A & B & c' & C & D). split; [lia|]. exists c'. replace (s - s0)%nat with (S (s - S s0)) in C by lia. auto. }
    assert (Skip : forall r0, collect o i b (S s0) mem = Ok r0 -> (~ lo b c < up b c \/ fathomed o (i_cutoff i) s0) -> 
      NoDup (map snd (fst r0) ++ map snd (snd r0)) /\
      (forall s, In s (map snd (fst r0) ++ map snd (snd r0)) <-> (s0 <= s)%nat /\ exists c', nth_error (c :: mem) (s - s0) = Some c' /\ lo b c' < up b c' /\ ~ fathomed o (i_cutoff i) s) /\
      ((i_depth i <= n_frac o)%nat -> snd r0 = [])).
    { intros r0 E Z. destruct (IH _ _ E) as (A & B & C). split; auto. split; auto. intros s. rewrite (Sh _ B). split; [tauto|]. intros (D & c' & F & G & K). split; eauto.
      intros ->. rewrite Nat.sub_diag in F. cbn in F. inv F. tauto. }
    destruct (Qltb (lo b c) (up b c)) eqn:Fr; [|apply Skip; auto; left; apply Qltb_ge in Fr; lra]. apply Qltb_lt in Fr.
    bnd H ft Ef. assert (Ft : ft = true <-> fathomed o (i_cutoff i) s0).
    { unfold fathomed. destruct (n_bnd o) as [|d0 bl].
      - inv Ef. split; [discriminate|]. intros (d & D & _). destruct s0; discriminate.
      - bnd Ef d Ed. apply rd_ok in Ed. inv Ef. rewrite Qltb_lt. split; eauto. intros (d' & D & L). congruence. }
    destruct ft; [apply Skip; auto; right; apply Ft; auto|]. assert (Nf : ~ fathomed o (i_cutoff i) s0) by (rewrite <- Ft; discriminate).
    bnd H r0 E. destruct (IH _ _ E) as (A & B & C). specialize (Sh _ B).
    assert (N0 : ~ In s0 (map snd (fst r0) ++ map snd (snd r0))) by (rewrite Sh; tauto).
    assert (St : forall L, (forall s, In s L <-> s = s0 \/ In s (map snd (fst r0) ++ map snd (snd r0))) ->
       forall s, In s L <-> (s0 <= s)%nat /\ exists c', nth_error (c :: mem) (s - s0) = Some c' /\ lo b c' < up b c' /\ ~ fathomed o (i_cutoff i) s).
    { intros L P s. rewrite P, Sh. split.
      - intros [-> |(_ & D)]; auto. split; auto. exists c. rewrite Nat.sub_diag. auto.
      - intros D. destruct (Nat.eq_dec s s0); auto. }
    destruct ((n_quick o || Nat.ltb (n_frac o) (i_depth i)) && Qltb (Qabs (v - lo b c)) (i_tol i) && Nat.ltb (n_frac o) (i_depth i))%bool eqn:Z; inv H; cbn [fst snd map].
    + split; [apply nodup_mid; auto|]. split; [apply St; intros s; rewrite !in_app_iff; cbn; intuition congruence|]. intros L. apply andb_true_iff in Z. destruct Z as [_ Z]. apply Nat.ltb_lt in Z. lia.
    + split; [cbn; constructor; auto|]. split; auto. apply St. intros s. cbn. rewrite !in_app_iff. intuition congruence.
Qed.
Lemma cb_ok : forall srt o i b r, permutes srt -> createBranch srt o i b = Ok r ->
  NoDup (fst r ++ snd r) /\ (forall s, In s (fst r ++ snd r) <-> exists c, nth_error (n_mem o) s = Some c /\ lo b c < up b c /\ ~ fathomed o (i_cutoff i) s) /\
  ((i_depth i <= n_frac o)%nat -> snd r = []) /\ length (snd r) <> 1%nat.
Proof.
  intros srt o i b r P H. unfold createBranch in H. bnd H r0 E. destruct (collect_ok _ _ _ _ _ _ E) as (A & B & C).
  assert (B' : forall s, In s (map snd (fst r0) ++ map snd (snd r0)) <-> exists c, nth_error (n_mem o) s = Some c /\ lo b c < up b c /\ ~ fathomed o (i_cutoff i) s).
  { intros s. rewrite B, Nat.sub_0_r. split; [intros [_ X]; auto|]. intros X. split; [lia|auto]. }
  assert (Qp : forall (l sk : list (Q * nat)), map snd (fst r0) ++ map snd (snd r0) = map snd l ++ map snd sk -> Permutation (map snd (srt l) ++ map snd sk) (map snd (fst r0) ++ map snd (snd r0))).
  { intros l sk ->. apply Permutation_app_tail. apply Permutation_map. apply P. }
  assert (Fin : forall (l sk : list (Q * nat)), map snd (fst r0) ++ map snd (snd r0) = map snd l ++ map snd sk -> r = (map snd (srt l), map snd sk) ->
    NoDup (fst r ++ snd r) /\ (forall s, In s (fst r ++ snd r) <-> exists c, nth_error (n_mem o) s = Some c /\ lo b c < up b c /\ ~ fathomed o (i_cutoff i) s)).
  { intros l sk X ->. specialize (Qp _ _ X). cbn [fst snd]. split; [apply (Permutation_NoDup (Permutation_sym Qp)); auto|]. intros s. rewrite <- B'. split; apply Permutation_in; auto. apply Permutation_sym; auto. }
  destruct (snd r0) as [|p0 [|p1 sk]] eqn:Sk.
  - inv H. destruct (Fin (fst r0) []) as [F1 F2]; auto.
  - inv H. destruct (Fin (fst r0 ++ [p0]) []) as [F1 F2]; auto. rewrite map_app. cbn. rewrite app_nil_r. auto.
  - inv H. destruct (Fin (fst r0) (p0 :: p1 :: sk)) as [F1 F2]; auto. split; [auto|]. split; [auto|]. split; [intros L; apply C in L; discriminate|]. cbn. discriminate.
Qed.
Lemma which_none : forall r k, which_of r k = None <-> snd r <> [] /\ S k = length (fst r).
Proof.
  intros r k. unfold which_of. destruct (snd r) as [|s0 sk]; cbn.
  - split; [discriminate|]. intros [A _]. congruence.
  - destruct (length (fst r)) as [|n] eqn:E; [split; [discriminate|intros [_ A]; lia]|]. cbn. destruct (Nat.eqb_spec k n); split; try discriminate; try (split; [discriminate|lia]); auto. intros [_ A]. lia.
Qed.
Lemma which_some : forall r k w, which_of r k = Some w -> w = k.
Proof. intros r k w H. unfold which_of in H. destruct (_ && _)%bool; congruence. Qed.
(** A point with member [s] up is in branch [k] only if that is the branch of [s], or the one of the skipped members. *)
Lemma branch_in : forall o r k b b' x s, wf o b -> NoDup (fst r ++ snd r) -> branchNext o r k b = Ok b' -> inside b x -> choice o b x s -> obeys o b x s ->
  (which_of r k = Some k /\ nth_error (fst r) k = Some s) \/ (which_of r k = None /\ ~ In s (fst r)) -> inside b' x.
Proof.
  intros o r k b b' x s W N H I [(c & C & Fr & X) Ch] Ob D. unfold branchNext, branchOn in H. bnd H b1 E1.
  assert (N1 : NoDup (fst r)) by (clear - N; induction (fst r); [constructor|]; inv N; constructor; [intros J; apply H1; apply in_or_app; auto|auto]).
  assert (Low : forall s' c', s' <> s -> nth_error (n_mem o) s' = Some c' -> x c' == lo b c').
  { intros s' c' Ns C'. destruct (Qlt_le_dec (lo b c') (up b c')) as [L|L]; [eapply Ch; eauto|].
    destruct (I c') as [I1 I2]; [apply (wf_mem _ _ W); eapply nth_error_In; eauto|]. lra. }
  assert (I1 : inside b1 x).
  { eapply (arms_in o (wf_nd _ _ W) (wf_own _ _ W)); eauto. intros j' s' c' E' C'. cbn [Nat.add]. destruct D as [[-> Es]|[-> Ns]].
    - cbn. destruct (Nat.eqb_spec j' k) as [-> |Nk].
      + rewrite Es in E'. inv E'. rewrite C in C'. inv C'. split; auto. intros d J. apply Ob. auto.
      + apply (Low s'); auto. intros ->. apply Nk. eapply (proj1 (NoDup_nth_error (fst r)) N1); [apply nth_error_Some; congruence|congruence].
    - cbn. apply (Low s'); auto. intros ->. apply Ns. eapply nth_error_In; eauto. }
  destruct (which_of r k) as [w|] eqn:Ew; [|inv H; auto]. destruct D as [[Z Es]|[Z _]]; [|discriminate]. inv Z. eapply skips_in; eauto.
  intros s' c' J C'. assert (Ns : s' <> s). { intros ->. apply nth_error_In in Es. clear - N J Es. induction (fst r) as [|a l IH]; [contradiction|]. inv N.
    destruct Es as [-> |Es]; [apply H1; apply in_or_app; auto|auto]. }
  rewrite (arms_lo o _ _ _ _ _ E1 c'); [eauto|]. intros j' s2 E2 C2. cbn. apply Nat.eqb_neq. intros ->. rewrite Es in E2. inv E2. apply Ns. eapply (pos_inj o (wf_nd _ _ W)); eauto.
Qed.
(** In a branch other than that of [s], a member up that is not skipped. *)
Lemma branch_out : forall o r k b b' x s p c, wf o b -> NoDup (fst r) -> branchNext o r k b = Ok b' -> nth_error (fst r) p = Some s -> nth_error (n_mem o) s = Some c ->
  which_of r k <> Some p -> inside b' x -> x c == lo b c.
Proof.
  intros o r k b b' x s p c W N H P C D I. unfold branchNext, branchOn in H. bnd H b1 E1.
  pose proof (arms_fix o (wf_nd _ _ W) (wf_own _ _ W) _ _ _ _ _ E1 N _ _ _ P C) as F. cbn [Nat.add] in F.
  destruct (is_up (which_of r k) p) eqn:U; [apply is_up_iff in U; contradiction|]. destruct F as [F1 F2].
  pose proof (arms_keeps _ _ _ _ _ _ E1) as (K1 & _).
  assert (Z : lo b' c = lo b c /\ up b' c = lo b c /\ length (b_lo b') = length (b_lo b)).
  { destruct (which_of r k); [|inv H; auto]. destruct (skips_ok o _ _ _ H) as ((K3 & _ & K) & _). destruct (K c (lo b c) F1 F2). split; auto. split; auto. congruence. }
  destruct Z as (Z1 & Z2 & Z3). destruct (I c) as [I1 I2]; [rewrite Z3; apply (wf_mem _ _ W); eapply nth_error_In; eauto|]. rewrite Z1 in I1. rewrite Z2 in I2. lra.
Qed.
Lemma branch_sk : forall o r k b b' x s c, wf o b -> NoDup (fst r ++ snd r) -> branchNext o r k b = Ok b' -> In s (snd r) -> nth_error (n_mem o) s = Some c ->
  which_of r k <> None -> inside b' x -> x c == lo b c.
Proof.
  intros o r k b b' x s c W N H P C D I. unfold branchNext, branchOn in H. bnd H b1 E1. destruct (which_of r k) as [w|] eqn:Ew; [|congruence].
  destruct (skips_ok o _ _ _ H) as ((K1 & _) & A & B & _). pose proof (arms_keeps _ _ _ _ _ _ E1) as (K2 & _).
  assert (L : lo b1 c = lo b c).
  { apply (arms_lo o _ _ _ _ _ E1). intros j' s' E' C'. exfalso. assert (s' = s) by (eapply (pos_inj o (wf_nd _ _ W)); eauto). subst. apply nth_error_In in E'.
    clear - N P E'. induction (fst r) as [|a l IH]; [contradiction|]. inv N. destruct E' as [-> |E']; [apply H1; apply in_or_app; auto|auto]. }
  destruct (I c) as [I1 I2]; [rewrite K1, K2; apply (wf_mem _ _ W); eapply nth_error_In; eauto|]. rewrite (B s c P C), A, L in *. lra.
Qed.
(** A branch does not abort. *)
Lemma branch_runs : forall o r k b, wf o b -> sane o b -> apart o -> NoDup (fst r ++ snd r) -> (forall s, In s (fst r ++ snd r) -> exists c, nth_error (n_mem o) s = Some c /\ lo b c < up b c) ->
  (forall s d, nth_error (fst r) k = Some s -> which_of r k = Some k -> In d (consequences o s) -> lo b d <= 9 # 10) -> exists b', branchNext o r k b = Ok b'.
Proof.
  intros o r k b W Sa Ap N F G. unfold branchNext, branchOn.
  assert (N1 : NoDup (fst r) /\ NoDup (snd r) /\ forall s, In s (fst r) -> ~ In s (snd r)).
  { clear - N. induction (fst r) as [|a l IH]; cbn in *; [split; [constructor|split; [auto|intros ? []]]|]. inv N. destruct (IH H2) as (A & B & C). split; [|split]; auto.
    - constructor; auto. intros J. apply H1. apply in_or_app. auto.
    - intros s [<- |J]; auto. intros J. apply H1. apply in_or_app. auto. }
  destruct N1 as (N1 & N2 & N3).
  destruct (arms_runs o (wf_nd _ _ W) (wf_own _ _ W) (wf_cons _ _ W) (which_of r k) (fst r) 0 b N1 (wf_box _ _ W)) as (b1 & E1).
  - intros s I. destruct (F s (in_or_app _ _ _ (or_introl I))) as (c & C & _). exists c. split; auto. assert (Ic : In c (n_mem o)) by (eapply nth_error_In; eauto).
    split; [apply (wf_mem _ _ W); auto|]. destruct (Sa c Ic) as (A & B & _). auto.
  - intros j' s d E U D. cbn in U. apply is_up_iff in U. pose proof (which_some _ _ _ U) as Ek. subst j'. split; [eapply (wf_ccol _ _ W); eauto|]. eapply G; eauto.
  - rewrite E1. cbn [bind]. destruct (which_of r k) as [w|]; [|eauto]. pose proof (arms_keeps _ _ _ _ _ _ E1) as (K1 & K2 & _).
    apply (skips_runs o (wf_nd _ _ W)); auto; [rewrite K1, K2; apply (wf_box _ _ W)|]. intros s I. destruct (F s (in_or_app _ _ _ (or_intror I))) as (c & C & Fr).
    exists c. split; auto. assert (Ic : In c (n_mem o)) by (eapply nth_error_In; eauto). rewrite K1. split; [apply (wf_mem _ _ W); auto|].
    rewrite (arms_lo o _ _ _ _ _ E1 c), (arms_up o _ _ _ _ _ E1 c).
    + destruct (Sa c Ic) as (_ & _ & R). auto.
    + intros s' I'. split; [|eapply Ap; eauto]. intros C'. assert (s' = s) by (eapply (pos_inj o (wf_nd _ _ W)); eauto). subst. eapply N3; eauto.
    + intros j' s' E' C'. exfalso. assert (s' = s) by (eapply (pos_inj o (wf_nd _ _ W)); eauto). subst. apply nth_error_In in E'. eapply N3; eauto.
Qed.

(** ** Infeasibility and feasible region *)
Lemma clip_into : forall v l u, l <= u -> clip v l u == into v l u.
Proof.
  intros v l u L. unfold clip, cmin, cmax, into. destruct (Qltb l v) eqn:A; [apply Qltb_lt in A|apply Qltb_ge in A];
  (destruct (Qle_bool v l) eqn:B; [apply Qle_bool_iff in B|apply Qleb_gt in B]); try lra.
  - qcase; qcase; lra.
  - qcase; lra.
Qed.
Lemma into_between : forall v l u, l <= u -> l <= into v l u /\ into v l u <= u.
Proof. intros v l u L. unfold into. repeat qcase; lra. Qed.
Lemma close_lo : forall tol x b c, lo b c <= up b c -> close_to tol x b c (lo b c) <-> into (nth c x 0) (lo b c) (up b c) - lo b c <= tol.
Proof.
  intros tol x b c L. unfold close_to. destruct (into_between (nth c x 0) _ _ L) as [A B]. rewrite Qabs_pos by lra. reflexivity.
Qed.
Lemma close_up : forall tol x b c, lo b c <= up b c -> close_to tol x b c (up b c) <-> up b c - into (nth c x 0) (lo b c) (up b c) <= tol.
Proof.
  intros tol x b c L. unfold close_to. destruct (into_between (nth c x 0) _ _ L) as [A B]. rewrite Qabs_neg by lra. split; intros; lra.
Qed.
Lemma rd_nth : forall c (x : list Q), (c < length x)%nat -> rd c x = Ok (nth c x 0).
Proof. intros. unfold rd. rewrite (nth_error_nth' _ 0) by auto. reflexivity. Qed.
Definition sett (tol : Q) (x : list Q) (b : box) (c : nat) : Prop := close_to tol x b c (lo b c) \/ close_to tol x b c (up b c).
Lemma sett_iff : forall tol x b c, lo b c <= up b c -> let v := clip (nth c x 0) (lo b c) (up b c) in sett tol x b c <-> Qltb tol (cmin (v - lo b c) (up b c - v)) = false.
Proof.
  intros tol x b c L v. unfold sett. rewrite close_lo, close_up, Qltb_ge by auto. pose proof (clip_into (nth c x 0) _ _ L) as E. fold v in E. rewrite <- E.
  unfold cmin. qcase; split; intros; try lra; auto.
Qed.
Lemma infeas_settled : forall tol x b mem r, (forall c, In c mem -> (c < length x)%nat /\ (c < length (b_lo b))%nat /\ (c < length (b_up b))%nat /\ lo b c <= up b c) ->
  (forall c, In c mem -> sett tol x b c) -> infeas mem tol x b r = Ok r.
Proof.
  intros tol x b. induction mem as [|c mem IH]; intros r F G; cbn [infeas]; auto. destruct (F c (or_introl eq_refl)) as (A & B & C & D).
  rewrite rd_nth, getLo_get, getUp_get by auto. cbn [bind]. cbv zeta. pose proof (proj1 (sett_iff tol x b c D) (G c (or_introl eq_refl))) as E. cbv zeta in E. rewrite E.
  apply IH; intros; [apply F|apply G]; right; auto.
Qed.
Lemma infeas_mono : forall tol x b mem r r', infeas mem tol x b r = Ok r' -> r <= r'.
Proof.
  intros tol x b. induction mem as [|c mem IH]; intros r r' H; cbn [infeas] in H; [inv H; lra|]. bnd H v Ev. bnd H l El. bnd H u Eu. cbv zeta in H. apply IH in H.
  qcase_in H; auto. unfold cmax in H. qcase_in H; lra.
Qed.
Lemma infeas_un : forall tol x b mem r c, (forall c, In c mem -> (c < length x)%nat /\ (c < length (b_lo b))%nat /\ (c < length (b_up b))%nat /\ lo b c <= up b c) ->
  In c mem -> ~ sett tol x b c -> exists r', infeas mem tol x b r = Ok r' /\ tol < r'.
Proof.
  intros tol x b. induction mem as [|c mem IH]; intros r c0 F I N; [contradiction|]. cbn [infeas]. destruct (F c (or_introl eq_refl)) as (A & B & C & D).
  rewrite rd_nth, getLo_get, getUp_get by auto. cbn [bind]. cbv zeta.
  assert (Go : forall r, exists r', infeas mem tol x b r = Ok r').
  { assert (F' : forall c, In c mem -> (c < length x)%nat /\ (c < length (b_lo b))%nat /\ (c < length (b_up b))%nat /\ lo b c <= up b c) by (intros; apply F; right; auto).
    clear - F'. induction mem as [|c mem IH]; intros r; cbn [infeas]; [eauto|]. destruct (F' c (or_introl eq_refl)) as (A & B & C & D).
    rewrite rd_nth, getLo_get, getUp_get by auto. cbn [bind]. cbv zeta. apply IH. intros; apply F'; right; auto. }
  destruct I as [-> |I].
  - pose proof (sett_iff tol x b c0 D) as E. cbv zeta in E. destruct (Qltb tol (cmin _ _)) eqn:Q; [|exfalso; apply N; apply E; auto]. apply Qltb_lt in Q.
    set (d := cmin _ _) in *. destruct (Go (cmax d r)) as (r' & R). exists r'. split; auto. apply infeas_mono in R. unfold cmax in R. qcase_in R; lra.
  - eapply IH; eauto. intros; apply F; right; auto.
Qed.
Record reg_step (tol : Q) (x : list Q) (mem : list nat) (b b' : box) : Prop := mkRs {
  rg_len : length (b_lo b') = length (b_lo b) /\ length (b_up b') = length (b_up b);
  rg_in : forall c, In c mem -> exists e, lo b' c = e /\ up b' c = e /\ (e = lo b c \/ e = up b c) /\ close_to tol x b c e;
  rg_out : forall c, ~ In c mem -> lo b' c = lo b c /\ up b' c = up b c }.
Lemma reg_cons : forall tol x c mem b b1 b', NoDup (c :: mem) -> reg_step tol x [c] b b1 -> reg_step tol x mem b1 b' -> reg_step tol x (c :: mem) b b'.
Proof.
  intros tol x c mem b b1 b' N [L1 A1 B1] [L2 A2 B2]. inv N. constructor.
  - intuition congruence.
  - intros d [<- |I].
    + destruct (A1 c (or_introl eq_refl)) as (e & E1 & E2 & E3). destruct (B2 c H1) as [F1 F2]. exists e. rewrite F1, F2. auto.
    + destruct (A2 d I) as (e & E1 & E2 & E3 & E4). assert (Nd : ~ In d [c]) by (intros [<- |[]]; contradiction). destruct (B1 d Nd) as [F1 F2]. exists e.
      unfold close_to in *. rewrite F1, F2 in *. auto.
  - intros d N. destruct (B2 d) as [-> ->]; [intros I; apply N; right; auto|]. apply B1. intros [-> |[]]. apply N. left. auto.
Qed.
Lemma region_ok_ : forall tol x mem b r, NoDup mem -> (forall c, In c mem -> (c < length x)%nat /\ (c < length (b_lo b))%nat /\ (c < length (b_up b))%nat /\ lo b c <= up b c) ->
  ((forall c, In c mem -> sett tol x b c) -> exists b' r', region mem tol x b r = Ok (b', r') /\ reg_step tol x mem b b' /\
     Qabs (r' - r) <= qsum (map (fun c => Qabs (into (nth c x 0) (lo b c) (up b c) - lo b' c)) mem)) /\
  ((exists c, In c mem /\ ~ sett tol x b c) -> region mem tol x b r = AssertFail).
Proof.
  intros tol x. induction mem as [|c mem IH]; intros b r N F.
  - split; [|intros (c & [] & _)]. intros _. exists b, r. split; auto. split; [constructor; auto; intros ? []|]. cbn [map qsum]. assert (Z : r - r == 0) by lra. rewrite Z. apply Qle_refl.
  - inversion N as [|? ? N1 N2]; subst. destruct (F c (or_introl eq_refl)) as (A & B & C & D).
    assert (St : forall b1, length (b_lo b1) = length (b_lo b) -> length (b_up b1) = length (b_up b) -> (forall d, d <> c -> lo b1 d = lo b d /\ up b1 d = up b d) ->
      (forall d, In d mem -> (d < length x)%nat /\ (d < length (b_lo b1))%nat /\ (d < length (b_up b1))%nat /\ lo b1 d <= up b1 d) /\
      (forall d, In d mem -> (sett tol x b1 d <-> sett tol x b d) /\ lo b1 d = lo b d /\ up b1 d = up b d)).
    { intros b1 L1 L2 O. assert (Z : forall d, In d mem -> lo b1 d = lo b d /\ up b1 d = up b d) by (intros d I; apply O; intros ->; contradiction). split.
      - intros d I. destruct (Z d I) as [-> ->]. rewrite L1, L2. apply F. right. auto.
      - intros d I. destruct (Z d I) as [Z1 Z2]. unfold sett, close_to. rewrite Z1, Z2. split; [reflexivity|auto]. }
    assert (Step : sett tol x b c -> exists b1 r1, region (c :: mem) tol x b r = region mem tol x b1 (r + r1) /\ reg_step tol x [c] b b1 /\ Qabs r1 == Qabs (into (nth c x 0) (lo b c) (up b c) - lo b1 c)).
    { intros S0. cbn [region]. rewrite rd_nth, getLo_get, getUp_get by auto. cbn [bind]. cbv zeta. pose proof (clip_into (nth c x 0) _ _ D) as E. set (v := clip _ _ _) in *.
      destruct (Qle_bool (up b c - tol) v) eqn:Q.
      - apply Qle_bool_iff in Q. destruct (setLo_set c (up b c) b B) as (b1 & E1). rewrite E1. cbn [bind]. apply setLo_ok in E1. exists b1, (v - up b c). split; auto.
        rewrite (ul_at _ _ _ _ E1). split; [|rewrite E; reflexivity]. constructor.
        + split; [apply (ul_len _ _ _ _ E1)|rewrite (ul_up _ _ _ _ E1); auto].
        + intros d [<- |[]]. exists (up b c). rewrite (ul_at _ _ _ _ E1), (ul_upv _ _ _ _ E1). split; auto. split; auto. split; auto. apply close_up; auto. rewrite <- E. lra.
        + intros d I. rewrite (ul_upv _ _ _ _ E1). split; auto. apply (ul_off _ _ _ _ E1). intros ->. apply I. left. auto.
      - apply Qleb_gt in Q. assert (K : v <= lo b c + tol). { destruct S0 as [S0|S0]; [apply close_lo in S0; auto; rewrite <- E in S0; lra|apply close_up in S0; auto; rewrite <- E in S0; lra]. }
        rewrite (proj2 (Qle_bool_iff _ _) K). cbn [chk bind]. destruct (setUp_set c (lo b c) b C) as (b1 & E1). rewrite E1. cbn [bind]. apply setUp_ok in E1. exists b1, (v - lo b c). split; auto.
        rewrite (uu_lov _ _ _ _ E1). split; [|rewrite E; reflexivity]. constructor.
        + split; [rewrite (uu_lo _ _ _ _ E1); auto|apply (uu_len _ _ _ _ E1)].
        + intros d [<- |[]]. exists (lo b c). rewrite (uu_at _ _ _ _ E1), (uu_lov _ _ _ _ E1). split; auto. split; auto. split; auto. apply close_lo; auto. rewrite <- E. lra.
        + intros d I. rewrite (uu_lov _ _ _ _ E1). split; auto. apply (uu_off _ _ _ _ E1). intros ->. apply I. left. auto. }
    split.
    + intros G. destruct (Step (G c (or_introl eq_refl))) as (b1 & r1 & R & S1 & V). pose proof (rg_len _ _ _ _ _ S1) as [L1 L2].
      assert (O : forall d, d <> c -> lo b1 d = lo b d /\ up b1 d = up b d) by (intros d Nd; apply (rg_out _ _ _ _ _ S1); intros [->|[]]; congruence).
      destruct (St b1 L1 L2 O) as [F1 G1]. destruct (IH b1 (r + r1) N2 F1) as [IH1 _]. destruct IH1 as (b' & r' & R' & S' & V').
      { intros d I. apply G1; auto. apply G. right. auto. }
      exists b', r'. rewrite R. split; auto. split; [eapply reg_cons; eauto|]. cbn [map qsum].
      destruct (rg_out _ _ _ _ _ S' c N1) as [Z _]. rewrite Z, <- V.
      assert (M : map (fun d => Qabs (into (nth d x 0) (lo b d) (up b d) - lo b' d)) mem = map (fun d => Qabs (into (nth d x 0) (lo b1 d) (up b1 d) - lo b' d)) mem).
      { apply map_ext_in. intros d I. destruct (G1 d I) as (_ & -> & ->). auto. }
      rewrite M. setoid_replace (r' - r) with (r1 + (r' - (r + r1))) by lra. pose proof (Qabs_triangle r1 (r' - (r + r1))). lra.
    + intros (d & I & Nd). destruct (Qlt_le_dec 0 1) as [_|]; [|lra].
      assert (Dec : sett tol x b c \/ ~ sett tol x b c).
      { destruct (Qltb tol (cmin (clip (nth c x 0) (lo b c) (up b c) - lo b c) (up b c - clip (nth c x 0) (lo b c) (up b c)))) eqn:Q; [right|left; apply sett_iff; auto].
        intros S0. apply sett_iff in S0; auto. congruence. }
      destruct Dec as [S0|S0].
      * destruct (Step S0) as (b1 & r1 & R & S1 & V). rewrite R. pose proof (rg_len _ _ _ _ _ S1) as [L1 L2].
        assert (O : forall d, d <> c -> lo b1 d = lo b d /\ up b1 d = up b d) by (intros d' Nd'; apply (rg_out _ _ _ _ _ S1); intros [->|[]]; congruence).
        destruct (St b1 L1 L2 O) as [F1 G1]. apply (IH b1 (r + r1) N2 F1). destruct I as [-> |I]; [contradiction|]. exists d. split; auto. intros X. apply Nd. apply G1; auto.
      * cbn [region]. rewrite rd_nth, getLo_get, getUp_get by auto. cbn [bind]. cbv zeta. pose proof (clip_into (nth c x 0) _ _ D) as E. set (v := clip _ _ _) in *.
        assert (Y1 : ~ up b c - v <= tol) by (intros Y; apply S0; right; apply close_up; auto; rewrite <- E; auto).
        assert (Y2 : ~ v - lo b c <= tol) by (intros Y; apply S0; left; apply close_lo; auto; rewrite <- E; auto).
        assert (Qle_bool (up b c - tol) v = false) as -> by (apply Qleb_gt; lra). assert (Qle_bool v (lo b c + tol) = false) as -> by (apply Qleb_gt; lra). reflexivity.
Qed.

(** ** Strong branching *)
Lemma wf_drop : forall o c v b b', wf o b -> upd_up c v b b' -> wf o b'.
Proof.
  intros o c v b b' [A B C D E F] U. constructor; auto.
  - rewrite (uu_len _ _ _ _ U), (uu_lo _ _ _ _ U). auto.
  - intros d I. rewrite (uu_lo _ _ _ _ U). auto.
  - intros s d I. rewrite (uu_lo _ _ _ _ U). eauto.
Qed.
(** Some columns fixed at their lower bounds. *)
Definition sub (b b0 : box) : Prop := b_lo b = b_lo b0 /\ length (b_up b) = length (b_up b0) /\ forall c, up b c = up b0 c \/ up b c = lo b0 c.
Lemma sub_refl : forall b, sub b b.
Proof. intros b. split; [|split]; auto. Qed.
Lemma sub_drop : forall c b b' b0, sub b b0 -> upd_up c (lo b c) b b' -> sub b' b0.
Proof.
  intros c b b' b0 (A & B & C) U. split; [rewrite (uu_lo _ _ _ _ U); auto|]. split; [rewrite (uu_len _ _ _ _ U); auto|]. intros d. destruct (Nat.eq_dec d c) as [-> |N].
  - right. rewrite (uu_at _ _ _ _ U). unfold lo. rewrite A. auto.
  - rewrite (uu_off _ _ _ _ U d N). auto.
Qed.
Lemma sub_lo : forall b b0, sub b b0 -> forall c, lo b c = lo b0 c.
Proof. intros b b0 (A & _) c. unfold lo. rewrite A. auto. Qed.
Lemma sub_wf : forall o b b0, sub b b0 -> wf o b0 -> wf o b.
Proof. intros o b b0 (S1 & S2 & _) [A B C D E F]. constructor; auto; rewrite ?S1, ?S2; auto. Qed.
Lemma sub_choice : forall o b b0 x s, wf o b0 -> sub b b0 -> inside b0 x -> inside b x -> choice o b0 x s -> choice o b x s.
Proof.
  intros o b b0 x s W S0 I0 I [(c & C & Fr & X) Ch]. pose proof (sub_lo _ _ S0) as L. destruct S0 as (S1 & S2 & S3).
  assert (Lc : forall s c, nth_error (n_mem o) s = Some c -> (c < length (b_lo b0))%nat) by (intros s' c' E; apply (wf_mem _ _ W); eapply nth_error_In; eauto).
  split.
  - exists c. split; auto. destruct (I c) as [A B]; [rewrite S1; eauto|]. rewrite L in *. destruct (S3 c) as [-> |E]; [auto|]. rewrite E in B. lra.
  - intros s' c' N C' F'. rewrite L in *. destruct (S3 c') as [E|E]; rewrite E in F'; [|lra]. eapply Ch; eauto.
Qed.
Lemma sub_obeys : forall o b b0 x s, sub b b0 -> obeys o b0 x s -> obeys o b x s.
Proof. intros o b b0 x s S0 O c I. rewrite (sub_lo _ _ S0). auto. Qed.
(** What the loop does to a point of the set of [s], and to its bound. *)
Lemma sb_frame : forall p o i r ans n k row fixed b row' fixed' b', sb_loop p o i r ans k n row fixed b = Ok (row', fixed', b') ->
  sub b' b /\ (fixed' <= fixed + n)%nat /\ length row' = length row /\ (forall s, (forall q, (k <= q)%nat -> nth_error (fst r) q <> Some s) -> nth_error row' s = nth_error row s).
Proof.
  intros p o i r ans. induction n as [|n IH]; intros k row fixed b row' fixed' b' H; cbn [sb_loop] in H.
  - inv H. split; [apply sub_refl|]. split; [lia|auto].
  - bnd H b1 E1. bnd H s Es. apply rd_ok in Es. bnd H c Ec. apply rd_ok in Ec. cbv zeta in H. bnd H row1 Er. bnd H t Et.
    assert (Rw : length row1 = length row /\ forall s', s' <> s -> nth_error row1 s' = nth_error row s').
    { destruct (Nat.eqb (i_depth i) 0); [|inv Er; auto]. apply lset_eq in Er. destruct Er as [L ->]. split; [apply upd_len; auto|]. intros s' N. rewrite upd_nth_error by auto.
      apply Nat.eqb_neq in N. rewrite N. auto. }
    destruct Rw as [R1 R2].
    assert (Fi : forall row2, length row2 = length row1 -> (forall s', (forall q, (S k <= q)%nat -> nth_error (fst r) q <> Some s') -> nth_error row2 s' = nth_error row1 s') ->
       length row2 = length row /\ forall s', (forall q, (k <= q)%nat -> nth_error (fst r) q <> Some s') -> nth_error row2 s' = nth_error row s').
    { intros row2 A B. split; [congruence|]. intros s' F. rewrite B by (intros q Q; apply F; lia). apply R2. intros ->. apply (F k); auto. }
    destruct (_ && _)%bool.
    + bnd H l El. apply getLo_ok in El. destruct El as [_ ->]. bnd H b2 E2. apply setUp_ok in E2. destruct (IH _ _ _ _ _ _ _ H) as (A & B & C & D).
      destruct (Fi _ C D) as [F1 F2]. split; [|split; [lia|auto]]. pose proof (sub_drop _ _ _ _ (sub_refl b) E2) as S2.
      destruct A as (A1 & A2 & A3), S2 as (B1 & B2 & B3). split; [congruence|]. split; [congruence|]. intros d. destruct (A3 d) as [G|G]; rewrite G; auto. right. unfold lo. rewrite B1. auto.
    + destruct (IH _ _ _ _ _ _ _ H) as (A & B & C & D). destruct (Fi _ C D) as [F1 F2]. split; [auto|]. split; [lia|auto].
Qed.
Lemma sb_sound : forall p o i r ans feas f x s q, NoDup (fst r) -> snd r = [] -> honest feas f ans -> feas x -> f x <= i_cutoff i -> nth_error (fst r) q = Some s ->
  forall n k row fixed b row' fixed' b', wf o b -> inside b x -> choice o b x s -> obeys o b x s -> (k + n = length (fst r))%nat ->
  sb_loop p o i r ans k n row fixed b = Ok (row', fixed', b') ->
  inside b' x /\ ((k <= q)%nat -> (fixed' < fixed + n)%nat /\
    (i_depth i = 0%nat -> (forall k b, match ans k b with Other _ => False | _ => True end) -> exists v, nth_error row' s = Some v /\ v <= f x)).
Proof.
  intros p o i r ans feas f x s q N Sk Ho Fx Cx Q. induction n as [|n IH]; intros k row fixed b row' fixed' b' W I Ch Ob Kn H.
  - cbn [sb_loop] in H. inv H. split; auto. intros Kq. exfalso. assert (q < length (fst r))%nat by (apply nth_error_Some; congruence). lia.
  - pose proof H as H0. cbn [sb_loop] in H. bnd H b1 E1. bnd H s1 Es. apply rd_ok in Es. bnd H c Ec. apply rd_ok in Ec. cbv zeta in H. bnd H row1 Er. bnd H t Et.
    set (bad := match ans k b1 with Infeas => true | Opt v => Qltb (i_cutoff i) v | Other _ => false end) in *.
    assert (Wk : which_of r k = Some k) by (unfold which_of; rewrite Sk; reflexivity).
    assert (Self : k = q -> s1 = s /\ inside b1 x /\ bad = false).
    { intros ->. assert (s1 = s) by congruence. subst s1. split; auto. assert (I1 : inside b1 x).
      { eapply branch_in; eauto. rewrite Sk, app_nil_r. auto. }
      split; auto. unfold bad. pose proof (Ho q b1) as Hq. destruct (ans q b1) as [|v|v]; auto; [exfalso; eapply Hq; eauto|]. apply Qltb_ge. specialize (Hq x I1 Fx). lra. }
    assert (Other : k <> q -> s1 <> s).
    { intros Nq ->. apply Nq. eapply (proj1 (NoDup_nth_error (fst r)) N); [apply nth_error_Some; congruence|congruence]. }
    assert (Row : k = q -> i_depth i = 0%nat -> (forall k b, match ans k b with Other _ => False | _ => True end) -> exists v, nth_error row1 s = Some v /\ v <= f x).
    { intros E D NO. destruct (Self E) as (-> & I1 & B). rewrite D in Er. cbn [Nat.eqb] in Er. rewrite B in Er. apply lset_eq in Er. destruct Er as [L ->].
      rewrite upd_nth_error by auto. rewrite Nat.eqb_refl. eexists. split; [reflexivity|]. specialize (NO k b1). unfold bad in B. pose proof (Ho k b1) as Hk.
      destruct (ans k b1) as [|v|v]; [discriminate| |contradiction]. auto. }
    assert (Go : forall row2 fx2 b2 fx1, sb_loop p o i r ans (S k) n row1 fx1 b2 = Ok (row2, fx2, b') -> wf o b2 -> inside b2 x -> choice o b2 x s -> obeys o b2 x s ->
       (k = q -> fx1 = fixed) -> (fx1 <= S fixed)%nat ->
       inside b' x /\ ((k <= q)%nat -> (fx2 < fixed + S n)%nat /\
         (i_depth i = 0%nat -> (forall k b, match ans k b with Other _ => False | _ => True end) -> exists v, nth_error row2 s = Some v /\ v <= f x))).
    { intros row2 fx2 b2 fx1 H2 W2 I2 Ch2 Ob2 Fq Fl. assert (Kn' : (S k + n = length (fst r))%nat) by lia. destruct (IH _ _ _ _ _ _ _ W2 I2 Ch2 Ob2 Kn' H2) as (A & B). split; auto. intros Kq.
      destruct (Nat.eq_dec k q) as [E|E].
      - destruct (sb_frame _ _ _ _ _ _ _ _ _ _ _ _ _ H2) as (_ & F2 & _ & F4). specialize (Fq E). split; [lia|]. intros D NO. destruct (Row E D NO) as (v & V & Le). exists v. split; auto.
        rewrite F4; auto. intros q' Q' X. assert (q' = q) by (eapply (proj1 (NoDup_nth_error (fst r)) N); [apply nth_error_Some; congruence|congruence]). lia.
      - destruct (B ltac:(lia)) as [B1 B2]. split; [lia|auto]. }
    destruct (bad && Nat.ltb 1 (p_fix p))%bool eqn:Bf.
    + apply andb_true_iff in Bf. destruct Bf as [Bt _]. assert (Nq : k <> q) by (intros E; destruct (Self E) as (_ & _ & B); congruence). specialize (Other Nq).
      bnd H l El. apply getLo_ok in El. destruct El as [Lc ->]. bnd H b2 E2. apply setUp_ok in E2.
      assert (Xc : x c == lo b c).
      { destruct Ch as [_ Ch]. destruct (Qlt_le_dec (lo b c) (up b c)) as [F|F]; [eapply Ch; eauto|]. destruct (I c Lc). lra. }
      assert (I2 : inside b2 x) by (eapply drop_in; eauto). pose proof (sub_drop _ _ _ _ (sub_refl b) E2) as S2.
      eapply (Go row' fixed' b2 (S fixed)); eauto.
      * eapply wf_drop; eauto.
      * eapply sub_choice; eauto.
      * eapply sub_obeys; eauto.
      * intros E. contradiction.
    + eapply (Go row' fixed' b fixed); eauto.
Qed.
(** One set at the root. *)
Lemma strong_root : forall srt p o i row ans late b b0 code row' o' b' feas f, permutes srt -> honest feas f ans -> i_depth i = 0%nat -> wf o b0 -> n_bnd o = [] -> sub b b0 ->
  strong srt p o i row ans late b = Ok (code, row', o', b') ->
  sub b' b /\ n_mem o' = n_mem o /\ n_cons o' = n_cons o /\ length row' = length row /\
  (forall x, solution feas [o] b0 x -> f x <= i_cutoff i -> inside b x -> inside b' x /\ code <> Infeasible /\
     forall s, choice o b0 x s -> obeys o b0 x s -> (forall k b, match ans k b with Other _ => False | _ => True end) -> exists v, nth_error row' s = Some v /\ v <= f x).
Proof.
  intros srt p o i row ans late b b0 code row' o' b' feas f P Ho D W Bn S0 H. unfold strong in H. bnd H r Er. cbv zeta in H. bnd H q Eq0. destruct q as [[row1 fixed] b1].
  destruct (cb_ok _ _ _ _ _ P Er) as (N & In_ & Sk & _). specialize (Sk ltac:(lia)).
  assert (Q : row1 = row' /\ b1 = b' /\ n_mem o' = n_mem o /\ n_cons o' = n_cons o /\ (code = Infeasible -> fixed = numberBranches r)).
  { destruct (Nat.eqb_spec fixed (numberBranches r)); [|destruct (Nat.ltb 0 fixed); [|destruct late]]; destruct (_ && _)%bool; inv H; cbn; auto; (repeat split; auto; discriminate). }
  destruct Q as (-> & -> & Q1 & Q2 & Q3). destruct (sb_frame _ _ _ _ _ _ _ _ _ _ _ _ _ Eq0) as (F1 & F2 & F3 & _). split; auto. split; auto. split; auto. split; auto.
  intros x (Fx & I0 & So) Cx I.
  assert (Main : forall s, choice o b0 x s -> obeys o b0 x s -> inside b' x /\ (fixed < numberBranches r)%nat /\
     ((forall k b, match ans k b with Other _ => False | _ => True end) -> exists v, nth_error row' s = Some v /\ v <= f x)).
  { intros s Ch Ob. pose proof (sub_choice _ _ _ _ _ W S0 I0 I Ch) as Ch'. pose proof (sub_obeys _ _ _ _ _ S0 Ob) as Ob'.
    assert (Is : In s (fst r ++ snd r)). { apply In_. destruct Ch' as [(c & C & Fr & _) _]. exists c. split; auto. split; auto. intros (d & E & _). rewrite Bn in E. destruct s; discriminate. }
    rewrite Sk, app_nil_r in Is. apply In_nth_error in Is. destruct Is as [q Eq1]. rewrite Sk, app_nil_r in N.
    destruct (sb_sound p o i r ans feas f x s q N Sk Ho Fx Cx Eq1 (numberBranches r) 0 row 0 b row' fixed b') as (A & B); auto.
    - eapply sub_wf; eauto.
    - unfold numberBranches. rewrite Sk. lia.
    - destruct (B ltac:(lia)) as [B1 B2]. split; auto. }
  destruct (So o (or_introl eq_refl)) as (s & Ch & Ob). destruct (Main s Ch Ob) as (A & B & _). split; auto. split; [intros E; apply Q3 in E; lia|]. intros s' Ch' Ob' NO. apply Main; auto.
Qed.
Lemma sub_trans : forall a b c, sub a b -> sub b c -> sub a c.
Proof.
  intros a b c (A1 & A2 & A3) (B1 & B2 & B3). split; [congruence|]. split; [congruence|]. intros d. destruct (A3 d) as [G|G]; rewrite G; auto. right. unfold lo. rewrite B1. auto.
Qed.
(** Two tables with the same members and consequences. *)
Definition alike (l l' : list nway) : Prop := length l = length l' /\ forall k o, nth_error l k = Some o -> exists o', nth_error l' k = Some o' /\ n_mem o' = n_mem o /\ n_cons o' = n_cons o.
Lemma alike_sol : forall feas l l' b x, alike l l' -> solution feas l b x -> solution feas l' b x.
Proof.
  intros feas l l' b x [L A] (F & I & So). split; auto. split; auto. intros o' Io. apply In_nth_error in Io. destruct Io as [k K].
  destruct (nth_error l k) as [o|] eqn:E; [|apply nth_error_None in E; assert (k < length l')%nat by (apply nth_error_Some; congruence); lia].
  destruct (A _ _ E) as (o2 & E2 & M & C). assert (o2 = o') by congruence. subst o2. destruct (So o (nth_error_In _ _ E)) as (s & Ch & Ob).
  exists s. unfold choice, obeys, consequences in *. rewrite M, C. auto.
Qed.
Lemma alike_refl : forall l, alike l l.
Proof. intros l. split; auto. intros. eauto. Qed.
Lemma alike_trans : forall a b c, alike a b -> alike b c -> alike a c.
Proof.
  intros a b c [A1 A2] [B1 B2]. split; [congruence|]. intros k o E. destruct (A2 _ _ E) as (o1 & E1 & M1 & C1). destruct (B2 _ _ E1) as (o2 & E2 & M2 & C2).
  exists o2. split; auto. split; congruence.
Qed.
Lemma alike_set : forall k o o' l l', nth_error l k = Some o -> n_mem o' = n_mem o -> n_cons o' = n_cons o -> lset k o' l = Ok l' -> alike l l' /\ alike l' l.
Proof.
  intros k o o' l l' E M C H. apply lset_eq in H. destruct H as [L ->]. split; (split; [rewrite upd_len; auto|]); intros j oj Ej.
  - rewrite upd_nth_error by auto. destruct (Nat.eqb_spec j k) as [-> |N]; [|eauto]. exists o'. assert (oj = o) by congruence. subst oj. auto.
  - rewrite upd_nth_error in Ej by auto. destruct (Nat.eqb_spec j k) as [-> |N]; [|eauto]. inv Ej. exists o. auto.
Qed.
Lemma sol_one : forall feas l b x o, In o l -> solution feas l b x -> solution feas [o] b x.
Proof. intros feas l b x o I (A & B & C). split; auto. split; auto. intros o' [<- |[]]. auto. Qed.
Definition row_good (feas : point -> Prop) (f : point -> Q) (cutoff : Q) (objs : list nway) (b0 : box) (o : nway) (row : list Q) : Prop :=
  forall x, solution feas objs b0 x -> f x <= cutoff -> forall s, choice o b0 x s -> obeys o b0 x s -> exists v, nth_error row s = Some v /\ v <= f x.
Definition no_other (ans : nat -> nat -> box -> answer) : Prop := forall j k b, match ans j k b with Other _ => False | _ => True end.
Lemma strong_all_ok : forall srt p i ans feas f b0, permutes srt -> (forall k, honest feas f (ans k)) -> i_depth i = 0%nat ->
  forall lst objs rows b res, NoDup lst -> (forall k o, nth_error objs k = Some o -> wf o b0 /\ (In k lst -> n_bnd o = [])) -> sub b b0 ->
  (forall x, solution feas objs b0 x -> f x <= i_cutoff i -> inside b x) ->
  strong_all srt p i ans lst objs rows b = Ok res ->
  match res with
  | None => forall x, solution feas objs b0 x -> f x <= i_cutoff i -> False
  | Some (objs', rows', b') => alike objs objs' /\ alike objs' objs /\ sub b' b /\ (forall x, solution feas objs b0 x -> f x <= i_cutoff i -> inside b' x) /\
      (forall k, ~ In k lst -> nth_error rows' k = nth_error rows k) /\
      (no_other ans -> forall k o, In k lst -> nth_error objs k = Some o -> exists row, nth_error rows' k = Some row /\ row_good feas f (i_cutoff i) objs b0 o row)
  end.
Proof.
  intros srt p i ans feas f b0 P Ho D. induction lst as [|k lst IH]; intros objs rows b res N Wo S0 Hi H; cbn [strong_all] in H.
  - inv H. split; [apply alike_refl|]. split; [apply alike_refl|]. split; [apply sub_refl|]. split; [auto|]. split; [auto|]. intros _ k o [].
  - bnd H o Eo. apply rd_ok in Eo. bnd H row Er. apply rd_ok in Er. bnd H q Eq0. destruct q as [[[code row1] o1] b1].
    destruct (Wo _ _ Eo) as [W Bn]. specialize (Bn (or_introl eq_refl)).
    destruct (strong_root _ _ _ _ _ _ _ _ _ _ _ _ _ _ _ P (Ho k) D W Bn S0 Eq0) as (A1 & A2 & A3 & A4 & A5).
    assert (Hi1 : forall x, solution feas objs b0 x -> f x <= i_cutoff i -> inside b1 x /\ code <> Infeasible).
    { intros x So Fx. destruct (A5 x (sol_one _ _ _ _ _ (nth_error_In _ _ Eo) So) Fx (Hi x So Fx)) as (B1 & B2 & _). auto. }
    inversion N as [|k0 l0 N1 N2]; subst.
    assert (Cont : code <> Infeasible -> (do rows <- lset k row1 rows; do objs <- lset k o1 objs; strong_all srt p i ans lst objs rows b1) = Ok res).
    { intros NI. destruct code; auto; congruence. }
    destruct code; try (specialize (Cont ltac:(discriminate)); clear H); [inv H; intros x So Fx; destruct (Hi1 x So Fx); congruence| | |];
    (bnd Cont rows1 Er1; bnd Cont objs1 Eo1; destruct (alike_set _ _ _ _ _ Eo A2 A3 Eo1) as [Al1 Al2];
     assert (Wo1 : forall k o, nth_error objs1 k = Some o -> wf o b0 /\ (In k lst -> n_bnd o = []));
     [ intros j oj Ej; apply lset_eq in Eo1; destruct Eo1 as [Lk Eo1]; rewrite Eo1, upd_nth_error in Ej by auto; destruct (Nat.eqb_spec j k) as [-> |Nj];
       [ inv Ej; split; [destruct W as [W1 W2 W3 W4 W5 W6]; unfold consequences in *; constructor; unfold consequences; rewrite ?A2, ?A3; auto | intros; contradiction]
       | destruct (Wo _ _ Ej) as [V1 V2]; split; auto; intros; apply V2; right; auto ]
     | ];
     assert (Hi2 : forall x, solution feas objs1 b0 x -> f x <= i_cutoff i -> inside b1 x) by (intros x So Fx; apply Hi1; auto; eapply alike_sol; eauto);
     specialize (IH _ _ _ _ N2 Wo1 (sub_trans _ _ _ A1 S0) Hi2 Cont);
     destruct res as [[[objs2 rows2] b2]|];
     [ destruct IH as (I1 & I2 & I3 & I4 & I5 & I6); split; [eapply alike_trans; eauto|]; split; [eapply alike_trans; eauto|]; split; [eapply sub_trans; eauto|];
       split; [intros x So Fx; apply I4; auto; eapply alike_sol; eauto|]; split;
       [ intros j Nj; rewrite I5 by (intros X; apply Nj; right; auto); apply lset_eq in Er1; destruct Er1 as [L1 ->]; rewrite upd_nth_error by auto;
         destruct (Nat.eqb_spec j k) as [-> |]; [exfalso; apply Nj; left; auto|auto]
       | intros NO j oj [<- |Ij] Ej;
         [ assert (oj = o) by congruence; subst oj; exists row1; split;
           [ rewrite I5 by auto; apply lset_eq in Er1; destruct Er1 as [L1 ->]; rewrite upd_nth_error by auto; rewrite Nat.eqb_refl; auto
           | intros x So Fx s Ch Ob; destruct (A5 x (sol_one _ _ _ _ _ (nth_error_In _ _ Eo) So) Fx (Hi x So Fx)) as (_ & _ & B3); exact (B3 s Ch Ob (NO k)) ]
         | pose proof Al1 as [_ Al1']; destruct (Al1' _ _ Ej) as (oj1 & Ej1 & M1 & C1); destruct (I6 NO _ _ Ij Ej1) as (rw & R1 & R2); exists rw; split; auto;
           intros x So Fx s Ch Ob; apply (R2 x); auto; [eapply alike_sol; eauto | unfold choice in *; rewrite M1; auto | unfold obeys, consequences in *; rewrite C1; auto ] ] ]
     | intros x So Fx; apply (IH x); auto; eapply alike_sol; eauto ]).
Qed.

(** Fixing by the bounds of the root. *)
Lemma fix_row_in : forall row cutoff mem s0 b b' x, fix_row row cutoff s0 mem b = Ok b' -> NoDup mem -> inside b x ->
  (forall j c d, nth_error mem j = Some c -> nth_error row (s0 + j) = Some d -> cutoff < d -> x c == lo b c) -> inside b' x /\ keeps b b' /\ b_lo b' = b_lo b.
Proof.
  intros row cutoff. induction mem as [|c mem IH]; intros s0 b b' x H N I Hx; cbn [fix_row] in H.
  - inv H. auto using keeps_refl.
  - bnd H l El. apply getLo_ok in El. destruct El as [Lc ->]. bnd H u Eu. apply getUp_ok in Eu. destruct Eu as [Uc ->]. inversion N as [|c0 l0 N1 N2]; subst.
    assert (Nx : forall j c' d, nth_error mem j = Some c' -> nth_error row (S s0 + j) = Some d -> cutoff < d -> x c' == lo b c').
    { intros j c' d Ej Ed Cd. apply (Hx (S j) c' d); auto. replace (s0 + S j)%nat with (S s0 + j)%nat by lia. auto. }
    destruct (Qltb (up b c) (lo b c + (1 # 2))); [eapply IH; eauto|]. bnd H d Ed. apply rd_ok in Ed. destruct (Qltb cutoff d) eqn:Q1; [|eapply IH; eauto]. apply Qltb_lt in Q1.
    bnd H b1 E1. apply setUp_ok in E1. assert (I1 : inside b1 x). { eapply drop_in; eauto. apply (Hx 0%nat c d); auto. rewrite Nat.add_0_r. auto. }
    destruct (IH _ _ _ _ H N2 I1) as (A & B & C).
    + intros j c' d' Ej Ed' Cd. rewrite (uu_lov _ _ _ _ E1). eapply Nx; eauto.
    + split; auto. split; [eapply keeps_trans; [eapply drop_keeps; eauto|auto]|]. rewrite C. apply (uu_lo _ _ _ _ E1).
Qed.
Lemma quick_in : forall objs rows cutoff c0 objs0 b0 feas f x, (forall o, In o objs -> wf o b0) -> cutoff <= c0 -> solution feas objs0 b0 x -> alike objs0 objs -> f x <= cutoff ->
  forall lst b b', quick_fix objs rows cutoff lst b = Ok b' -> length (b_lo b) = length (b_lo b0) -> (forall c, (c < length (b_lo b0))%nat -> lo b0 c <= lo b c) -> inside b x ->
  (forall k o, In k lst -> nth_error objs k = Some o -> exists row, nth_error rows k = Some row /\ row_good feas f c0 objs0 b0 o row) -> inside b' x.
Proof.
  intros objs rows cutoff c0 objs0 b0 feas f x W Cc So Al Fx. induction lst as [|k lst IH]; intros b b' H Lb Hb I G; cbn [quick_fix] in H.
  - inv H. auto.
  - bnd H o Eo. apply rd_ok in Eo. bnd H row Er. apply rd_ok in Er. bnd H b1 E1. destruct (G k o (or_introl eq_refl) Eo) as (row' & Er' & Gr). assert (row' = row) by congruence. subst row'.
    pose proof (W o (nth_error_In _ _ Eo)) as Wo. pose proof (alike_sol _ _ _ _ _ Al So) as (Fe & I0 & Sh). destruct (Sh o (nth_error_In _ _ Eo)) as (s & Ch & Ob).
    destruct (Gr x So ltac:(lra) s Ch Ob) as (v & V & Lv). destruct (fix_row_in _ _ _ _ _ _ x E1 (wf_nd _ _ Wo) I) as (A & B & C).
    { intros j c d Ej Ed Cd. cbn [Nat.add] in Ed. assert (j <> s) by (intros ->; assert (d = v) by congruence; subst d; lra).
      assert (Lc : (c < length (b_lo b0))%nat) by (apply (wf_mem _ _ Wo); eapply nth_error_In; eauto).
      assert (x c == lo b0 c). { destruct Ch as [_ Ch]. destruct (Qlt_le_dec (lo b0 c) (up b0 c)) as [F|F]; [eapply Ch; eauto|]. destruct (I0 c Lc). lra. }
      specialize (Hb c Lc). destruct (I c); [lia|]. lra. }
    eapply IH; eauto.
    + rewrite C. auto.
    + intros c Lc. unfold lo at 2. rewrite C. apply Hb; auto.
    + intros k' o' Ik. apply G. right. auto.
Qed.

(** ** The sets made from SOS constraints *)
Lemma group_one_ok : forall w cols j g g', group_one w j cols g = Ok g' -> length g' = length g /\
  forall n d, In d (nth n g' []) <-> In d (nth n g []) \/ exists j', nth_error cols j' = Some d /\ nth_error w (j + j') = Some (Z.of_nat n).
Proof.
  intros w. induction cols as [|c cols IH]; intros j g g' H; cbn [group_one] in H.
  - inv H. split; auto. intros n d. split; auto. intros [A|(j' & A & _)]; auto. destruct j'; discriminate.
  - bnd H z Ez. apply rd_ok in Ez. destruct (Z.ltb_spec z 0) as [|Zp]; [discriminate|]. bnd H l El. apply rd_ok in El. bnd H g1 E1. apply lset_eq in E1. destruct E1 as [Lg ->].
    destruct (IH _ _ _ H) as [A B]. split; [rewrite A; apply upd_len; auto|]. intros n d. rewrite B, upd_nth by auto. destruct (Nat.eqb_spec n (Z.to_nat z)) as [-> |N].
    + erewrite (nth_error_nth g) by eauto. rewrite in_app_iff. split.
      * intros [[I|[<- |[]]]|(j' & C & D)]; auto; [right; exists 0%nat; rewrite Nat.add_0_r, Z2Nat.id by auto; auto|]. right. exists (S j'). replace (j + S j')%nat with (S j + j')%nat by lia. auto.
      * intros [I|(j' & C & D)]; auto. destruct j' as [|j']; [inv C; left; right; left; auto|]. right. exists j'. replace (S j + j')%nat with (j + S j')%nat by lia. auto.
    + split.
      * intros [I|(j' & C & D)]; auto. right. exists (S j'). replace (j + S j')%nat with (S j + j')%nat by lia. auto.
      * intros [I|(j' & C & D)]; auto. destruct j' as [|j']; [exfalso; apply N; rewrite Nat.add_0_r, Ez in D; inv D; rewrite Nat2Z.id; auto|].
        right. exists j'. replace (S j + j')%nat with (j + S j')%nat by lia. auto.
Qed.
Lemma groups_ok : forall w sets g g', groups w sets g = Ok g' -> length g' = length g /\
  forall n d, In d (nth n g' []) <-> In d (nth n g []) \/ exists i cols j, nth_error sets i = Some cols /\ nth_error cols j = Some d /\ nth_error w j = Some (Z.of_nat n).
Proof.
  intros w. induction sets as [|cols sets IH]; intros g g' H; cbn [groups] in H.
  - inv H. split; auto. intros n d. split; auto. intros [A|(i & cols & j & A & _)]; auto. destruct i; discriminate.
  - bnd H g1 E1. destruct (group_one_ok _ _ _ _ _ E1) as [A1 B1]. destruct (IH _ _ H) as [A2 B2]. split; [congruence|]. intros n d. rewrite B2, B1. cbn [Nat.add]. split.
    + intros [[I|(j & C & D)]|(i & cl & j & X & C & D)]; auto; right; [exists 0%nat, cols, j; auto|]. exists (S i), cl, j. auto.
    + intros [I|(i & cl & j & X & C & D)]; auto. destruct i as [|i]; [inv X; left; right; exists j; auto|]. right. exists i, cl, j. auto.
Qed.
Lemma setC_ok : forall s c o o', setConsequence s c o = Ok o' -> n_mem o' = n_mem o /\ n_bnd o' = n_bnd o /\
  (exists l', n_cons o' = Some l' /\ length l' = match n_cons o with None => length (n_mem o) | Some l => length l end) /\
  consequences o' s = c /\ forall s', s' <> s -> consequences o' s' = consequences o s'.
Proof.
  intros s c o o' H. unfold setConsequence in H. cbv zeta in H. bnd H l' E. apply lset_eq in E. inv H. destruct E as [L ->]. cbn [n_mem n_bnd n_cons]. split; auto. split; auto. split.
  { eexists. split; [reflexivity|]. rewrite upd_len by auto. destruct (n_cons o); auto. apply repeat_length. }
  unfold consequences. cbn [n_cons]. split; [rewrite upd_nth_error, Nat.eqb_refl by auto; auto|]. intros s' N. rewrite upd_nth_error by auto. apply Nat.eqb_neq in N. rewrite N.
  destruct (n_cons o); auto. destruct (nth_error (repeat None (length (n_mem o))) s') as [q|] eqn:Q0; auto. apply nth_error_In, repeat_spec in Q0. subst q. auto.
Qed.
Lemma set_cons_ok : forall w g cols j o o', set_cons w g j cols o = Ok o' -> n_mem o' = n_mem o /\ n_bnd o' = n_bnd o /\ (forall s, (s < j)%nat -> consequences o' s = consequences o s) /\
  forall j' c z, nth_error cols j' = Some c -> nth_error w (j + j') = Some z -> (0 <= z)%Z /\ consequences o' (j + j') = filter (fun k => negb (Nat.eqb k c)) (nth (Z.to_nat z) g []).
Proof.
  intros w g. induction cols as [|c cols IH]; intros j o o' H; cbn [set_cons] in H.
  - inv H. split; auto. split; auto. split; auto. intros j' c z X. destruct j'; discriminate.
  - bnd H z Ez. apply rd_ok in Ez. destruct (Z.ltb_spec z 0) as [|Zp]; [discriminate|]. bnd H l El. apply rd_ok in El. bnd H o1 E1. destruct (setC_ok _ _ _ _ E1) as (A1 & A2 & _ & A3 & A4).
    destruct (IH _ _ _ H) as (B1 & B2 & B3 & B4). split; [congruence|]. split; [congruence|]. split; [intros s Ls; rewrite B3 by lia; apply A4; lia|].
    intros j' c' z' Ec Ew. destruct j' as [|j'].
    + inv Ec. rewrite Nat.add_0_r in *. assert (z' = z) by congruence. subst z'. split; auto. rewrite B3 by lia. rewrite A3. erewrite (nth_error_nth g) by eauto. auto.
    + replace (j + S j')%nat with (S j + j')%nat in * by lia. apply B4; auto.
Qed.
Lemma make_all_ok : forall w g sets objs, make_all w g sets = Ok objs -> length objs = length sets /\
  forall i cols, nth_error sets i = Some cols -> exists o, nth_error objs i = Some o /\ set_cons w g 0 cols (make cols) = Ok o.
Proof.
  intros w g. induction sets as [|cols sets IH]; intros objs H; cbn [make_all] in H.
  - inv H. split; auto. intros i cols E. destruct i; discriminate.
  - bnd H o E. bnd H l El. inv H. destruct (IH _ El) as [A B]. split; [cbn; congruence|]. intros [|i] cl X; [inv X; exists o; auto|]. apply B. auto.
Qed.
Lemma addNWays_ok : forall w sets objs, addNWays w sets = Ok objs -> length objs = length sets /\
  forall i j cols c z, nth_error sets i = Some cols -> nth_error cols j = Some c -> nth_error w j = Some z ->
  exists o, nth_error objs i = Some o /\ n_mem o = cols /\ n_bnd o = [] /\ forall d, In d (consequences o j) <->
    d <> c /\ exists i' cols' j', nth_error sets i' = Some cols' /\ nth_error cols' j' = Some d /\ nth_error w j' = Some z.
Proof.
  intros w sets objs H. unfold addNWays in H. bnd H g Eg. destruct (groups_ok _ _ _ _ Eg) as [_ G]. destruct (make_all_ok _ _ _ _ H) as [A B]. split; auto.
  intros i j cols c z Ei Ej Ew. destruct (B _ _ Ei) as (o & Eo & Es). destruct (set_cons_ok _ _ _ _ _ _ Es) as (C1 & C2 & _ & C3). exists o. split; auto. split; auto. split; auto.
  destruct (C3 j c z Ej Ew) as [Zp C]. cbn [Nat.add] in C. intros d. rewrite C, filter_In, G, Z2Nat.id by auto. assert (Em : ~ In d (nth (Z.to_nat z) (repeat [] (S (length sets))) [])).
  { destruct (Nat.lt_ge_cases (Z.to_nat z) (S (length sets))) as [L|L]; [|rewrite nth_overflow by (rewrite repeat_length; auto); auto].
    assert (K : In (nth (Z.to_nat z) (repeat (@nil nat) (S (length sets))) []) (repeat [] (S (length sets)))) by (apply nth_In; rewrite repeat_length; auto).
    apply repeat_spec in K. rewrite K. auto. }
  rewrite negb_true_iff, Nat.eqb_neq. firstorder.
Qed.
(** It runs when the weights used are at least zero and at most the number of sets. *)
Lemma group_one_runs : forall w cols j g, (j + length cols <= length w)%nat -> (forall z, In z w -> (0 <= z < Z.of_nat (length g))%Z) -> exists g', group_one w j cols g = Ok g' /\ length g' = length g.
Proof.
  intros w. induction cols as [|c cols IH]; intros j g L Wz; cbn [group_one]; [eauto|]. cbn [length] in L.
  destruct (nth_error w j) as [z|] eqn:Ez; [|apply nth_error_None in Ez; lia]. unfold rd at 1. rewrite Ez. cbn [bind]. pose proof (Wz z (nth_error_In _ _ Ez)) as Zp.
  destruct (Z.ltb_spec z 0); [lia|]. destruct (nth_error g (Z.to_nat z)) as [l|] eqn:El; [|apply nth_error_None in El; lia]. unfold rd at 1. rewrite El. cbn [bind].
  rewrite lset_ok by lia. cbn [bind]. destruct (IH (S j) (firstn (Z.to_nat z) g ++ (l ++ [c]) :: skipn (S (Z.to_nat z)) g)) as (g' & E & Lg); [lia|rewrite upd_len by lia; auto|].
  exists g'. split; auto. rewrite Lg. apply upd_len. lia.
Qed.
Lemma groups_runs : forall w sets g, (forall cols, In cols sets -> (length cols <= length w)%nat) -> (forall z, In z w -> (0 <= z < Z.of_nat (length g))%Z) ->
  exists g', groups w sets g = Ok g' /\ length g' = length g.
Proof.
  intros w. induction sets as [|cols sets IH]; intros g L Wz; cbn [groups]; [eauto|]. destruct (group_one_runs w cols 0 g) as (g1 & E1 & L1); auto; [cbn; apply L; left; auto|].
  rewrite E1. cbn [bind]. destruct (IH g1) as (g2 & E2 & L2); [intros; apply L; right; auto|rewrite L1; auto|]. exists g2. split; auto. congruence.
Qed.
Lemma set_cons_runs : forall w g cols j o, (j + length cols <= length w)%nat -> (j + length cols <= length (n_mem o))%nat -> (forall l, n_cons o = Some l -> length l = length (n_mem o)) ->
  (forall z, In z w -> (0 <= z < Z.of_nat (length g))%Z) -> exists o', set_cons w g j cols o = Ok o'.
Proof.
  intros w g. induction cols as [|c cols IH]; intros j o L Lm Lc Wz; cbn [set_cons]; [eauto|]. cbn [length] in *.
  destruct (nth_error w j) as [z|] eqn:Ez; [|apply nth_error_None in Ez; lia]. unfold rd at 1. rewrite Ez. cbn [bind]. pose proof (Wz z (nth_error_In _ _ Ez)) as Zp.
  destruct (Z.ltb_spec z 0); [lia|]. destruct (nth_error g (Z.to_nat z)) as [l|] eqn:El; [|apply nth_error_None in El; lia]. unfold rd at 1. rewrite El. cbn [bind].
  assert (R : exists o1, setConsequence j (filter (fun k => negb (Nat.eqb k c)) l) o = Ok o1).
  { unfold setConsequence. cbv zeta. rewrite lset_ok; [cbn [bind]; eauto|]. destruct (n_cons o); [rewrite (Lc _ eq_refl); lia|rewrite repeat_length; lia]. }
  destruct R as (o1 & E1). rewrite E1. cbn [bind]. destruct (setC_ok _ _ _ _ E1) as (A1 & _ & (l' & A2 & A3) & _). apply IH; auto; try lia; rewrite A1; [lia|].
  intros l0 E. rewrite A2 in E. inv E. rewrite A3. destruct (n_cons o); auto.
Qed.
Lemma make_all_runs : forall w g sets, (forall cols, In cols sets -> (length cols <= length w)%nat) -> (forall z, In z w -> (0 <= z < Z.of_nat (length g))%Z) -> exists objs, make_all w g sets = Ok objs.
Proof.
  intros w g. induction sets as [|cols sets IH]; intros L Wz; cbn [make_all]; [eauto|].
  destruct (set_cons_runs w g cols 0 (make cols)) as (o & E); cbn; auto; [apply L; left; auto|intros; discriminate|]. rewrite E. cbn [bind].
  destruct IH as (l & El); auto; [intros; apply L; right; auto|]. rewrite El. cbn. eauto.
Qed.
Lemma addNWays_runs : forall w sets, (forall cols, In cols sets -> (length cols <= length w)%nat) -> (forall z, In z w -> (0 <= z <= Z.of_nat (length sets))%Z) -> exists objs, addNWays w sets = Ok objs.
Proof.
  intros w sets L Wz. unfold addNWays. destruct (groups_runs w sets (repeat [] (S (length sets)))) as (g & E & Lg); auto; [intros z I; specialize (Wz z I); rewrite repeat_length; lia|].
  rewrite E. cbn [bind]. apply make_all_runs; auto. intros z I. specialize (Wz z I). rewrite Lg, repeat_length. lia.
Qed.

(** ** Staying within arrays *)
Definition safe {A} (a : outcome A) : Prop := a <> OutOfBounds.
Lemma safe_bind : forall A B (a : outcome A) (f : A -> outcome B), safe a -> (forall v, a = Ok v -> safe (f v)) -> safe (bind a f).
Proof. intros A B a f Sa Sf. unfold safe in *. destruct a; cbn; auto; discriminate. Qed.
Lemma safe_ok : forall A (v : A), safe (Ok v).
Proof. intros A v. unfold safe. discriminate. Qed.
Lemma safe_chk : forall c, safe (chk c).
Proof. intros [|]; unfold safe; discriminate. Qed.
Lemma safe_rd : forall A i (l : list A), (i < length l)%nat -> safe (rd i l).
Proof. intros A i l L. unfold rd. destruct (nth_error l i) eqn:E; [apply safe_ok|]. apply nth_error_None in E. lia. Qed.
Lemma safe_lset : forall A i (v : A) l, (i < length l)%nat -> safe (lset i v l).
Proof. intros A i v l L. rewrite lset_ok by auto. apply safe_ok. Qed.
Lemma safe_setUp : forall c v b, (c < length (b_up b))%nat -> safe (setUp c v b).
Proof. intros c v b L. destruct (setUp_set c v b L) as (b' & ->). apply safe_ok. Qed.
Lemma safe_setLo : forall c v b, (c < length (b_lo b))%nat -> safe (setLo c v b).
Proof. intros c v b L. destruct (setLo_set c v b L) as (b' & ->). apply safe_ok. Qed.
(** Number of columns. *)
Definition dim (n : nat) (b : box) : Prop := length (b_lo b) = n /\ length (b_up b) = n.
Lemma dim_keeps : forall n b b', dim n b -> keeps b b' -> dim n b'.
Proof. intros n b b' [A B] (C & D & _). split; congruence. Qed.
Lemma dim_up : forall n c v b b', dim n b -> upd_up c v b b' -> dim n b'.
Proof. intros n c v b b' [A B] U. split; [rewrite (uu_lo _ _ _ _ U); auto|rewrite (uu_len _ _ _ _ U); auto]. Qed.
Lemma dim_lo : forall n c v b b', dim n b -> upd_lo c v b b' -> dim n b'.
Proof. intros n c v b b' [A B] U. split; [rewrite (ul_len _ _ _ _ U); auto|rewrite (ul_up _ _ _ _ U); auto]. Qed.
Lemma applyAll_safe : forall n l ones b, dim n b -> (forall c, In c l -> (c < n)%nat) -> safe (applyAll l ones b).
Proof.
  intros n. induction l as [|c l IH]; intros ones b D L; cbn [applyAll].
  - apply safe_bind; [apply safe_chk|intros; apply safe_ok].
  - pose proof (L c (or_introl eq_refl)). destruct D as [D1 D2]. apply safe_bind; [apply safe_rd; lia|]. intros v _. apply safe_bind; [apply safe_setUp; lia|]. intros b' E.
    apply IH; [eapply dim_up; [split; eauto|apply setUp_ok; eauto]|]. intros; apply L; right; auto.
Qed.
Lemma applyC_safe : forall n o s b, dim n b -> (forall l, n_cons o = Some l -> (s < length l)%nat) -> (forall c, In c (consequences o s) -> (c < n)%nat) -> safe (applyConsequence o s b).
Proof.
  intros n o s b D L C. unfold applyConsequence, consequences in *. destruct (n_cons o) as [l|]; [|apply safe_ok]. apply safe_bind; [apply safe_rd; auto|]. intros c E. apply rd_ok in E.
  rewrite E in C. destruct c; [eapply applyAll_safe; eauto|apply safe_ok].
Qed.
Lemma arms_safe : forall n o which order j b, dim n b -> (forall c, In c (n_mem o) -> (c < n)%nat) -> (forall l, n_cons o = Some l -> length l = length (n_mem o)) ->
  (forall s c, In c (consequences o s) -> (c < n)%nat) -> (forall s, In s order -> (s < length (n_mem o))%nat) -> safe (arms o which j order b).
Proof.
  intros n o which. induction order as [|s order IH]; intros j b D M C Cc Or; cbn [arms]; [apply safe_ok|].
  pose proof (Or s (or_introl eq_refl)) as Ls. apply safe_bind; [apply safe_rd; auto|]. intros c Ec. apply rd_ok in Ec. pose proof (M c (nth_error_In _ _ Ec)) as Lc. pose proof D as [D1 D2].
  assert (Rec : forall b', dim n b' -> safe (arms o which (S j) order b')) by (intros; apply IH; auto; intros; apply Or; right; auto).
  destruct (match which with Some w => Nat.eqb j w | None => false end).
  - apply safe_bind.
    + apply safe_bind; [apply safe_rd; lia|]. intros u _. apply safe_bind; [apply safe_setLo; lia|]. intros b1 E1. apply safe_bind; [apply safe_chk|]. intros _ _.
      eapply applyC_safe; [eapply dim_lo; [eauto|apply setLo_ok; eauto]| |]; eauto. intros l El. rewrite (C _ El). auto.
    + intros b' E. apply Rec. bnd E u Eu. bnd E b1 E1. bnd E z Ez. apply applyC_ok in E. eapply dim_keeps; [|apply E]. eapply dim_lo; eauto. apply setLo_ok. eauto.
  - apply safe_bind.
    + apply safe_bind; [apply safe_rd; lia|]. intros l _. apply safe_bind; [apply safe_setUp; lia|]. intros b1 E1. apply safe_bind; [apply safe_chk|intros; apply safe_ok].
    + intros b' E. apply Rec. bnd E u Eu. bnd E b1 E1. bnd E z Ez. inv E. eapply dim_up; eauto. apply setUp_ok. eauto.
Qed.
Lemma skips_safe : forall n o sk b, dim n b -> (forall c, In c (n_mem o) -> (c < n)%nat) -> (forall s, In s sk -> (s < length (n_mem o))%nat) -> safe (skips o sk b).
Proof.
  intros n o. induction sk as [|s sk IH]; intros b D M Or; cbn [skips]; [apply safe_ok|]. pose proof (Or s (or_introl eq_refl)) as Ls. apply safe_bind; [apply safe_rd; auto|].
  intros c Ec. apply rd_ok in Ec. pose proof (M c (nth_error_In _ _ Ec)) as Lc. pose proof D as [D1 D2]. apply safe_bind; [apply safe_rd; lia|]. intros l _. apply safe_bind; [apply safe_rd; lia|].
  intros u _. apply safe_bind; [apply safe_chk|]. intros _ _. apply safe_bind; [apply safe_setUp; lia|]. intros b1 E1. apply IH; auto; [eapply dim_up; eauto; apply setUp_ok; eauto|].
  intros; apply Or; right; auto.
Qed.
Lemma branch_safe : forall n o r k b, dim n b -> wf o b -> (forall s, In s (fst r ++ snd r) -> (s < length (n_mem o))%nat) -> safe (branchNext o r k b).
Proof.
  intros n o r k b D W Or. pose proof D as [D1 D2]. unfold branchNext, branchOn.
  assert (M : forall c, In c (n_mem o) -> (c < n)%nat) by (intros c I; rewrite <- D1; apply (wf_mem _ _ W); auto).
  apply safe_bind.
  - eapply arms_safe; eauto; [apply (wf_cons _ _ W)|intros s c I; rewrite <- D1; eapply (wf_ccol _ _ W); eauto|intros; apply Or; apply in_or_app; auto].
  - intros b1 E1. destruct (which_of r k); [|apply safe_ok]. eapply skips_safe; eauto; [|intros; apply Or; apply in_or_app; auto].
    apply arms_keeps in E1. eapply dim_keeps; eauto.
Qed.
Lemma collect_safe : forall n o i b mem s, dim n b -> length (i_x i) = n -> (forall c, In c mem -> (c < n)%nat) -> n_bnd o = [] -> safe (collect o i b s mem).
Proof.
  intros n o i b. induction mem as [|c mem IH]; intros s D Lx M B; cbn [collect]; [apply safe_ok|]. pose proof (M c (or_introl eq_refl)) as Lc. pose proof D as [D1 D2].
  assert (R : forall s, safe (collect o i b s mem)) by (intros; apply IH; auto; intros; apply M; right; auto).
  apply safe_bind; [apply safe_rd; lia|]. intros v _. apply safe_bind; [apply safe_rd; lia|]. intros l _. apply safe_bind; [apply safe_rd; lia|]. intros u _. cbv zeta.
  destruct (Qltb l u); [|apply R]. rewrite B. cbn [bind]. apply safe_bind; [apply R|]. intros r _. destruct (_ && _)%bool; apply safe_ok.
Qed.
Lemma sb_safe : forall p o i r ans nc, (length (n_mem o) <= p_nobj p)%nat -> snd r = [] -> (forall s, In s (fst r) -> (s < length (n_mem o))%nat) ->
  forall n k row fixed b, dim nc b -> wf o b -> length row = p_nobj p -> (k + n <= length (fst r))%nat -> safe (sb_loop p o i r ans k n row fixed b).
Proof.
  intros p o i r ans nc Lm Sk Or. induction n as [|n IH]; intros k row fixed b D W Lr Kn; cbn [sb_loop]; [apply safe_ok|].
  apply safe_bind; [eapply branch_safe; eauto; rewrite Sk, app_nil_r; auto|]. intros b1 _. apply safe_bind; [apply safe_rd; lia|]. intros s Es. apply rd_ok in Es.
  pose proof (Or s (nth_error_In _ _ Es)) as Ls. apply safe_bind; [apply safe_rd; auto|]. intros c Ec. apply rd_ok in Ec. cbv zeta. pose proof D as [D1 D2].
  assert (Lc : (c < nc)%nat) by (rewrite <- D1; apply (wf_mem _ _ W); eapply nth_error_In; eauto).
  apply safe_bind; [destruct (Nat.eqb (i_depth i) 0); [apply safe_lset; lia|apply safe_ok]|]. intros row1 Er.
  assert (Lr1 : length row1 = p_nobj p). { destruct (Nat.eqb (i_depth i) 0); [|inv Er; auto]. apply lset_eq in Er. destruct Er as [L0 ->]. rewrite upd_len by auto. auto. }
  apply safe_bind; [apply safe_rd; rewrite repeat_length; lia|]. intros _ _. destruct (_ && _)%bool; [|apply IH; auto; lia].
  apply safe_bind; [apply safe_rd; lia|]. intros l _. apply safe_bind; [apply safe_setUp; lia|]. intros b2 E2. apply setUp_ok in E2. apply IH; auto; [eapply dim_up; eauto|eapply wf_drop; eauto|lia].
Qed.

(** ** The choice *)
Lemma pick_some : forall fixing root tests prio best code first c k, pick fixing root tests prio best code first = (c, k) -> best <> None ->
  exists s, k = Some s /\ ((exists w, best = Some (s, w)) \/ In s (map (fun t => fst (fst (fst t))) tests)).
Proof.
  intros fixing root. induction tests as [|[[[k0 q] t] v] tests IH]; intros prio best code first c k H B; cbn [pick] in H.
  - inv H. destruct best as [[s w]|]; [|congruence]. exists s. split; eauto.
  - destruct best as [[s w]|]; [|congruence]. destruct (q <? prio)%Z; [inv H; exists s; split; eauto|].
    set (nb := if Qltb w v then Some (k0, v) else Some (s, w)) in *.
    assert (Nb : nb = Some (k0, v) \/ nb = Some (s, w)) by (unfold nb; destruct (Qltb w v); auto).
    destruct t; [inv H; exists s; split; eauto| | |].
    + destruct (IH _ _ _ _ _ _ H) as (s' & E & C); [destruct Nb as [-> | ->]; discriminate|]. exists s'. split; auto. cbn [map In fst]. destruct C as [(w' & C)|C]; auto.
      destruct Nb as [N|N]; rewrite N in C; inv C; eauto.
    + destruct (IH _ _ _ _ _ _ H) as (s' & E & C); [destruct Nb as [-> | ->]; discriminate|]. exists s'. split; auto. cbn [map In fst]. destruct C as [(w' & C)|C]; auto.
      destruct Nb as [N|N]; rewrite N in C; inv C; eauto.
    + destruct Nb as [N|N]; rewrite N in H; inv H; eexists; (split; [reflexivity|]); cbn [map In fst]; eauto.
Qed.
(** With tests of one priority, none of which stops the loop, the first of the most useful wins. *)
Lemma pick_best : forall fixing root first q0 tests bk bv code c k,
  (forall t, In t tests -> snd (fst (fst t)) = q0 /\ (snd (fst t) = Fixed \/ snd (fst t) = Nothing)) ->
  pick fixing root tests q0 (Some (bk, bv)) code first = (c, k) ->
  exists s v, k = Some s /\ ((s = bk /\ v = bv) \/ exists q t, In (s, q, t, v) tests) /\ bv <= v /\ (forall t, In t tests -> snd t <= v).
Proof.
  intros fixing root first q0. induction tests as [|[[[k0 q] t] w] tests IH]; intros bk bv code c k Hq H; cbn [pick] in H.
  - inv H. exists bk, bv. split; auto. split; auto. split; [lra|]. intros t [].
  - destruct (Hq _ (or_introl eq_refl)) as [Q1 T1]. cbn [fst snd] in Q1, T1. subst q. rewrite Z.ltb_irrefl in H.
    assert (Hq' : forall t, In t tests -> snd (fst (fst t)) = q0 /\ (snd (fst t) = Fixed \/ snd (fst t) = Nothing)) by (intros; apply Hq; right; auto).
    assert (H' : exists code', pick fixing root tests q0 (if Qltb bv w then Some (k0, w) else Some (bk, bv)) code' first = (c, k)) by (destruct T1; subst t; eauto).
    clear H. destruct H' as (code' & H). destruct (Qltb bv w) eqn:L; [apply Qltb_lt in L|apply Qltb_ge in L].
    + destruct (IH _ _ _ _ _ Hq' H) as (s & v & E & O & B & A). exists s, v. split; auto. split; [|split; [lra|]].
      * destruct O as [[-> ->]|(q & t' & I)]; right; [exists q0, t; left; auto|exists q, t'; right; auto].
      * intros u [<- |I]; auto.
    + destruct (IH _ _ _ _ _ Hq' H) as (s & v & E & O & B & A). exists s, v. split; auto. split; [|split; [lra|]].
      * destruct O as [[-> ->]|(q & t' & I)]; [auto|]. right. exists q, t'. right. auto.
      * intros u [<- |I]; auto. cbn [snd]. lra.
Qed.
Lemma pick_neg : forall fixing root tests prio best code first k, pick fixing root tests prio best code first = ((-1)%Z, k) -> code <> (-1)%Z -> exists t, In t tests /\ snd (fst t) = Infeasible.
Proof.
  intros fixing root. induction tests as [|[[[k0 q] t] v] tests IH]; intros prio best code first k H B; cbn [pick] in H; [inv H; congruence|].
  destruct (q <? prio)%Z; [inv H; congruence|].
  destruct t; [exists (k0, q, Infeasible, v); split; [left; auto|auto]| | |discriminate].
  - destruct (IH _ _ _ _ _ H) as (t & I & E); [destruct (fixing && root)%bool; [discriminate|auto]|]. exists t. split; [right|]; auto.
  - destruct (IH _ _ _ _ _ H) as (t & I & E); auto. exists t. split; [right|]; auto.
Qed.
