(** Outer descriptions of separable problems: lemmas. *)
From Verif Require Import Base Arr Spa_Model Spa_Spec.
From Coq Require Import Lqa.
#[local] Open Scope Q_scope.

Lemma up_ok_eadd b d v : up_ok (eadd b d) v <-> up_ok b (v - d).
Proof. destruct b; simpl; try tauto. split; intros; lra. Qed.
Lemma lo_ok_eadd b d v : lo_ok (eadd b d) v <-> lo_ok b (v - d).
Proof. destruct b; simpl; try tauto. split; intros; lra. Qed.
Lemma up_ok_le b v w : v <= w -> up_ok b w -> up_ok b v.
Proof. destruct b; simpl; auto. intros; lra. Qed.
Lemma lo_ok_le b v w : w <= v -> lo_ok b w -> lo_ok b v.
Proof. destruct b; simpl; auto. intros; lra. Qed.
Lemma up_ok_eq b v w : v == w -> up_ok b w -> up_ok b v.
Proof. intros H. apply up_ok_le. lra. Qed.
Lemma lo_ok_eq b v w : v == w -> lo_ok b w -> lo_ok b v.
Proof. intros H. apply lo_ok_le. lra. Qed.
Lemma qsum_app l l' : qsum (l ++ l') == qsum l + qsum l'.
Proof. induction l; simpl. ring. rewrite IHl. ring. Qed.
Lemma lhs_app p q y : lhs (p ++ q) y == lhs p y + lhs q y.
Proof. unfold lhs. rewrite map_app. apply qsum_app. Qed.
Lemma lhs_one c v y : lhs [(c, v)] y == v * nth c y 0.
Proof. unfold lhs. cbn. ring. Qed.
Lemma lhs_cons c v p y : lhs ((c, v) :: p) y == v * nth c y 0 + lhs p y.
Proof. unfold lhs. cbn. ring. Qed.
Lemma rd_nth {A} i (l : list A) d : (i < length l)%nat -> rd i l = Ok (nth i l d).
Proof. intros H. unfold rd. rewrite (nth_error_nth' l d H). reflexivity. Qed.
Lemma rd_ok {A} i (l : list A) d v : rd i l = Ok v -> (i < length l)%nat /\ v = nth i l d.
Proof.
  unfold rd. destruct (nth_error l i) eqn:E; [|discriminate]. intros H; injection H as <-.
  split. apply nth_error_Some; congruence. symmetry; now apply nth_error_nth.
Qed.
Lemma pv_insert_ok c v p p' : pv_insert c v p = Ok p' -> p' = p ++ [(c, v)].
Proof. unfold pv_insert. destruct (existsb _ _); [discriminate|]. intros H; injection H as <-; reflexivity. Qed.
Lemma pv_insert_fresh c v p : ~ In c (map fst p) -> pv_insert c v p = Ok (p ++ [(c, v)]).
Proof.
  intros H. unfold pv_insert. destruct (existsb _ p) eqn:E; [|reflexivity].
  apply existsb_exists in E. destruct E as [[d w] [I E]]. apply Nat.eqb_eq in E. cbn in E; subst d.
  elim H. apply in_map_iff. exists (c, w); auto.
Qed.
Lemma pv_insert_dup c v p : In c (map fst p) -> pv_insert c v p = Thrown.
Proof.
  intros H. unfold pv_insert. apply in_map_iff in H. destruct H as [[d w] [E I]]. cbn in E; subst d.
  replace (existsb _ p) with true; [reflexivity|]. symmetry. apply existsb_exists. exists (c, w). split; [exact I|]. apply Nat.eqb_refl.
Qed.

Lemma bounded_lo_some l q : bounded_lo l = Some q -> l = Fin q.
Proof. destruct l as [|l|]; simpl; try discriminate. destruct (Qltb _ _); congruence. Qed.
Lemma bounded_up_some l q : bounded_up l = Some q -> l = Fin q.
Proof. destruct l as [|l|]; simpl; try discriminate. destruct (Qltb _ _); congruence. Qed.

(** Version in terms of what the sides say, to avoid talking about Leibniz equality of sums. *)
Section Clean.
Variable tiny vtiny : Q.
Lemma clean_lp_spec l u rl ru x v lb ub k v' lb' ub' : clean_lp tiny vtiny l u rl ru x v lb ub = (k, v', lb', ub') ->
  v' = v /\
  if k then lb' = lb /\ ub' = ub
  else forall y t, lo_ok l y -> up_ok u y ->
    let e := if Qltb (Qabs v) vtiny then Qabs (v * (y - x)) else 0 in
    (ru <> PInf -> up_ok ub (t + v * (y - x) + e) -> up_ok ub' t) /\
    (rl <> MInf -> lo_ok lb (t + v * (y - x) - e) -> lo_ok lb' t).
Proof.
  unfold clean_lp. destruct (Qle_bool tiny (Qabs v)) eqn:T.
  { intros H. injection H as <- <- <- <-. auto. }
  destruct (Qltb (Qabs v) vtiny) eqn:V.
  { intros H. injection H as <- <- <- <-. split; [reflexivity|]. intros y t _ _. cbn zeta.
    pose proof (Qle_Qabs (v * (y - x))). pose proof (Qle_Qabs (- (v * (y - x)))) as N. rewrite Qabs_opp in N.
    split; intros _; [apply up_ok_le | apply lo_ok_le]; lra. }
  destruct (Qltb 0 v) eqn:P; cbn [negb andb].
  - apply Qltb_lt in P.
    destruct (bounded_lo l) as [l0|] eqn:BL; [apply bounded_lo_some in BL; subst l|].
    + destruct (is_minf rl) eqn:ML.
      { destruct rl; try discriminate. intros H. injection H as <- <- <- <-. split; [reflexivity|]. intros y t Hl Hu. cbn zeta. cbn in Hl. split; [|congruence].
        intros _ U. apply up_ok_eadd. revert U. apply up_ok_le. nra. }
      destruct (bounded_up u) as [u0|] eqn:BU; [apply bounded_up_some in BU; subst u|intros H; injection H as <- <- <- <-; auto].
      destruct (is_pinf ru) eqn:MU.
      { destruct ru; try discriminate. intros H. injection H as <- <- <- <-. split; [reflexivity|]. intros y t Hl Hu. cbn zeta. cbn in Hu. split; [congruence|].
        intros _ U. apply lo_ok_eadd. revert U. apply lo_ok_le. nra. }
      intros H; injection H as <- <- <- <-; auto.
    + destruct (bounded_up u) as [u0|] eqn:BU; [apply bounded_up_some in BU; subst u|intros H; injection H as <- <- <- <-; auto].
      destruct (is_pinf ru) eqn:MU.
      { destruct ru; try discriminate. intros H. injection H as <- <- <- <-. split; [reflexivity|]. intros y t Hl Hu. cbn zeta. cbn in Hu. split; [congruence|].
        intros _ U. apply lo_ok_eadd. revert U. apply lo_ok_le. nra. }
      intros H; injection H as <- <- <- <-; auto.
  - apply Qltb_ge in P.
    destruct (bounded_lo l) as [l0|] eqn:BL; [apply bounded_lo_some in BL; subst l|].
    + destruct (is_pinf ru) eqn:MU.
      { destruct ru; try discriminate. intros H. injection H as <- <- <- <-. split; [reflexivity|]. intros y t Hl Hu. cbn zeta. cbn in Hl. split; [congruence|].
        intros _ U. apply lo_ok_eadd. revert U. apply lo_ok_le. nra. }
      destruct (bounded_up u) as [u0|] eqn:BU; [apply bounded_up_some in BU; subst u|intros H; injection H as <- <- <- <-; auto].
      destruct (is_minf rl) eqn:ML.
      { destruct rl; try discriminate. intros H. injection H as <- <- <- <-. split; [reflexivity|]. intros y t Hl Hu. cbn zeta. cbn in Hu. split; [|congruence].
        intros _ U. apply up_ok_eadd. revert U. apply up_ok_le. nra. }
      intros H; injection H as <- <- <- <-; auto.
    + destruct (bounded_up u) as [u0|] eqn:BU; [apply bounded_up_some in BU; subst u|intros H; injection H as <- <- <- <-; auto].
      destruct (is_minf rl) eqn:ML.
      { destruct rl; try discriminate. intros H. injection H as <- <- <- <-. split; [reflexivity|]. intros y t Hl Hu. cbn zeta. cbn in Hu. split; [|congruence].
        intros _ U. apply up_ok_eadd. revert U. apply up_ok_le. nra. }
      intros H; injection H as <- <- <- <-; auto.
Qed.
End Clean.

Definition linsum (es : pvec) (x y : list Q) : Q := qsum (map (fun e => snd e * (nth (fst e) y 0 - nth (fst e) x 0)) es).
Lemma linsum_cons j v es x y : linsum ((j, v) :: es) x y == v * (nth j y 0 - nth j x 0) + linsum es x y.
Proof. unfold linsum. cbn. ring. Qed.
Lemma neg_cons vt j v es x y : neglected vt ((j, v) :: es) x y == (if Qltb (Qabs v) vt then Qabs (v * (nth j y 0 - nth j x 0)) else 0) + neglected vt es x y.
Proof. unfold neglected. cbn. ring. Qed.

Lemma rd3 {B} cl cu x j (F : ext -> ext -> Q -> outcome B) (v : B) : (do l <- rd j cl; do u <- rd j cu; do xj <- rd j x; F l u xj) = Ok v ->
  (j < length cl)%nat /\ F (nth j cl MInf) (nth j cu PInf) (nth j x 0) = Ok v.
Proof.
  intros H. apply bind_ok in H. destruct H as [l [E1 H]]. apply bind_ok in H. destruct H as [u [E2 H]]. apply bind_ok in H. destruct H as [xj [E3 H]].
  apply (rd_ok _ _ MInf) in E1. apply (rd_ok _ _ PInf) in E2. apply (rd_ok _ _ 0) in E3. destruct E1 as [L ->], E2 as [_ ->], E3 as [_ ->]. auto.
Qed.

Section Entries.
Variable tiny vtiny : Q.
Variable cl cu : list ext.
Lemma entries_lp_up r x y : in_box cl cu y -> r_up r <> PInf -> forall es c c' t,
  entries (clean_lp tiny vtiny) cl cu too_big r x es c = Ok (Some c') ->
  up_ok (c_up c) (lhs (c_row c) y + t + linsum es x y + neglected vtiny es x y) -> up_ok (c_up c') (lhs (c_row c') y + t).
Proof.
  intros B NU. induction es as [|[j v] es IH]; intros c c' t H U.
  - cbn in H. injection H as <-. revert U. apply up_ok_eq. unfold linsum, neglected; cbn. ring.
  - cbn [entries] in H. apply rd3 in H. destruct H as [L H].
    destruct (clean_lp tiny vtiny (nth j cl MInf) (nth j cu PInf) (r_lo r) (r_up r) (nth j x 0) v (c_lo c) (c_up c)) as [[[k v'] lb'] ub'] eqn:C.
    pose proof (clean_lp_spec _ _ _ _ _ _ _ _ _ _ _ _ _ _ C) as S. destruct S as [-> S].
    assert (U1 : up_ok (c_up c) (lhs (c_row c) y + t + linsum es x y + neglected vtiny es x y + v * (nth j y 0 - nth j x 0) +
        (if Qltb (Qabs v) vtiny then Qabs (v * (nth j y 0 - nth j x 0)) else 0))).
    { revert U. apply up_ok_eq. rewrite linsum_cons, neg_cons. ring. }
    destruct k.
    + destruct S as [-> ->]. destruct (too_big v); [discriminate|]. apply bind_ok in H. destruct H as [p [E H]]. apply pv_insert_ok in E. subst p.
      apply (IH _ _ t H). cbn [c_up c_row]. apply up_ok_eadd. revert U1. apply up_ok_le. rewrite lhs_app, lhs_one.
      destruct (Qltb (Qabs v) vtiny); [pose proof (Qabs_nonneg (v * (nth j y 0 - nth j x 0)))|]; lra.
    + apply (IH _ _ t H). cbn [c_up c_row]. destruct (B j L) as [BL BU]. destruct (S (nth j y 0) (lhs (c_row c) y + t + linsum es x y + neglected vtiny es x y) BL BU) as [S1 _].
      apply S1; assumption.
Qed.
Lemma entries_lp_lo r x y : in_box cl cu y -> r_lo r <> MInf -> forall es c c' t,
  entries (clean_lp tiny vtiny) cl cu too_big r x es c = Ok (Some c') ->
  lo_ok (c_lo c) (lhs (c_row c) y + t + linsum es x y - neglected vtiny es x y) -> lo_ok (c_lo c') (lhs (c_row c') y + t).
Proof.
  intros B NU. induction es as [|[j v] es IH]; intros c c' t H U.
  - cbn in H. injection H as <-. revert U. apply lo_ok_eq. unfold linsum, neglected; cbn. ring.
  - cbn [entries] in H. apply rd3 in H. destruct H as [L H].
    destruct (clean_lp tiny vtiny (nth j cl MInf) (nth j cu PInf) (r_lo r) (r_up r) (nth j x 0) v (c_lo c) (c_up c)) as [[[k v'] lb'] ub'] eqn:C.
    pose proof (clean_lp_spec _ _ _ _ _ _ _ _ _ _ _ _ _ _ C) as S. destruct S as [-> S].
    assert (U1 : lo_ok (c_lo c) (lhs (c_row c) y + t + linsum es x y - neglected vtiny es x y + v * (nth j y 0 - nth j x 0) -
        (if Qltb (Qabs v) vtiny then Qabs (v * (nth j y 0 - nth j x 0)) else 0))).
    { revert U. apply lo_ok_eq. rewrite linsum_cons, neg_cons. ring. }
    destruct k.
    + destruct S as [-> ->]. destruct (too_big v); [discriminate|]. apply bind_ok in H. destruct H as [p [E H]]. apply pv_insert_ok in E. subst p.
      apply (IH _ _ t H). cbn [c_lo c_row]. apply lo_ok_eadd. revert U1. apply lo_ok_le. rewrite lhs_app, lhs_one.
      destruct (Qltb (Qabs v) vtiny); [pose proof (Qabs_nonneg (v * (nth j y 0 - nth j x 0)))|]; lra.
    + apply (IH _ _ t H). cbn [c_lo c_row]. destruct (B j L) as [BL BU]. destruct (S (nth j y 0) (lhs (c_row c) y + t + linsum es x y - neglected vtiny es x y) BL BU) as [_ S1].
      apply S1; assumption.
Qed.
(** A side that is infinite stays so; a finite one stays finite. *)
Definition same_kind (a b : ext) : Prop := match a, b with MInf, MInf | PInf, PInf | Fin _, Fin _ => True | _, _ => False end.
Lemma same_kind_eadd e q : same_kind e (eadd e q).
Proof. destruct e; exact Logic.I. Qed.
Lemma same_kind_refl e : same_kind e e.
Proof. destruct e; exact Logic.I. Qed.
Lemma same_kind_trans a b c : same_kind a b -> same_kind b c -> same_kind a c.
Proof. destruct a, b; cbn; tauto. Qed.
Lemma clean_lp_kind l u rl ru x v lb ub k v' lb' ub' : clean_lp tiny vtiny l u rl ru x v lb ub = (k, v', lb', ub') -> same_kind lb lb' /\ same_kind ub ub'.
Proof.
  unfold clean_lp. destruct (bounded_lo l), (bounded_up u), (is_pinf ru), (is_minf rl), (Qltb 0 v), (Qle_bool tiny (Qabs v)), (Qltb (Qabs v) vtiny); cbn [negb andb];
    intros H; injection H as <- <- <- <-; split; auto using same_kind_eadd, same_kind_refl.
Qed.
Lemma entries_lp_kind r x : forall es c c', entries (clean_lp tiny vtiny) cl cu too_big r x es c = Ok (Some c') ->
  same_kind (c_lo c) (c_lo c') /\ same_kind (c_up c) (c_up c').
Proof.
  induction es as [|[j v] es IH]; intros c c' H.
  - cbn in H. injection H as <-. auto using same_kind_refl.
  - cbn [entries] in H. apply rd3 in H. destruct H as [L H].
    destruct (clean_lp tiny vtiny (nth j cl MInf) (nth j cu PInf) (r_lo r) (r_up r) (nth j x 0) v (c_lo c) (c_up c)) as [[[k v'] lb'] ub'] eqn:C.
    apply clean_lp_kind in C. destruct C as [C1 C2]. destruct k.
    + destruct (too_big v'); [discriminate|]. apply bind_ok in H. destruct H as [p [E H]]. apply IH in H. cbn in H. destruct H as [H1 H2].
      split; eapply same_kind_trans; [exact C1 | eapply same_kind_trans; [apply same_kind_eadd | exact H1] | exact C2 | eapply same_kind_trans; [apply same_kind_eadd | exact H2]].
    + apply IH in H. cbn in H. destruct H as [H1 H2]. split; eapply same_kind_trans; eauto.
Qed.
(** Only entries of the row are inserted. *)
Lemma entries_row clean bg r x : forall es c c', entries clean cl cu bg r x es c = Ok (Some c') ->
  forall j, In j (map fst (c_row c')) -> In j (map fst (c_row c)) \/ In j (map fst es).
Proof.
  induction es as [|[j v] es IH]; intros c c' H i I.
  - cbn in H. injection H as <-. auto.
  - cbn [entries] in H. apply rd3 in H. destruct H as [L H].
    destruct (clean (nth j cl MInf) (nth j cu PInf) (r_lo r) (r_up r) (nth j x 0) v (c_lo c) (c_up c)) as [[[k v'] lb'] ub'].
    destruct k.
    + destruct (bg v'); [discriminate|]. apply bind_ok in H. destruct H as [p [E H]]. apply pv_insert_ok in E. subst p.
      destruct (IH _ _ H i I) as [A | A]; cbn in A |- *; [|tauto]. rewrite map_app, in_app_iff in A. cbn in A. tauto.
    + destruct (IH _ _ H i I) as [A | A]; cbn in A |- *; tauto.
Qed.
(** The loop runs through on well-formed rows. *)
Lemma entries_runs clean bg r x : length cu = length cl -> length x = length cl -> forall es c,
  (forall j v, In (j, v) es -> (j < length cl)%nat) -> NoDup (map fst (c_row c) ++ map fst es) -> exists o, entries clean cl cu bg r x es c = Ok o.
Proof.
  intros L1 L2. induction es as [|[j v] es IH]; intros c W N.
  - cbn. eauto.
  - cbn [entries]. assert (J : (j < length cl)%nat) by (apply (W j v); left; reflexivity).
    rewrite (rd_nth j cl MInf), (rd_nth j cu PInf), (rd_nth j x 0) by lia. cbn [bind].
    destruct (clean (nth j cl MInf) (nth j cu PInf) (r_lo r) (r_up r) (nth j x 0) v (c_lo c) (c_up c)) as [[[k v'] lb'] ub'].
    cbn [map fst] in N. assert (N2 := N). apply NoDup_remove in N2. destruct N2 as [N2 N3]. rewrite in_app_iff in N3.
    destruct k; [destruct (bg v'); [eauto|]|].
    + rewrite pv_insert_fresh by tauto. cbn [bind]. apply IH. intros; apply (W j0 v0); right; assumption.
      cbn [c_row]. rewrite map_app. cbn. rewrite <- app_assoc. exact N.
    + apply IH. intros; apply (W j0 v0); right; assumption. exact N2.
Qed.
(** No small entries: nothing is dropped and the sides are those of the touching function. *)
Definition plain (clean : ext -> ext -> ext -> ext -> Q -> Q -> ext -> ext -> bool * Q * ext * ext) (v : Q) : Prop :=
  forall l u rl ru x lb ub, clean l u rl ru x v lb ub = (true, v, lb, ub).
Lemma entries_plain clean bg r x : forall es c c', (forall j v, In (j, v) es -> plain clean v) ->
  entries clean cl cu bg r x es c = Ok (Some c') ->
  c_row c' = c_row c ++ es /\ (forall y, (up_ok (c_up c') (lhs (c_row c') y) <-> up_ok (c_up c) (lhs (c_row c) y + linsum es x y)) /\
                                         (lo_ok (c_lo c') (lhs (c_row c') y) <-> lo_ok (c_lo c) (lhs (c_row c) y + linsum es x y))).
Proof.
  induction es as [|[j v] es IH]; intros c c' P H.
  - cbn in H. injection H as <-. rewrite app_nil_r. split; [reflexivity|]. intros y. unfold linsum; cbn. split; split; (apply up_ok_eq || apply lo_ok_eq); ring.
  - cbn [entries] in H. apply rd3 in H. destruct H as [L H]. rewrite (P j v (or_introl eq_refl)) in H. destruct (bg v); [discriminate|].
    apply bind_ok in H. destruct H as [p [E H]]. apply pv_insert_ok in E. subst p. apply IH in H; [|intros; eapply P; right; eauto].
    cbn [c_row c_up c_lo] in H. destruct H as [H1 H2]. split. rewrite H1, <- app_assoc. reflexivity.
    intros y. destruct (H2 y) as [A B]. rewrite A, B, up_ok_eadd, lo_ok_eadd.
    split; split; (apply up_ok_eq || apply lo_ok_eq); rewrite lhs_app, lhs_one, linsum_cons; ring.
Qed.
Lemma plain_lp v : tiny <= Qabs v -> plain (clean_lp tiny vtiny) v.
Proof. intros H l u rl ru x lb ub. unfold clean_lp. apply Qle_bool_iff in H. rewrite H. reflexivity. Qed.
Lemma plain_od v : tiny <= Qabs v -> plain (clean_od tiny vtiny) v.
Proof. intros H l u rl ru x lb ub. unfold clean_od. apply Qle_bool_iff in H. rewrite H. reflexivity. Qed.
End Entries.

(** ** Linked cuts *)
Lemma link_none r c : r_id r = None -> link r c = Ok c.
Proof. intros H. unfold link. now rewrite H. Qed.

Section Valid.
Variable tiny vtiny : Q.
Variable cl cu : list ext.
Definition start (r : row) (x : list Q) : cut := mkCut [] (eadd (r_lo r) (- r_g r x)) (eadd (r_up r) (- r_g r x)).
Lemma touching_eq r x y : touching r x y == r_g r x + linsum (r_j r x) x y.
Proof. unfold touching, linsum. lra. Qed.
(** The cut before it is linked. *)
Lemma tangent_valid r x y c : convex cl cu (r_lo r) (r_up r) r x -> in_box cl cu y -> satisfied r y ->
  entries (clean_lp tiny vtiny) cl cu too_big r x (r_j r x) (start r x) = Ok (Some c) ->
  holds_within (neglected vtiny (r_j r x) x y) c y.
Proof.
  intros CV B [SL SU] H. destruct (CV y B) as [C1 C2]. destruct (entries_lp_kind _ _ _ _ _ _ _ _ _ H) as [K1 K2]. cbn in K1, K2. split.
  - destruct (r_lo r) eqn:E.
    + cbn in K1. destruct (c_lo c); try contradiction. exact Logic.I.
    + assert (NU : r_lo r <> MInf) by (rewrite E; discriminate).
      apply (entries_lp_lo tiny vtiny cl cu r x y B NU _ _ _ _ H). cbn [start c_lo c_row]. apply lo_ok_eadd. rewrite E. cbn in SL |- *.
      specialize (C2 ltac:(discriminate)). rewrite touching_eq in C2. unfold lhs; cbn. lra.
    + cbn in SL. contradiction.
  - destruct (r_up r) eqn:E.
    + cbn in SU. contradiction.
    + assert (NU : r_up r <> PInf) by (rewrite E; discriminate).
      apply (entries_lp_up tiny vtiny cl cu r x y B NU _ _ _ _ H). cbn [start c_up c_row]. apply up_ok_eadd. rewrite E. cbn in SU |- *.
      specialize (C1 ltac:(discriminate)). rewrite touching_eq in C1. unfold lhs; cbn. lra.
    + cbn in K2. destruct (c_up c); try contradiction. exact Logic.I.
Qed.
Lemma lhs_zero p y : (forall j, In j (map fst p) -> nth j y 0 == 0) -> lhs p y == 0.
Proof.
  induction p as [|[j v] p IH]; intros H. reflexivity. rewrite lhs_cons, IH by (intros; apply H; right; assumption). rewrite (H j) by (left; reflexivity). ring.
Qed.
(** Linking a cut with one side. *)
Lemma link_ok r c d z y e : r_id r = Some (S z) -> 0 <= e -> (c_lo c = MInf \/ c_up c = PInf) -> link r c = Ok d ->
  (nth (S z) y 0 == 1 /\ holds_within e c y) \/ (nth (S z) y 0 == 0 /\ lhs (c_row c) y == 0) -> holds_within e d y.
Proof.
  intros I E SD L H. unfold link in L. rewrite I in L. destruct c as [p l u]; cbn [c_lo c_up c_row] in *. unfold holds_within in H; cbn [c_lo c_up c_row] in H.
  assert (F : forall d, Ok (mkCut p MInf PInf) = Ok d -> holds_within e d y) by (intros d' Q'; injection Q' as <-; split; exact Logic.I).
  assert (A : forall q p', pv_insert (S z) (- q) p = Ok p' -> lhs p' y == lhs p y - q * nth (S z) y 0) by (intros q p' Q'; apply pv_insert_ok in Q'; subst p'; rewrite lhs_app, lhs_one; ring).
  destruct SD as [-> | ->].
  - cbn in L. destruct u as [|u|]; cbn in L; [auto| |auto].
    apply bind_ok in L. destruct L as [p' [P L]]. injection L as <-. split; cbn [c_lo c_up c_row]; [exact Logic.I|].
    unfold up_ok in *. rewrite (A _ _ P). destruct H as [[Z [H1 H2]] | [Z H]]; rewrite Z; lra.
  - destruct l as [|l|]; cbn in L; [auto| |auto].
    apply bind_ok in L. destruct L as [a [P L]]. injection L as <-. apply bind_ok in P. destruct P as [p' [P Q']]. injection Q' as <-. split; cbn [c_lo c_up c_row]; [|exact Logic.I].
    unfold lo_ok in *. rewrite (A _ _ P). destruct H as [[Z [H1 H2]] | [Z H]]; rewrite Z; lra.
Qed.
Lemma neg_nonneg es x y : 0 <= neglected vtiny es x y.
Proof.
  induction es as [|[j v] es IH]. unfold neglected; cbn; lra. rewrite neg_cons. destruct (Qltb (Qabs v) vtiny); [pose proof (Qabs_nonneg (v * (nth j y 0 - nth j x 0)))|]; lra.
Qed.
Lemma get_oa_inv r x cs : get_oa tiny vtiny cl cu r x = Ok cs -> cs = [] \/ exists c d, cs = [d] /\ entries (clean_lp tiny vtiny) cl cu too_big r x (r_j r x) (start r x) = Ok (Some c) /\ link r c = Ok d.
Proof.
  unfold get_oa, tangent. intros H. apply bind_ok in H. destruct H as [o [H Q']]. apply bind_ok in H. destruct H as [c [E H]].
  destruct c as [c|].
  - apply bind_ok in H. destruct H as [d [K H]]. injection H as <-. injection Q' as <-. right. exists c, d. auto.
  - injection H as <-. injection Q' as <-. auto.
Qed.
Lemma start_one r x c z : entries (clean_lp tiny vtiny) cl cu too_big r x (r_j r x) (start r x) = Ok (Some c) -> r_id r = z -> (r_lo r = MInf \/ r_up r = PInf) -> c_lo c = MInf \/ c_up c = PInf.
Proof.
  intros H _ SD. apply entries_lp_kind in H. destruct H as [K1 K2]. unfold start in K1, K2. cbn [c_lo c_up] in K1, K2.
  destruct SD as [SD | SD]; [rewrite SD in K1; left; destruct (c_lo c) | rewrite SD in K2; right; destruct (c_up c)]; cbn in *; tauto.
Qed.
Lemma linked_valid r x y c d : convex cl cu (r_lo r) (r_up r) r x -> in_box cl cu y -> on_off r x y ->
  (r_id r <> Some 0%nat) -> (r_id r <> None -> r_lo r = MInf \/ r_up r = PInf) ->
  entries (clean_lp tiny vtiny) cl cu too_big r x (r_j r x) (start r x) = Ok (Some c) -> link r c = Ok d -> holds_within (neglected vtiny (r_j r x) x y) d y.
Proof.
  intros CV B O N0 ONE E L. destruct (r_id r) as [[|z]|] eqn:I.
  - congruence.
  - apply (link_ok r c d z y _ I (neg_nonneg _ _ _)); [eapply start_one; eauto; apply ONE; discriminate | exact L |].
    unfold on_off in O. rewrite I in O. destruct O as [[Z O] | [Z O]]; [left; split; [exact Z|]; eapply tangent_valid; eauto|right].
    split; [exact Z|]. apply lhs_zero. intros j J. destruct (entries_row _ _ _ _ _ _ _ _ _ E j J) as [A | A]; [destruct A|].
    apply in_map_iff in A. destruct A as [[j' v] [<- A]]. eapply O; eauto.
  - rewrite link_none in L by assumption. injection L as <-. unfold on_off in O. rewrite I in O. eapply tangent_valid; eauto.
Qed.

(** All rows. *)
Lemma tangents_inv rows x : forall l, tangents tiny vtiny cl cu rows x = Ok (Some l) ->
  Forall2 (fun r c => entries (clean_lp tiny vtiny) cl cu too_big r x (r_j r x) (start r x) = Ok (Some c)) (filter (fun r => negb (r_linear r)) rows) l.
Proof.
  induction rows as [|r rows IH]; intros l H; cbn [tangents] in H.
  - injection H as <-. constructor.
  - cbn [filter]. destruct (r_linear r); cbn [negb]; [auto|]. apply bind_ok in H. destruct H as [c [E H]]. destruct c as [c|]; [|discriminate].
    apply bind_ok in H. destruct H as [o [T H]]. destruct o as [o|]; [|discriminate]. injection H as <-. constructor; auto.
Qed.
Lemma links_inv rows : forall l cs, length l = length (filter (fun r => negb (r_linear r)) rows) -> links rows l = Ok cs ->
  Forall2 (fun rc d => link (fst rc) (snd rc) = Ok d) (combine (filter (fun r => negb (r_linear r)) rows) l) cs.
Proof.
  induction rows as [|r rows IH]; intros l cs N H; cbn [links] in H.
  - injection H as <-. constructor.
  - cbn [filter] in *. destruct (r_linear r); cbn [negb] in *; [auto|]. destruct l as [|c l]; [discriminate|]. cbn in N. injection N as N.
    apply bind_ok in H. destruct H as [d [E H]]. apply bind_ok in H. destruct H as [o [T H]]. injection H as <-. cbn [combine]. constructor; auto.
Qed.
Lemma Forall2_len {A B} (R : A -> B -> Prop) l l' : Forall2 R l l' -> length l = length l'.
Proof. induction 1; cbn; auto. Qed.
Lemma get_oas_inv rows x cs : get_oas tiny vtiny cl cu rows x = Ok cs -> cs = [] \/
  Forall2 (fun r d => exists c, entries (clean_lp tiny vtiny) cl cu too_big r x (r_j r x) (start r x) = Ok (Some c) /\ link r c = Ok d) (filter (fun r => negb (r_linear r)) rows) cs.
Proof.
  unfold get_oas. intros H. apply bind_ok in H. destruct H as [l [T H]]. destruct l as [l|]; [|injection H as <-; auto]. right.
  apply tangents_inv in T. apply links_inv in H; [|symmetry; eapply Forall2_len; eauto].
  revert l cs T H. induction (filter (fun r => negb (r_linear r)) rows) as [|r rs IH]; intros l cs T H; inversion T; subst; cbn in H; inversion H; subst; constructor; eauto.
Qed.
Lemma Forall2_In_r {A B} (R : A -> B -> Prop) l l' d : Forall2 R l l' -> In d l' -> exists a, In a l /\ R a d.
Proof. induction 1; cbn; [tauto|]. intros [-> | I]; [eauto|]. destruct (IHForall2 I) as [a [I1 I2]]. eauto. Qed.
Lemma get_oas_valid rows x y cs d : (forall r, In r rows -> r_linear r = false -> convex cl cu (r_lo r) (r_up r) r x /\ on_off r x y /\ (r_id r <> Some 0%nat) /\ (r_id r <> None -> r_lo r = MInf \/ r_up r = PInf)) ->
  in_box cl cu y -> get_oas tiny vtiny cl cu rows x = Ok cs -> In d cs -> exists r, In r rows /\ r_linear r = false /\ holds_within (neglected vtiny (r_j r x) x y) d y.
Proof.
  intros W B H I. apply get_oas_inv in H. destruct H as [-> | H]; [destruct I|]. destruct (Forall2_In_r _ _ _ _ H I) as [r [J [c [E L]]]].
  apply filter_In in J. destruct J as [J K]. apply negb_true_iff in K. exists r. split; [exact J|]. split; [exact K|]. destruct (W r J K) as [W1 [W2 [W3 W4]]]. eapply linked_valid; eauto.
Qed.
Lemma neg_none es x y : (forall j v, In (j, v) es -> vtiny <= Qabs v) -> neglected vtiny es x y == 0.
Proof.
  induction es as [|[j v] es IH]; intros H. reflexivity. rewrite neg_cons, IH by (intros; apply (H j0 v0); right; assumption).
  destruct (Qltb (Qabs v) vtiny) eqn:E; [apply Qltb_lt in E; pose proof (H j v (or_introl eq_refl)); lra | ring].
Qed.
Lemma within0 e c y : e == 0 -> holds_within e c y -> holds c y.
Proof. intros E [H1 H2]. split. revert H1; apply lo_ok_eq; lra. revert H2; apply up_ok_eq; lra. Qed.

(** The rows of the linear program. *)
Lemma lp_entries_plain r x : forall es lb ub s, (forall j v, In (j, v) es -> tiny <= Qabs v) -> lp_entries tiny vtiny cl cu r x es lb ub = Ok s ->
  forall y, (up_ok ub (linsum es x y) <-> up_ok (snd s) (lhs es y)) /\ (lo_ok lb (linsum es x y) <-> lo_ok (fst s) (lhs es y)).
Proof.
  assert (G : forall es lb ub s, (forall j v, In (j, v) es -> tiny <= Qabs v) -> lp_entries tiny vtiny cl cu r x es lb ub = Ok s ->
     forall y t, (up_ok ub (t + linsum es x y) <-> up_ok (snd s) (t + lhs es y)) /\ (lo_ok lb (t + linsum es x y) <-> lo_ok (fst s) (t + lhs es y))).
  { induction es as [|[j v] es IH]; intros lb ub s P H y t.
    - cbn in H. injection H as <-. cbn. split; reflexivity.
    - cbn [lp_entries] in H. apply rd3 in H. destruct H as [L H]. rewrite (plain_lp tiny vtiny v (P j v (or_introl eq_refl))) in H.
      assert (P' : forall j v, In (j, v) es -> tiny <= Qabs v) by (intros; eapply P; right; eauto).
      destruct (IH _ _ _ P' H y (t + v * nth j y 0)) as [A B].
      rewrite up_ok_eadd in A. rewrite lo_ok_eadd in B. split; split; intros U.
      + apply (up_ok_eq _ _ (t + v * nth j y 0 + lhs es y)); [rewrite lhs_cons; ring|]. apply A. revert U. apply up_ok_eq. rewrite linsum_cons. ring.
      + apply (up_ok_eq _ _ (t + v * nth j y 0 + linsum es x y - v * nth j x 0)); [rewrite linsum_cons; ring|]. apply A. revert U. apply up_ok_eq. rewrite lhs_cons. ring.
      + apply (lo_ok_eq _ _ (t + v * nth j y 0 + lhs es y)); [rewrite lhs_cons; ring|]. apply B. revert U. apply lo_ok_eq. rewrite linsum_cons. ring.
      + apply (lo_ok_eq _ _ (t + v * nth j y 0 + linsum es x y - v * nth j x 0)); [rewrite linsum_cons; ring|]. apply B. revert U. apply lo_ok_eq. rewrite lhs_cons. ring. }
  intros es lb ub s P H y. destruct (G es lb ub s P H y 0) as [A B]. split; split; intros U.
  - apply (up_ok_eq _ _ (0 + lhs es y)); [ring|]. apply A. revert U; apply up_ok_eq; ring.
  - apply (up_ok_eq _ _ (0 + linsum es x y)); [ring|]. apply A. revert U; apply up_ok_eq; ring.
  - apply (lo_ok_eq _ _ (0 + lhs es y)); [ring|]. apply B. revert U; apply lo_ok_eq; ring.
  - apply (lo_ok_eq _ _ (0 + linsum es x y)); [ring|]. apply B. revert U; apply lo_ok_eq; ring.
Qed.
Lemma lp_row_valid r x y c : convex cl cu (r_lo r) (r_up r) r x -> in_box cl cu y -> satisfied r y -> (forall j v, In (j, v) (r_j r x) -> tiny <= Qabs v) ->
  (r_linear r = true -> forall z, r_g r z == lhs (r_j r x) z) -> lp_row tiny vtiny cl cu r x = Ok c -> holds c y.
Proof.
  intros CV B [SL SU] P LIN H. unfold lp_row in H. destruct (r_linear r).
  - injection H as <-. split; cbn; [revert SL; apply lo_ok_eq | revert SU; apply up_ok_eq]; rewrite (LIN eq_refl y); reflexivity.
  - apply bind_ok in H. destruct H as [s [H Q']]. injection Q' as <-. destruct (lp_entries_plain _ _ _ _ _ _ P H y) as [A D]. destruct (CV y B) as [C1 C2].
    split; cbn [c_lo c_up c_row].
    + apply D. apply lo_ok_eadd. destruct (r_lo r); cbn in SL |- *; [exact Logic.I | | contradiction]. specialize (C2 ltac:(discriminate)). rewrite touching_eq in C2. unfold slack. lra.
    + apply A. apply up_ok_eadd. destruct (r_up r); cbn in SU |- *; [contradiction | | exact Logic.I]. specialize (C1 ltac:(discriminate)). rewrite touching_eq in C1. unfold slack. lra.
Qed.
Lemma lp_rows_in rows x : forall l c, lp_rows tiny vtiny cl cu rows x = Ok l -> In c l -> exists r, In r rows /\ lp_row tiny vtiny cl cu r x = Ok c.
Proof.
  induction rows as [|r rows IH]; intros l c H I; cbn in H.
  - injection H as <-. destruct I.
  - apply bind_ok in H. destruct H as [d [E H]]. apply bind_ok in H. destruct H as [o [T H]]. injection H as <-. destruct I as [-> | I]; [eauto with datatypes|].
    destruct (IH _ _ eq_refl I) as [r' [J K]] || destruct (IH _ _ T I) as [r' [J K]]. eauto with datatypes.
Qed.
End Valid.

(** ** Sampling *)
Section Sampling.
Variable g : nat -> Q.
Variable thr : Q.
Variable nb : nat.
Lemma sample_spec : forall fuel k cnt ref ks, sample g thr nb fuel k cnt ref = Ok ks -> forall from, (from <= k)%nat -> (forall j, (from < j <= k)%nat -> Qabs (ref - g j) < thr) ->
  spaced g thr from ref ks /\ (length ks = nb - cnt)%nat /\ forall j, In j ks -> (from < j <= k + fuel)%nat.
Proof.
  induction fuel as [|fuel IH]; intros k cnt ref ks H from F NO; cbn [sample] in H; destruct (Nat.leb nb cnt) eqn:E.
  - injection H as <-. apply Nat.leb_le in E. cbn. repeat split; try lia; tauto.
  - discriminate.
  - injection H as <-. apply Nat.leb_le in E. cbn. repeat split; try lia; tauto.
  - apply Nat.leb_gt in E. destruct (Qle_bool thr (Qabs (ref - g (S k)))) eqn:T.
    + apply Qle_bool_iff in T. apply bind_ok in H. destruct H as [l [H Q']]. injection Q' as <-.
      destruct (IH _ _ _ _ H (S k) ltac:(lia) ltac:(intros; lia)) as [A [B C]]. cbn [spaced length In]. repeat split; try lia; auto.
      * intros j J. apply NO. lia.
      * intros; destruct H0 as [<- | I]; [lia|]. apply C in I. lia.
      * destruct H0 as [<- | I]; [lia|]. apply C in I. lia.
    + apply Qleb_gt in T. destruct (IH _ _ _ _ H from ltac:(lia)) as [A [B C]].
      { intros j J. destruct (Nat.eq_dec j (S k)) as [-> |]; [exact T | apply NO; lia]. }
      repeat split; auto. intros; apply C in H0; lia. intros; apply C in H0; lia.
Qed.
(** Enough movement: the loop ends. *)
Lemma sample_ends : (forall k, exists j, (k < j)%nat /\ thr <= Qabs (g k - g j)) -> forall d cnt k ref, (nb - cnt <= d)%nat -> (exists j, (k < j)%nat /\ thr <= Qabs (ref - g j)) ->
  exists fuel ks, sample g thr nb fuel k cnt ref = Ok ks.
Proof.
  intros MV. induction d as [|d IH]; intros cnt k ref D [j [J T]].
  - exists 0%nat, []. cbn. replace (Nat.leb nb cnt) with true; [reflexivity|]. symmetry. apply Nat.leb_le. lia.
  - remember (j - k)%nat as w eqn:Hw. assert (W : (1 <= w)%nat) by lia. revert k J Hw. induction w as [|w IW]; intros k J Hw; [lia|].
    destruct (Nat.leb nb cnt) eqn:E.
    { exists 0%nat, []. cbn. rewrite E. reflexivity. }
    destruct (Qle_bool thr (Qabs (ref - g (S k)))) eqn:Q1.
    + destruct (IH (S cnt) (S k) (g (S k))) as [fuel [ks H]]. { apply Nat.leb_gt in E. lia. } { apply MV. }
      exists (S fuel), (S k :: ks). cbn [sample]. rewrite E, Q1, H. reflexivity.
    + assert (Q2 := Q1). apply Qleb_gt in Q2. assert (j <> S k) by (intros ->; lra). destruct (IW ltac:(lia) (S k) ltac:(lia) ltac:(lia)) as [fuel [ks H']].
      exists (S fuel), ks. cbn [sample]. rewrite E, Q1. exact H'.
Qed.
Lemma sample_stuck : forall fuel k cnt ref, (cnt < nb)%nat -> (forall j, (k < j)%nat -> Qabs (ref - g j) < thr) -> sample g thr nb fuel k cnt ref = Diverges.
Proof.
  induction fuel as [|fuel IH]; intros k cnt ref C N; cbn [sample]; replace (Nat.leb nb cnt) with false by (symmetry; apply Nat.leb_gt; exact C). reflexivity.
  destruct (Qle_bool thr (Qabs (ref - g (S k)))) eqn:T. apply Qle_bool_iff in T. pose proof (N (S k) ltac:(lia)). lra. apply IH; auto. intros; apply N; lia.
Qed.
End Sampling.

(** ** Runs without exceptions *)
Section Runs.
Variable tiny vtiny : Q.
Variable cl cu : list ext.
Lemma too_big_le v : Qabs v <= big_limit -> too_big v = false.
Proof. intros H. unfold too_big. apply Qltb_ge. exact H. Qed.
Lemma entries_some r x : no_big (r_j r x) -> forall es c, (forall j v, In (j, v) es -> Qabs v <= big_limit) -> entries (clean_lp tiny vtiny) cl cu too_big r x es c <> Ok None.
Proof.
  intros _. induction es as [|[j v] es IH]; intros c NB H. cbn in H. discriminate.
  cbn [entries] in H. apply rd3 in H. destruct H as [L H].
  destruct (clean_lp tiny vtiny (nth j cl MInf) (nth j cu PInf) (r_lo r) (r_up r) (nth j x 0) v (c_lo c) (c_up c)) as [[[k v'] lb'] ub'] eqn:C.
  apply clean_lp_spec in C. destruct C as [-> C]. assert (NB' : forall j v, In (j, v) es -> Qabs v <= big_limit) by (intros; eapply NB; right; eauto).
  destruct k; [|eapply IH; eauto]. rewrite too_big_le in H by (eapply NB; left; reflexivity). apply bind_ok in H. destruct H as [p [E H]]. eapply IH; eauto.
Qed.
Lemma entries_go r x : row_wf cl cu r x -> no_big (r_j r x) -> exists c, entries (clean_lp tiny vtiny) cl cu too_big r x (r_j r x) (start r x) = Ok (Some c).
Proof.
  intros [L1 [L2 [N W]]] NB. destruct (entries_runs cl cu (clean_lp tiny vtiny) too_big r x L1 L2 (r_j r x) (start r x) W N) as [[c|] E]; [eauto|].
  elim (entries_some r x NB _ _ NB E).
Qed.
Lemma tangents_go rows x : (forall r, In r rows -> r_linear r = false -> row_wf cl cu r x /\ no_big (r_j r x)) -> exists l, tangents tiny vtiny cl cu rows x = Ok (Some l).
Proof.
  induction rows as [|r rows IH]; intros W; cbn [tangents]. eauto.
  destruct IH as [l IH]. { intros; apply W; [right|]; assumption. }
  destruct (r_linear r) eqn:RL; [eauto|]. destruct (W r (or_introl eq_refl) RL) as [W1 W2]. destruct (entries_go r x W1 W2) as [c E].
  unfold start in E. rewrite E. cbn [bind]. rewrite IH. cbn. eauto.
Qed.
Lemma links_none rows : (forall r, In r rows -> r_linear r = false -> r_id r = None) -> forall l, exists cs, links rows l = Ok cs.
Proof.
  induction rows as [|r rows IH]; intros W l; cbn [links]. eauto.
  assert (IH' := IH ltac:(intros; apply W; [right|]; assumption)). destruct (r_linear r) eqn:RL; [auto|]. destruct l as [|c l]; [eauto|].
  rewrite link_none by (apply W; [left; reflexivity | assumption]). cbn [bind]. destruct (IH' l) as [cs E]. rewrite E. cbn. eauto.
Qed.
Lemma get_oas_go rows x : (forall r, In r rows -> r_linear r = false -> row_wf cl cu r x /\ no_big (r_j r x) /\ r_id r = None) ->
  exists cs, get_oas tiny vtiny cl cu rows x = Ok cs /\
    Forall2 (fun r d => entries (clean_lp tiny vtiny) cl cu too_big r x (r_j r x) (start r x) = Ok (Some d)) (filter (fun r => negb (r_linear r)) rows) cs.
Proof.
  intros W. destruct (tangents_go rows x) as [l T]. { intros r I N. destruct (W r I N) as [A [B _]]; auto. }
  assert (IDS : forall r, In r rows -> r_linear r = false -> r_id r = None) by (intros r I N; destruct (W r I N) as [_ [_ A]]; auto).
  destruct (links_none rows IDS l) as [cs L]. exists cs. unfold get_oas. rewrite T. cbn [bind]. split; [exact L|].
  apply tangents_inv in T. apply links_inv in L; [|symmetry; eapply Forall2_len; eauto].
  assert (ID2 : forall r, In r (filter (fun r => negb (r_linear r)) rows) -> r_id r = None).
  { intros r I. apply filter_In in I. destruct I as [I N]. apply negb_true_iff in N. auto. }
  revert l cs T L ID2. induction (filter (fun r => negb (r_linear r)) rows) as [|r rs IH]; intros l cs T L ID2; inversion T; subst; cbn in L; inversion L; subst; constructor.
  - match goal with K : link _ _ = Ok _ |- _ => cbn [fst snd] in K; rewrite link_none in K by (apply ID2; left; reflexivity); injection K as <- end. assumption.
  - eapply IH; eauto. intros; apply ID2; right; assumption.
Qed.
Lemma entries_big r x : tiny <= big_limit -> forall es c, length cu = length cl -> length x = length cl -> (forall j v, In (j, v) es -> (j < length cl)%nat) -> NoDup (map fst (c_row c) ++ map fst es) ->
  (exists j v, In (j, v) es /\ big_limit < Qabs v) -> entries (clean_lp tiny vtiny) cl cu too_big r x es c = Ok None.
Proof.
  intros TB. induction es as [|[j v] es IH]; intros c L1 L2 W N [i [w [I G]]]. destruct I.
  cbn [entries]. assert (J : (j < length cl)%nat) by (apply (W j v); left; reflexivity).
  rewrite (rd_nth j cl MInf), (rd_nth j cu PInf), (rd_nth j x 0) by lia. cbn [bind].
  cbn [map fst] in N. assert (N2 := N). apply NoDup_remove in N2. destruct N2 as [N2 N3]. rewrite in_app_iff in N3.
  assert (W' : forall j v, In (j, v) es -> (j < length cl)%nat) by (intros; eapply W; right; eauto).
  destruct I as [I | I].
  - injection I as <- <-. rewrite (plain_lp tiny vtiny v) by lra. unfold too_big. fold big_limit. apply Qltb_lt in G. rewrite G. reflexivity.
  - destruct (clean_lp tiny vtiny (nth j cl MInf) (nth j cu PInf) (r_lo r) (r_up r) (nth j x 0) v (c_lo c) (c_up c)) as [[[k v'] lb'] ub'].
    destruct k; [destruct (too_big v'); [reflexivity|]|].
    + rewrite pv_insert_fresh by tauto. cbn [bind]. apply IH; auto; [|eauto]. cbn [c_row]. rewrite map_app. cbn. rewrite <- app_assoc. exact N.
    + apply IH; auto. eauto.
Qed.
Lemma tangents_big rows x : tiny <= big_limit -> (forall r, In r rows -> r_linear r = false -> row_wf cl cu r x) ->
  (exists r j v, In r rows /\ r_linear r = false /\ In (j, v) (r_j r x) /\ big_limit < Qabs v) -> tangents tiny vtiny cl cu rows x = Ok None.
Proof.
  intros TB. induction rows as [|r rows IH]; intros W [r0 [j [v [I [NL [J G]]]]]]; [destruct I|]. cbn [tangents].
  assert (W' : forall r, In r rows -> r_linear r = false -> row_wf cl cu r x) by (intros; apply W; [right|]; assumption).
  destruct (r_linear r) eqn:RL.
  - destruct I as [-> | I]; [congruence|]. apply IH; auto. exists r0, j, v. auto.
  - destruct (W r (or_introl eq_refl) RL) as [L1 [L2 [ND WF]]]. fold (start r x).
    destruct I as [-> | I].
    + rewrite (entries_big r0 x TB (r_j r0 x) (start r0 x) L1 L2 WF ND); [reflexivity|]. eauto.
    + destruct (entries_runs cl cu (clean_lp tiny vtiny) too_big r x L1 L2 (r_j r x) (start r x) WF ND) as [[c|] E]; rewrite E; [|reflexivity]. cbn [bind].
      rewrite IH; [reflexivity | auto |]. exists r0, j, v. auto.
Qed.
(** Linking. *)
Lemma link_go r c z : r_id r = Some (S z) -> (c_lo c = MInf \/ c_up c = PInf) -> ~ In (S z) (map fst (c_row c)) -> exists d, link r c = Ok d.
Proof.
  intros I SD N. unfold link. rewrite I. destruct c as [p l u]; cbn [c_lo c_up c_row] in *. destruct SD as [-> | ->].
  - cbn [bind]. destruct u; eauto. cbn [c_row]. rewrite pv_insert_fresh by assumption. cbn. eauto.
  - destruct l; cbn [bind]; eauto. rewrite pv_insert_fresh by assumption. cbn. eauto.
Qed.
Lemma link_two r c z l u : r_id r = Some (S z) -> c_lo c = Fin l -> c_up c = Fin u -> link r c = Thrown.
Proof.
  intros I L U. unfold link. rewrite I, L, U. destruct (In_dec Nat.eq_dec (S z) (map fst (c_row c))) as [D | D].
  - rewrite pv_insert_dup by assumption. reflexivity.
  - rewrite pv_insert_fresh by assumption. cbn [bind c_row]. rewrite pv_insert_dup. reflexivity. rewrite map_app, in_app_iff. right. left. reflexivity.
Qed.
Lemma same_kind_fin a e : same_kind (Fin a) e -> exists b, e = Fin b.
Proof. destruct e; cbn; try tauto. eauto. Qed.
End Runs.

(** ** Points *)
Lemma nth_shift low step k i : length step = length low -> (i < length low)%nat -> nth i (shift low step k) 0 = nth i low 0 + inject_Z (Z.of_nat k) * nth i step 0.
Proof.
  intros L I. unfold shift. rewrite (nth_indep _ 0 (0 + inject_Z (Z.of_nat k) * 0)) by (rewrite map_length, combine_length; lia).
  rewrite (map_nth (fun p => fst p + inject_Z (Z.of_nat k) * snd p) (combine low step) (0, 0)). rewrite combine_nth by auto. reflexivity.
Qed.
Lemma between_lo e a b t : 0 <= t <= 1 -> lo_ok e a -> lo_ok e b -> lo_ok e (a + t * (b - a)).
Proof. intros T A B. destruct e; cbn in *; auto. nra. Qed.
Lemma between_up e a b t : 0 <= t <= 1 -> up_ok e a -> up_ok e b -> up_ok e (a + t * (b - a)).
Proof. intros T A B. destruct e; cbn in *; auto. nra. Qed.
Lemma frac k N : (0 < N)%nat -> (k <= N)%nat -> 0 <= inject_Z (Z.of_nat k) / inject_Z (Z.of_nat N) <= 1.
Proof.
  intros P L. assert (NP : 0 < inject_Z (Z.of_nat N)) by (change 0 with (inject_Z 0); rewrite <- Zlt_Qlt; lia). split.
  - apply Qle_shift_div_l; [exact NP|]. setoid_replace (0 * inject_Z (Z.of_nat N)) with 0 by ring. change 0 with (inject_Z 0). rewrite <- Zle_Qle. lia.
  - apply Qle_shift_div_r; [exact NP|]. setoid_replace (1 * inject_Z (Z.of_nat N)) with (inject_Z (Z.of_nat N)) by ring. rewrite <- Zle_Qle. lia.
Qed.
Lemma segment_in_box cl cu low up step N k : (0 < N)%nat -> (k <= N)%nat -> length low = length cl -> length step = length cl -> in_box cl cu low -> in_box cl cu up ->
  (forall i, (i < length cl)%nat -> nth i step 0 == 0 \/ nth i step 0 == (nth i up 0 - nth i low 0) / inject_Z (Z.of_nat N)) -> in_box cl cu (shift low step k).
Proof.
  intros P L L1 L2 BL BU ST i I. rewrite nth_shift by lia. destruct (BL i I) as [A1 A2]. destruct (BU i I) as [B1 B2].
  pose proof (frac k N P L) as F. assert (NZ : ~ inject_Z (Z.of_nat N) == 0) by (change 0 with (inject_Z 0); rewrite inject_Z_injective; lia).
  destruct (ST i I) as [Z | Z].
  - split; [revert A1; apply lo_ok_eq | revert A2; apply up_ok_eq]; rewrite Z; ring.
  - pose proof (between_lo _ _ _ _ F A1 B1) as C1. pose proof (between_up _ _ _ _ F A2 B2) as C2.
    split; [revert C1; apply lo_ok_eq | revert C2; apply up_ok_eq]; rewrite Z; field; exact NZ.
Qed.
Definition cliplow (flags : list bool) (cl : list ext) : list Q := map (fun p => if fst p : bool then 0 else clip_lo (snd p)) (combine flags cl).
Definition clipup (flags : list bool) (cu : list ext) : list Q := map (fun p => if fst p : bool then 0 else clip_up (snd p)) (combine flags cu).
Lemma nth_map_combine {A B} (f : A * B -> Q) la lb i da db : length la = length lb -> (i < length lb)%nat -> nth i (map f (combine la lb)) 0 = f (nth i la da, nth i lb db).
Proof.
  intros L I. rewrite (nth_indep _ 0 (f (da, db))) by (rewrite map_length, combine_length; lia). rewrite (map_nth f (combine la lb) (da, db)). rewrite combine_nth by assumption. reflexivity.
Qed.
Lemma clip_in_box flags cl cu : length flags = length cl -> length cu = length cl -> clippable flags cl cu -> in_box cl cu (cliplow flags cl) /\ in_box cl cu (clipup flags cu).
Proof.
  intros L1 L2 C. split; intros i I; specialize (C i I); cbn zeta in C; [unfold cliplow; rewrite (nth_map_combine _ flags cl i false MInf) by lia | unfold clipup; rewrite (nth_map_combine _ flags cu i false PInf) by lia];
  cbn [fst snd]; destruct (nth i flags false); auto; destruct C as [C1 [C2 [v [V1 V2]]]]; destruct (nth i cl MInf) as [|l|], (nth i cu PInf) as [|u|]; cbn in *; try contradiction.
  all: unfold clip_lo, clip_up; repeat match goal with |- context [Qltb ?a ?b] => let E := fresh in destruct (Qltb a b) eqn:E; [apply Qltb_lt in E | apply Qltb_ge in E] end; split; auto; try lra.
Qed.
