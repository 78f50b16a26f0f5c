(** Proofs for bound manipulation and the solver-state guard (C25, C26, C22). *)
From Verif Require Import Base Arr Oad_Model Oad_Spec.
#[local] Open Scope Q_scope.

Lemma nearest_spec v : is_nearest v (nearest v).
Proof.
  unfold is_nearest, nearest. pose proof (Qfloor_le (v + (1 # 2))) as H1. pose proof (Qlt_floor (v + (1 # 2))) as H2.
  rewrite inject_Z_plus in H2. change (inject_Z 1) with 1 in H2. split; [split; lra|]. intros E. lra.
Qed.
Lemma nearest_unique v z z' : is_nearest v z -> is_nearest v z' -> z = z'.
Proof.
  unfold is_nearest. intros [[A B] N] [[A' B'] N'].
  assert (L1 : inject_Z z < inject_Z z' + 1) by (destruct (Qlt_le_dec (inject_Z z) (inject_Z z' + 1)) as [q|q]; [exact q|exfalso; apply N'; lra]).
  assert (L2 : inject_Z z' < inject_Z z + 1) by (destruct (Qlt_le_dec (inject_Z z') (inject_Z z + 1)) as [q|q]; [exact q|exfalso; apply N; lra]).
  change 1 with (inject_Z 1) in L1, L2. rewrite <- inject_Z_plus in L1, L2. rewrite <- Zlt_Qlt in L1, L2. lia.
Qed.
Lemma rd_some {A} i (l : list A) : (i < length l)%nat -> exists v, nth_error l i = Some v /\ rd i l = Ok v.
Proof.
  intros L. unfold rd. destruct (nth_error l i) as [v|] eqn:E; [eauto|]. apply nth_error_None in E. lia.
Qed.
Lemma upd_nth_error {A} i j (a : A) l : (i < length l)%nat ->
  nth_error (firstn i l ++ a :: skipn (S i) l) j = if Nat.eqb j i then Some a else nth_error l j.
Proof.
  revert i j; induction l as [|b l IH]; intros i j H; [simpl in H; lia|].
  destruct i as [|i]; [destruct j; reflexivity|].
  destruct j as [|j]; [reflexivity|]. cbn [firstn skipn app nth_error Nat.eqb]. apply IH. simpl in H. lia.
Qed.

(** Set both bounds of one column. *)
Lemma set_both n i l u s : length (k_lo s) = n -> length (k_up s) = n -> (i < n)%nat ->
  exists s', (do s <- setLower i l s; setUpper i u s) = Ok s' /\ length (k_lo s') = n /\ length (k_up s') = n /\
    bounds_are s' i l u /\ forall j, j <> i -> same_bounds s s' j.
Proof.
  intros L1 L2 I. unfold setLower. rewrite lset_ok by lia. cbn [bind]. unfold setUpper. cbn [k_lo k_up].
  rewrite lset_ok by lia. cbn [bind]. eexists. split; [reflexivity|]. cbn [k_lo k_up].
  rewrite !upd_length by lia. split; [exact L1|]. split; [exact L2|].
  split; [split; cbn [k_lo k_up]; rewrite upd_nth_error by lia; rewrite Nat.eqb_refl; reflexivity|].
  intros j N. split; cbn [k_lo k_up]; rewrite upd_nth_error by lia; apply Nat.eqb_neq in N; rewrite N; reflexivity.
Qed.

Lemma fixable_dec n i sol tol v : length sol = n -> (i < n)%nat -> nth_error sol i = Some v ->
  (Qltb tol (Qabs (v - inject_Z (nearest v))) = false /\ Qltb too_big (Qabs (inject_Z (nearest v))) = false /\ fixable sol tol i (nearest v)) \/
  ((Qltb tol (Qabs (v - inject_Z (nearest v))) = true \/
   Qltb tol (Qabs (v - inject_Z (nearest v))) = false /\ Qltb too_big (Qabs (inject_Z (nearest v))) = true) /\ ~ exists z, fixable sol tol i z).
Proof.
  intros L I E.
  destruct (Qltb tol _) eqn:E1; [right; split; [left; reflexivity|]|].
  { intros (z & w & E' & NZ & T & _). rewrite E in E'. injection E' as <-.
    rewrite (nearest_unique _ _ _ NZ (nearest_spec v)) in T. apply Qltb_lt in E1. lra. }
  destruct (Qltb too_big _) eqn:E2; [right; split; [right; split; reflexivity|]|].
  { intros (z & w & E' & NZ & _ & T). rewrite E in E'. injection E' as <-.
    rewrite (nearest_unique _ _ _ NZ (nearest_spec v)) in T. apply Qltb_lt in E2. unfold too_big in E2. unfold inject_Z at 1 in E2. lra. }
  left. split; [reflexivity|]. split; [reflexivity|]. exists v. split; [exact E|]. split; [apply nearest_spec|].
  apply Qltb_ge in E1. apply Qltb_ge in E2. split; [exact E1|exact E2].
Qed.

(** Exact description of fixIntegers on the columns i .. i+k-1: it stops at the first
    integer column that cannot be fixed (column t). *)
Lemma fix_spec n ints sol tol : forall k i s, cols_ok n ints sol s -> (i + k = n)%nat ->
  exists th s' t, fixIntegers k i ints sol tol s = Ok (th, s') /\ (i <= t <= n)%nat /\
    length (k_lo s') = n /\ length (k_up s') = n /\
    (th = false -> t = n) /\ (th = true -> (t < n)%nat /\ is_int ints t /\ ~ exists z, fixable sol tol t z) /\
    (forall j, (i <= j < t)%nat -> is_int ints j -> exists z, fixable sol tol j z /\ bounds_are s' j (Fin (inject_Z z)) (Fin (inject_Z z))) /\
    (forall j, (j < i \/ t <= j \/ ~ is_int ints j)%nat -> same_bounds s s' j).
Proof.
  induction k as [|k IH]; intros i s OK IK.
  - exists false, s, n. cbn [fixIntegers]. destruct OK as (O1 & O2 & O3 & O4).
    split; [reflexivity|]. split; [lia|]. split; [exact O3|]. split; [exact O4|]. split; [reflexivity|].
    split; [discriminate|]. split; [intros; lia|]. intros. split; reflexivity.
  - cbn [fixIntegers]. pose proof OK as (O1 & O2 & O3 & O4).
    destruct (rd_some i ints ltac:(lia)) as (b & Eb & ->). cbn [bind].
    destruct b.
    + destruct (rd_some i sol ltac:(lia)) as (v & Ev & ->). cbn [bind]. unfold fix_one.
      destruct (fixable_dec n i sol tol v O2 ltac:(lia) Ev) as [(E1 & E2 & FX)|(EE & NF)].
      * rewrite E1, E2. destruct (set_both n i (Fin (inject_Z (nearest v))) (Fin (inject_Z (nearest v))) s O3 O4 ltac:(lia)) as (s1 & ES & L1 & L2 & B & SB).
        assert (ES' : (do s0 <- setLower i (Fin (inject_Z (nearest v))) s; do s2 <- setUpper i (Fin (inject_Z (nearest v))) s0; Ok (false, s2)) = Ok (false, s1)).
        { destruct (setLower i (Fin (inject_Z (nearest v))) s) as [sa| | | | | | |]; try discriminate. cbn [bind] in ES |- *. rewrite ES. reflexivity. }
        rewrite ES'. cbn [bind fst snd].
        destruct (IH (S i) s1) as (th & s' & t & EQ & T & LL & LU & F1 & F2 & F3 & F4); [split; [|split; [|split]]; assumption|lia|].
        exists th, s', t. split; [exact EQ|]. split; [lia|]. split; [exact LL|]. split; [exact LU|]. split; [exact F1|]. split; [exact F2|]. split.
        -- intros j J IJ. destruct (Nat.eq_dec j i) as [e|N].
           ++ subst j. exists (nearest v). split; [exact FX|]. destruct (F4 i ltac:(lia)) as [G1 G2]. destruct B as [B1 B2].
              split; congruence.
           ++ apply F3; [lia|exact IJ].
        -- intros j J. assert (j <> i) by (intros ->; destruct J as [J|[J|J]]; [lia|lia|apply J; exact Eb]).
           destruct (F4 j) as [G1 G2]; [destruct J as [J|[J|J]]; [left; lia|right; left; exact J|right; right; exact J]|].
           destruct (SB j H) as [G3 G4]. split; congruence.
      * exists true, s, i. split.
        { destruct EE as [->|[-> ->]]; reflexivity. }
        split; [lia|]. split; [exact O3|]. split; [exact O4|]. split; [discriminate|].
        split; [intros _; split; [lia|]; split; [exact Eb|exact NF]|]. split; [intros; lia|]. intros. split; reflexivity.
    + destruct (IH (S i) s OK ltac:(lia)) as (th & s' & t & EQ & T & LL & LU & F1 & F2 & F3 & F4).
      exists th, s', t. split; [exact EQ|]. split; [lia|]. split; [exact LL|]. split; [exact LU|]. split; [exact F1|]. split; [exact F2|]. split.
      * intros j J IJ. destruct (Nat.eq_dec j i) as [e|N]; [|apply F3; [lia|exact IJ]].
        subst j. unfold is_int in IJ. congruence.
      * intros j J. destruct (Nat.eq_dec j i) as [e|N].
        -- subst j. apply F4. left. lia.
        -- apply F4. destruct J as [J|[J|J]]; [left; lia|right; left; exact J|right; right; exact J].
Qed.

(** relaxIntegers moves both bounds of every integer column out by tol. *)
Lemma relax_spec n ints tol : length ints = n -> forall k i s, length (k_lo s) = n -> length (k_up s) = n -> (i + k = n)%nat ->
  exists s', relaxIntegers k i ints tol s = Ok s' /\ length (k_lo s') = n /\ length (k_up s') = n /\
    (forall j, (i <= j < n)%nat -> is_int ints j -> widened tol s s' j) /\
    (forall j, (j < i \/ n <= j \/ ~ is_int ints j)%nat -> same_bounds s s' j).
Proof.
  intros LI. induction k as [|k IH]; intros i s L1 L2 IK.
  - exists s. cbn [relaxIntegers]. split; [reflexivity|]. split; [exact L1|]. split; [exact L2|]. split; [intros; lia|]. intros. split; reflexivity.
  - cbn [relaxIntegers]. destruct (rd_some i ints ltac:(lia)) as (b & Eb & ->). cbn [bind]. destruct b.
    + unfold relax_one. destruct (rd_some i (k_lo s) ltac:(lia)) as (l & El & ->). cbn [bind].
      unfold setLower at 1. rewrite lset_ok by lia. cbn [bind k_lo k_up].
      destruct (rd_some i (k_up s) ltac:(lia)) as (u & Eu & ->). cbn [bind].
      destruct (set_both n i (eplus l (- tol)) (eplus u tol) s L1 L2 ltac:(lia)) as (s1 & ES & M1 & M2 & B & SB).
      unfold setLower at 1 in ES. rewrite lset_ok in ES by lia. cbn [bind] in ES. rewrite ES. cbn [bind].
      destruct (IH (S i) s1 M1 M2 ltac:(lia)) as (s' & EQ & LL & LU & F1 & F2).
      exists s'. split; [exact EQ|]. split; [exact LL|]. split; [exact LU|]. split.
      * intros j J IJ. destruct (Nat.eq_dec j i) as [e|N].
        -- subst j. exists l, u. split; [split; assumption|]. destruct (F2 i ltac:(lia)) as [G1 G2]. destruct B as [B1 B2]. split; congruence.
        -- destruct (F1 j ltac:(lia) IJ) as (l' & u' & [X1 X2] & X). exists l', u'. destruct (SB j N) as [G1 G2]. split; [split; congruence|exact X].
      * intros j J. assert (N : j <> i) by (intros ->; destruct J as [J|[J|J]]; [lia|lia|apply J; exact Eb]).
        destruct (F2 j) as [G1 G2]; [destruct J as [J|[J|J]]; [left; lia|right; left; exact J|right; right; exact J]|].
        destruct (SB j N) as [G3 G4]. split; congruence.
    + destruct (IH (S i) s L1 L2 ltac:(lia)) as (s' & EQ & LL & LU & F1 & F2).
      exists s'. split; [exact EQ|]. split; [exact LL|]. split; [exact LU|]. split.
      * intros j J IJ. destruct (Nat.eq_dec j i) as [e|N]; [subst j; unfold is_int in IJ; congruence|apply F1; [lia|exact IJ]].
      * intros j J. destruct (Nat.eq_dec j i) as [e|N]; [subst j; apply F2; left; lia|].
        apply F2. destruct J as [J|[J|J]]; [left; lia|right; left; exact J|right; right; exact J].
Qed.

(** ** isDifferentOnIntegers, integerFeasible *)
Lemma differ_spec n ints tol a b : forall i, length a = n -> length b = n -> (i + length ints <= n)%nat ->
  exists r, isDifferentOnIntegers i ints tol a b = Ok r /\
   (r = true <-> exists j va vb, nth_error ints j = Some true /\ nth_error a (i + j) = Some va /\ nth_error b (i + j) = Some vb /\ tol < Qabs (vb - va)).
Proof.
  induction ints as [|t ints IH]; intros i LA LB L; cbn [isDifferentOnIntegers].
  - exists false. split; [reflexivity|]. split; [discriminate|]. intros (j & ? & ? & E & _). destruct j; discriminate.
  - simpl in L.
    assert (SH : forall (r : bool), (r = true <-> exists j va vb, nth_error ints j = Some true /\ nth_error a (S i + j) = Some va /\ nth_error b (S i + j) = Some vb /\ tol < Qabs (vb - va)) ->
      (forall va vb, t = true -> nth_error a i = Some va -> nth_error b i = Some vb -> ~ tol < Qabs (vb - va)) ->
      (r = true <-> exists j va vb, nth_error (t :: ints) j = Some true /\ nth_error a (i + j) = Some va /\ nth_error b (i + j) = Some vb /\ tol < Qabs (vb - va))).
    { intros r HR NT. rewrite HR. split.
      - intros (j & va & vb & E & EA & EB & T). exists (S j), va, vb. replace (i + S j)%nat with (S i + j)%nat by lia. auto.
      - intros (j & va & vb & E & EA & EB & T). destruct j as [|j].
        + exfalso. rewrite Nat.add_0_r in EA, EB. injection E as E. eapply NT; eauto.
        + exists j, va, vb. replace (i + S j)%nat with (S i + j)%nat in EA, EB by lia. auto. }
    destruct t.
    + destruct (rd_some i a ltac:(lia)) as (va & EA & ->). destruct (rd_some i b ltac:(lia)) as (vb & EB & ->). cbn [bind].
      destruct (Qltb tol (Qabs (vb - va))) eqn:E.
      * exists true. split; [reflexivity|]. split; [|reflexivity]. intros _. exists 0%nat, va, vb. rewrite Nat.add_0_r.
        apply Qltb_lt in E. auto.
      * destruct (IH (S i) LA LB ltac:(lia)) as (r & -> & HR). exists r. split; [reflexivity|]. apply SH; [exact HR|].
        intros va' vb' _ EA' EB' T. rewrite EA in EA'. rewrite EB in EB'. injection EA' as <-. injection EB' as <-. apply Qltb_ge in E. lra.
    + destruct (IH (S i) LA LB ltac:(lia)) as (r & -> & HR). exists r. split; [reflexivity|]. apply SH; [exact HR|]. discriminate.
Qed.
Lemma intfeas_spec n ints tol a : forall i, length a = n -> (i + length ints <= n)%nat ->
  exists r, integerFeasible i ints a tol = Ok r /\
   (r = true <-> forall j v, nth_error ints j = Some true -> nth_error a (i + j) = Some v -> Qabs (v - inject_Z (nearest v)) <= tol).
Proof.
  induction ints as [|t ints IH]; intros i LA L; cbn [integerFeasible].
  - exists true. split; [reflexivity|]. split; [|reflexivity]. intros _ j v E. destruct j; discriminate.
  - simpl in L.
    assert (SH : forall r : bool, (r = true <-> forall j v, nth_error ints j = Some true -> nth_error a (S i + j) = Some v -> Qabs (v - inject_Z (nearest v)) <= tol) ->
      (forall v, t = true -> nth_error a i = Some v -> Qabs (v - inject_Z (nearest v)) <= tol) ->
      (r = true <-> forall j v, nth_error (t :: ints) j = Some true -> nth_error a (i + j) = Some v -> Qabs (v - inject_Z (nearest v)) <= tol)).
    { intros r HR NT. rewrite HR. split.
      - intros H j v E EA. destruct j as [|j]; [rewrite Nat.add_0_r in EA; injection E as E; eapply NT; eauto|].
        apply (H j v E). replace (S i + j)%nat with (i + S j)%nat by lia. exact EA.
      - intros H j v E EA. apply (H (S j) v E). replace (i + S j)%nat with (S i + j)%nat by lia. exact EA. }
    destruct t.
    + destruct (rd_some i a ltac:(lia)) as (va & EA & ->). cbn [bind].
      destruct (Qltb tol _) eqn:E.
      * exists false. split; [reflexivity|]. split; [discriminate|]. intros H. exfalso. apply Qltb_lt in E.
        specialize (H 0%nat va eq_refl). rewrite Nat.add_0_r in H. specialize (H EA). lra.
      * destruct (IH (S i) LA ltac:(lia)) as (r & -> & HR). exists r. split; [reflexivity|]. apply SH; [exact HR|].
        intros v _ EV. rewrite EA in EV. injection EV as <-. apply Qltb_ge in E. exact E.
    + destruct (IH (S i) LA ltac:(lia)) as (r & -> & HR). exists r. split; [reflexivity|]. apply SH; [exact HR|]. discriminate.
Qed.

(** Objects. *)
Lemma differ_at_spec n tol a b : length a = n -> length b = n -> forall cs, Forall (fun c => (c < n)%nat) cs ->
  exists r, differ_at cs tol a b = Ok r /\
   (r = true <-> exists c va vb, In c cs /\ nth_error a c = Some va /\ nth_error b c = Some vb /\ tol < Qabs (vb - va)).
Proof.
  intros LA LB. induction 1 as [|c cs Hc F IH]; cbn [differ_at].
  - exists false. split; [reflexivity|]. split; [discriminate|]. intros (c & ? & ? & [] & _).
  - destruct (rd_some c b ltac:(lia)) as (vb & EB & ->). destruct (rd_some c a ltac:(lia)) as (va & EA & ->). cbn [bind].
    destruct (Qltb tol (Qabs (vb - va))) eqn:E.
    + exists true. split; [reflexivity|]. split; [|reflexivity]. intros _. exists c, va, vb. apply Qltb_lt in E. simpl. auto.
    + destruct IH as (r & -> & HR). exists r. split; [reflexivity|]. rewrite HR. apply Qltb_ge in E. split.
      * intros (c' & x & y & I & X). exists c', x, y. simpl. auto.
      * intros (c' & x & y & [<-|I] & EA' & EB' & T); [|eauto 8].
        rewrite EA in EA'. rewrite EB in EB'. injection EA' as <-. injection EB' as <-. lra.
Qed.
Definition obj_cols (o : obj) : list nat := match o with OInt c => [c] | OSos m => m end.
Lemma differ_obj_spec n tol a b : length a = n -> length b = n -> forall os, Forall (fun o => Forall (fun c => (c < n)%nat) (obj_cols o)) os ->
  exists r, isDifferentOnObjects os tol a b = Ok r /\
   (r = true <-> exists o c va vb, In o os /\ In c (obj_cols o) /\ nth_error a c = Some va /\ nth_error b c = Some vb /\ tol < Qabs (vb - va)).
Proof.
  intros LA LB. induction 1 as [|o os Ho F IH]; cbn [isDifferentOnObjects].
  - exists false. split; [reflexivity|]. split; [discriminate|]. intros (o & ? & ? & ? & [] & _).
  - destruct (differ_at_spec n tol a b LA LB (obj_cols o) Ho) as (d & E & HD). unfold obj_cols in E. rewrite E. cbn [bind]. destruct d.
    + exists true. split; [reflexivity|]. split; [|reflexivity]. intros _. destruct HD as [HD _]. destruct (HD eq_refl) as (c & va & vb & I & X).
      exists o, c, va, vb. simpl. auto.
    + destruct IH as (r & -> & HR). exists r. split; [reflexivity|]. rewrite HR. split.
      * intros (o' & c & va & vb & I & X). exists o', c, va, vb. simpl. auto.
      * intros (o' & c & va & vb & [<-|I] & IC & X); [|eauto 10].
        destruct HD as [_ HD]. enough (false = true) by discriminate. apply HD. exists c, va, vb. auto.
Qed.
Lemma relax_obj_sos os tol s m : In (OSos m) os -> forall s', relaxObjects os tol s <> Ok s'.
Proof.
  revert s; induction os as [|o os IH]; intros s I s' E; [destruct I|]. cbn [relaxObjects] in E. destruct o as [c|m'].
  - destruct I as [I|I]; [discriminate|]. apply bind_ok in E. destruct E as (s1 & _ & E). exact (IH s1 I s' E).
  - discriminate.
Qed.
Lemma fix_obj_spec n lo up sol : length lo = n -> length up = n -> length sol = n ->
  forall cs s, NoDup cs -> Forall (fun c => (c < n)%nat) cs -> length (k_lo s) = n -> length (k_up s) = n ->
  exists s', fixObjects (map OInt cs) lo up sol s = Ok s' /\ length (k_lo s') = n /\ length (k_up s') = n /\
   (forall c, In c cs -> exists v l u, nth_error sol c = Some v /\ nth_error lo c = Some l /\ nth_error up c = Some u /\
      let z := nearest (proj l u v) in bounds_are s' c (Fin (inject_Z z)) (Fin (inject_Z z))) /\
   (forall c, ~ In c cs -> same_bounds s s' c).
Proof.
  intros LL LU LS. induction cs as [|c cs IH]; intros s ND F L1 L2; cbn [map fixObjects].
  - exists s. split; [reflexivity|]. split; [exact L1|]. split; [exact L2|]. split; [intros c []|]. intros. split; reflexivity.
  - inversion ND as [|? ? NI ND']; subst. inversion F as [|? ? Hc F']; subst.
    destruct (rd_some c sol ltac:(lia)) as (v & Ev & ->). destruct (rd_some c lo ltac:(lia)) as (l & El & ->).
    destruct (rd_some c up ltac:(lia)) as (u & Eu & ->). cbn [bind].
    set (z := nearest (proj l u v)).
    destruct (set_both _ c (Fin (inject_Z z)) (Fin (inject_Z z)) s L1 L2 Hc) as (s1 & ES & M1 & M2 & B & SB).
    destruct (setLower c (Fin (inject_Z z)) s) as [sa| | | | | | |]; try discriminate ES. cbn [bind] in ES |- *. rewrite ES. cbn [bind].
    destruct (IH s1 ND' F' M1 M2) as (s' & EQ & N1 & N2 & G1 & G2). exists s'. split; [exact EQ|]. split; [exact N1|]. split; [exact N2|]. split.
    + intros c' [<-|I]; [|exact (G1 c' I)]. exists v, l, u. split; [exact Ev|]. split; [exact El|]. split; [exact Eu|]. cbv zeta. fold z.
      destruct (G2 c NI) as [H1 H2]. destruct B as [B1 B2]. split; congruence.
    + intros c' NI'. assert (c' <> c) by (intros ->; apply NI'; left; reflexivity).
      destruct (G2 c') as [H1 H2]; [intros I; apply NI'; right; exact I|]. destruct (SB c' H) as [H3 H4]. split; congruence.
Qed.

(** ** solverManip *)
Section Manip.
Context {R W : Type}.
Lemma run_rows : forall (ops : list (lpop R W)) s, exists ex, p_rows (lp_run ops s) = p_rows s ++ ex.
Proof.
  induction ops as [|o ops IH]; intros s; [exists []; simpl; rewrite app_nil_r; reflexivity|].
  cbn [lp_run fold_left]. destruct (IH (lp_step s o)) as (ex & E). fold (lp_run ops (lp_step s o)). rewrite E.
  destruct o; cbn [lp_step p_rows]; eauto. rewrite <- app_assoc. eauto.
Qed.
Lemma restore_spec sb b c (s : lpst R W) ops :
  exists s', restore (manip true sb b c s) (lp_run ops s) = Ok s' /\ p_rows s' = p_rows s /\
    (b = true -> p_cols s' = p_cols s) /\ (sb = true -> p_warm s' = p_warm s) /\
    (c = true -> p_cut s <> PInf -> p_cut s' = p_cut s) /\
    (c = false \/ p_cut s = PInf -> p_cut s' = p_cut (lp_run ops s)) /\
    (b = false -> p_cols s' = p_cols (lp_run ops s)).
Proof.
  destruct (run_rows ops s) as (ex & E). unfold restore, manip. cbn [v_rows v_cols v_cut v_warm].
  rewrite E, app_length. destruct (Nat.ltb_spec (length (p_rows s) + length ex) (length (p_rows s))) as [L|_]; [lia|]. cbn [bind].
  eexists. split; [reflexivity|]. cbn [p_rows p_cols p_cut p_warm].
  rewrite firstn_app, firstn_all, Nat.sub_diag. cbn [firstn]. rewrite app_nil_r. split; [reflexivity|].
  split; [intros ->; reflexivity|]. split; [intros ->; reflexivity|].
  split; [intros -> N; destruct (p_cut s) as [|q|]; congruence|].
  split; [intros [->|EQ]; [|destruct c; [rewrite EQ|]]; reflexivity|].
  intros ->; reflexivity.
Qed.
End Manip.

(** ** The cutoff *)
Lemma new_cutoff_lt ub decr : new_cutoff ub decr < ub <-> 0 < decr /\ ~ ub == 0.
Proof.
  unfold new_cutoff. destruct (Qltb 0 ub) eqn:E; [apply Qltb_lt in E|apply Qltb_ge in E]; split; intros H.
  - split; [|lra]. destruct (Qlt_le_dec 0 decr); [assumption|nra].
  - destruct H as [H _]. nra.
  - assert (~ ub == 0) by (intros Z; rewrite Z in H; lra). split; [|assumption].
    destruct (Qlt_le_dec 0 decr); [assumption|]. nra.
  - destruct H as [H N]. assert (ub < 0) by (destruct (Qlt_le_dec ub 0); [assumption|exfalso; apply N; lra]). nra.
Qed.
Lemma new_cutoff_le ub decr : 0 <= decr -> new_cutoff ub decr <= ub.
Proof. unfold new_cutoff. intros H. destruct (Qltb 0 ub) eqn:E; [apply Qltb_lt in E|apply Qltb_ge in E]; nra. Qed.
