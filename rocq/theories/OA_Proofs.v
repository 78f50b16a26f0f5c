(** Proofs about outer-approximation cuts. *)
From Verif Require Import Base Arr Nlp OA_Model OA_Spec.
#[local] Open Scope Q_scope.

(** ** Bounds and their shifts *)
Definition shifted (b b' : ext) (d : Q) : Prop :=
  match b with Fin u => exists u', b' = Fin u' /\ u' == u + d | _ => b' = b end.
Lemma shifted_refl b d : d == 0 -> shifted b b d.
Proof. intros D. destruct b; simpl; auto. exists q. split; [reflexivity|]. rewrite D. ring. Qed.
Lemma shifted_eadd b d d' : d == d' -> shifted b (eadd b d) d'.
Proof. intros D. destruct b; simpl; auto. exists (q + d). split; [reflexivity|]. rewrite D. ring. Qed.
Lemma shifted_trans b b' b'' d d' d'' : shifted b b' d -> shifted b' b'' d' -> d'' == d + d' -> shifted b b'' d''.
Proof.
  intros H1 H2 E. destruct b; simpl in *; try (subst b'; simpl in H2; exact H2).
  destruct H1 as (u & -> & U). simpl in H2. destruct H2 as (u2 & -> & U2). exists u2. split; [reflexivity|]. lra.
Qed.
Lemma shifted_up b b' d v w : shifted b b' d -> v == w + d -> (up_ok b' v <-> up_ok b w).
Proof.
  intros H E. destruct b; simpl in H; [subst b'; simpl; tauto| |subst b'; simpl; tauto].
  destruct H as (u & -> & U). simpl. split; intros; lra.
Qed.
Lemma shifted_lo b b' d v w : shifted b b' d -> v == w + d -> (lo_ok b' v <-> lo_ok b w).
Proof.
  intros H E. destruct b; simpl in H; [subst b'; simpl; tauto| |subst b'; simpl; tauto].
  destruct H as (u & -> & U). simpl. split; intros; lra.
Qed.
Lemma up_ok_le b v w : up_ok b v -> w <= v -> up_ok b w.
Proof. destruct b; simpl; intros; try tauto. lra. Qed.
Lemma lo_ok_le b v w : lo_ok b v -> v <= w -> lo_ok b w.
Proof. destruct b; simpl; intros; try tauto. lra. Qed.
Lemma up_ok_eq b v w : v == w -> (up_ok b v <-> up_ok b w).
Proof. intros E. destruct b; simpl; try tauto. rewrite E. tauto. Qed.
Lemma lo_ok_eq b v w : v == w -> (lo_ok b v <-> lo_ok b w).
Proof. intros E. destruct b; simpl; try tauto. rewrite E. tauto. Qed.
Lemma up_ok_eadd b d v : up_ok (eadd b d) v <-> up_ok b (v - d).
Proof. destruct b; simpl; try tauto. split; intros; lra. Qed.
Lemma lo_ok_eadd b d v : lo_ok (eadd b d) v <-> lo_ok b (v - d).
Proof. destruct b; simpl; try tauto. split; intros; lra. Qed.
Lemma lhs_app p q y : lhs (p ++ q) y == lhs p y + lhs q y.
Proof. unfold lhs. rewrite map_app. apply qsum_app. Qed.
Lemma lhs_one c v y : lhs [(c, v)] y == v * nth c y 0.
Proof. unfold lhs. cbn. ring. Qed.

Lemma rd_nth {A} i (l : list A) d : (i < length l)%nat -> rd i l = Ok (nth i l d).
Proof. intros H. unfold rd. rewrite (nth_error_nth' l d H). reflexivity. Qed.
Lemma nth_bounds {R : ext -> Q -> Prop} ls vs i d : Forall2 R ls vs -> (i < length vs)%nat -> R (nth i ls d) (nth i vs 0).
Proof.
  intros F; revert i; induction F; intros i L; simpl in *; [lia|]. destruct i; [assumption|]. apply IHF. lia.
Qed.

(** ** A run of coefficients *)
Section Coef.
Variables (tiny vtiny : Q) (rl ru : ext) (cl cu : list ext) (x : list Q).
Definition cfs (p : nat * Q) (s : cutst) : outcome cutst :=
  oa_coef tiny vtiny (snd p) (fst p) (nth (fst p) cl MInf) (nth (fst p) cu PInf) rl ru (nth (fst p) x 0) s.
(** The value at which column c contributes, once small coefficients are treated. *)
Definition corner (y : list Q) (p : nat * Q) : Q :=
  let '(c, v) := p in
  if Qle_bool tiny (Qabs v) then nth c y 0
  else if Qltb (Qabs v) vtiny then nth c x 0
  else
    let pos := Qltb 0 v in
    let toup := ((pos && negb (ltp ru)) || (negb pos && negb (gtm rl)))%bool in
    let tolo := ((negb pos && negb (ltp ru)) || (pos && negb (gtm rl)))%bool in
    match nth c cu PInf with
    | Fin u => if toup then u else match nth c cl MInf with Fin l => if tolo then l else nth c y 0 | _ => nth c y 0 end
    | _ => match nth c cl MInf with Fin l => if tolo then l else nth c y 0 | _ => nth c y 0 end
    end.
Lemma pv_insert_ok c v p p' : pv_insert c v p = Ok p' -> p' = p ++ [(c, v)].
Proof. unfold pv_insert. destruct (existsb _ _); [discriminate|]. intros H; injection H as <-; reflexivity. Qed.

Lemma step_up y p s s' : cfs p s = Ok s' -> (ltp ru = false -> c_ub s = PInf) ->
  shifted (c_ub s) (c_ub s') (lhs (c_row s') y - lhs (c_row s) y - snd p * (corner y p - nth (fst p) x 0)).
Proof.
  destruct p as [c v]. unfold cfs, oa_coef, clean_nnz, corner. simpl fst; simpl snd. intros H NU.
  set (xc := nth c x 0) in *. set (yc := nth c y 0) in *.
  assert (K2 : forall s'', (do row <- pv_insert c v (c_row s); Ok (mkCut row (eadd (c_lb s) (v * xc)) (eadd (c_ub s) (v * xc)))) = Ok s'' ->
     shifted (c_ub s) (c_ub s'') (lhs (c_row s'') y - lhs (c_row s) y - v * (yc - xc))).
  { intros s'' E. apply bind_ok in E. destruct E as (row & E & E2). injection E2 as <-. cbn [c_ub c_row].
    apply pv_insert_ok in E. subst row. apply shifted_eadd. rewrite lhs_app, lhs_one. fold yc. ring. }
  destruct (Qle_bool tiny (Qabs v)); [apply K2; exact H|].
  destruct (Qltb (Qabs v) vtiny).
  { injection H as <-. simpl. apply shifted_refl. ring. }
  assert (NUP : ltp ru = false -> forall d, shifted (c_ub s) (c_ub s) d).
  { intros E d. rewrite (NU E). simpl. reflexivity. }
  destruct (Qltb 0 v) eqn:V; destruct (ltp ru) eqn:U; destruct (gtm rl) eqn:L; cbn [negb andb orb] in *; cbv iota in *;
    destruct (nth c cu PInf) as [|u|], (nth c cl MInf) as [|l|];
    try (apply K2; exact H);
    try (injection H as <-; cbn [c_ub c_row c_lb]; first [ apply NUP; reflexivity | apply shifted_eadd; ring ]).
Qed.
Lemma step_lo y p s s' : cfs p s = Ok s' -> (gtm rl = false -> c_lb s = MInf) ->
  shifted (c_lb s) (c_lb s') (lhs (c_row s') y - lhs (c_row s) y - snd p * (corner y p - nth (fst p) x 0)).
Proof.
  destruct p as [c v]. unfold cfs, oa_coef, clean_nnz, corner. simpl fst; simpl snd. intros H NU.
  set (xc := nth c x 0) in *. set (yc := nth c y 0) in *.
  assert (K2 : forall s'', (do row <- pv_insert c v (c_row s); Ok (mkCut row (eadd (c_lb s) (v * xc)) (eadd (c_ub s) (v * xc)))) = Ok s'' ->
     shifted (c_lb s) (c_lb s'') (lhs (c_row s'') y - lhs (c_row s) y - v * (yc - xc))).
  { intros s'' E. apply bind_ok in E. destruct E as (row & E & E2). injection E2 as <-. cbn [c_lb c_row].
    apply pv_insert_ok in E. subst row. apply shifted_eadd. rewrite lhs_app, lhs_one. fold yc. ring. }
  destruct (Qle_bool tiny (Qabs v)); [apply K2; exact H|].
  destruct (Qltb (Qabs v) vtiny).
  { injection H as <-. simpl. apply shifted_refl. ring. }
  assert (NUP : gtm rl = false -> forall d, shifted (c_lb s) (c_lb s) d).
  { intros E d. rewrite (NU E). simpl. reflexivity. }
  destruct (Qltb 0 v) eqn:V; destruct (ltp ru) eqn:U; destruct (gtm rl) eqn:L; cbn [negb andb orb] in *; cbv iota in *;
    destruct (nth c cu PInf) as [|u|], (nth c cl MInf) as [|l|];
    try (apply K2; exact H);
    try (injection H as <-; cbn [c_ub c_row c_lb]; first [ apply NUP; reflexivity | apply shifted_eadd; ring ]).
Qed.

Definition dsum (y : list Q) (es : list (nat * Q)) : Q :=
  qsum (map (fun p => snd p * (corner y p - nth (fst p) x 0)) es).
Lemma fold_up y es : forall s s', foldM cfs es s = Ok s' -> (ltp ru = false -> c_ub s = PInf) ->
  shifted (c_ub s) (c_ub s') (lhs (c_row s') y - lhs (c_row s) y - dsum y es).
Proof.
  induction es as [|p es IH]; intros s s' H NU; cbn [foldM] in H.
  - injection H as <-. apply shifted_refl. unfold dsum. simpl. ring.
  - apply bind_ok in H. destruct H as (s1 & E & H). pose proof (step_up y _ _ _ E NU) as S1.
    assert (NU1 : ltp ru = false -> c_ub s1 = PInf).
    { intros L. rewrite (NU L) in S1. exact S1. }
    pose proof (IH _ _ H NU1) as S2. eapply shifted_trans; [exact S1|exact S2|]. unfold dsum. cbn [map qsum]. ring.
Qed.
Lemma fold_lo y es : forall s s', foldM cfs es s = Ok s' -> (gtm rl = false -> c_lb s = MInf) ->
  shifted (c_lb s) (c_lb s') (lhs (c_row s') y - lhs (c_row s) y - dsum y es).
Proof.
  induction es as [|p es IH]; intros s s' H NU; cbn [foldM] in H.
  - injection H as <-. apply shifted_refl. unfold dsum. simpl. ring.
  - apply bind_ok in H. destruct H as (s1 & E & H). pose proof (step_lo y _ _ _ E NU) as S1.
    assert (NU1 : gtm rl = false -> c_lb s1 = MInf).
    { intros L. rewrite (NU L) in S1. exact S1. }
    pose proof (IH _ _ H NU1) as S2. eapply shifted_trans; [exact S1|exact S2|]. unfold dsum. cbn [map qsum]. ring.
Qed.

(** Corners bound the linear term on the side in use. *)
Definition negl1 (y : list Q) (p : nat * Q) : Q :=
  if Qltb (Qabs (snd p)) vtiny then Qabs (snd p) * Qabs (nth (fst p) y 0 - nth (fst p) x 0) else 0.
Lemma negl1_nonneg y p : 0 <= negl1 y p.
Proof.
  unfold negl1. destruct (Qltb _ _); [|lra].
  apply Qmult_le_0_compat; apply Qabs_nonneg.
Qed.
Lemma abs_mul v d : v * d <= Qabs v * Qabs d /\ - (v * d) <= Qabs v * Qabs d.
Proof.
  rewrite <- Qabs_Qmult. split; [apply Qle_Qabs|]. rewrite <- Qabs_opp. apply Qle_Qabs.
Qed.
Lemma corner_up y p : ltp ru = true ->
  lo_ok (nth (fst p) cl MInf) (nth (fst p) y 0) -> up_ok (nth (fst p) cu PInf) (nth (fst p) y 0) ->
  snd p * (corner y p - nth (fst p) x 0) - negl1 y p <= snd p * (nth (fst p) y 0 - nth (fst p) x 0).
Proof.
  destruct p as [c v]. unfold corner, negl1. cbn [fst snd]. intros U. rewrite U. cbn [negb andb orb].
  set (xc := nth c x 0). set (yc := nth c y 0). intros LO UP.
  assert (N : 0 <= if Qltb (Qabs v) vtiny then Qabs v * Qabs (yc - xc) else 0).
  { destruct (Qltb (Qabs v) vtiny); [apply Qmult_le_0_compat; apply Qabs_nonneg|lra]. }
  destruct (Qle_bool tiny (Qabs v)); [lra|].
  destruct (Qltb (Qabs v) vtiny) eqn:T. { pose proof (abs_mul v (yc - xc)) as [_ B]. lra. }
  destruct (Qltb 0 v) eqn:V; [apply Qltb_lt in V|apply Qltb_ge in V];
  rewrite ?andb_false_r, ?orb_false_r; cbn [negb andb orb]; cbv iota;
    destruct (gtm rl); cbn [negb]; cbv iota;
    destruct (nth c cu PInf) as [|u|]; simpl in UP; try tauto;
    destruct (nth c cl MInf) as [|l|]; simpl in LO; try tauto; try lra; nra.
Qed.
Lemma corner_lo y p : gtm rl = true ->
  lo_ok (nth (fst p) cl MInf) (nth (fst p) y 0) -> up_ok (nth (fst p) cu PInf) (nth (fst p) y 0) ->
  snd p * (nth (fst p) y 0 - nth (fst p) x 0) <= snd p * (corner y p - nth (fst p) x 0) + negl1 y p.
Proof.
  destruct p as [c v]. unfold corner, negl1. cbn [fst snd]. intros U. rewrite U. cbn [negb andb orb].
  set (xc := nth c x 0). set (yc := nth c y 0). intros LO UP.
  assert (N : 0 <= if Qltb (Qabs v) vtiny then Qabs v * Qabs (yc - xc) else 0).
  { destruct (Qltb (Qabs v) vtiny); [apply Qmult_le_0_compat; apply Qabs_nonneg|lra]. }
  destruct (Qle_bool tiny (Qabs v)); [lra|].
  destruct (Qltb (Qabs v) vtiny) eqn:T. { pose proof (abs_mul v (yc - xc)) as [B _]. lra. }
  destruct (Qltb 0 v) eqn:V; [apply Qltb_lt in V|apply Qltb_ge in V];
  rewrite ?andb_false_r, ?orb_false_r; cbn [negb andb orb]; cbv iota;
    destruct (ltp ru); cbn [negb andb orb]; cbv iota;
    destruct (nth c cu PInf) as [|u|]; simpl in UP; try tauto;
    destruct (nth c cl MInf) as [|l|]; simpl in LO; try tauto; try lra; nra.
Qed.
Lemma dsum_up y es : ltp ru = true ->
  (forall p, In p es -> lo_ok (nth (fst p) cl MInf) (nth (fst p) y 0) /\ up_ok (nth (fst p) cu PInf) (nth (fst p) y 0)) ->
  dsum y es - qsum (map (negl1 y) es) <= qsum (map (fun p => snd p * (nth (fst p) y 0 - nth (fst p) x 0)) es).
Proof.
  intros U. unfold dsum. induction es as [|p es IH]; intros B; cbn [map qsum]; [lra|].
  destruct (B p (or_introl eq_refl)) as [B1 B2]. pose proof (corner_up y p U B1 B2).
  assert (B' : forall q, In q es -> lo_ok (nth (fst q) cl MInf) (nth (fst q) y 0) /\ up_ok (nth (fst q) cu PInf) (nth (fst q) y 0))
    by (intros q Hq; apply B; right; exact Hq).
  specialize (IH B'). lra.
Qed.
Lemma dsum_lo y es : gtm rl = true ->
  (forall p, In p es -> lo_ok (nth (fst p) cl MInf) (nth (fst p) y 0) /\ up_ok (nth (fst p) cu PInf) (nth (fst p) y 0)) ->
  qsum (map (fun p => snd p * (nth (fst p) y 0 - nth (fst p) x 0)) es) <= dsum y es + qsum (map (negl1 y) es).
Proof.
  intros U. unfold dsum. induction es as [|p es IH]; intros B; cbn [map qsum]; [lra|].
  destruct (B p (or_introl eq_refl)) as [B1 B2]. pose proof (corner_lo y p U B1 B2).
  assert (B' : forall q, In q es -> lo_ok (nth (fst q) cl MInf) (nth (fst q) y 0) /\ up_ok (nth (fst q) cu PInf) (nth (fst q) y 0))
    by (intros q Hq; apply B; right; exact Hq).
  specialize (IH B'). lra.
Qed.

(** The run succeeds when the columns are distinct; only those columns appear. *)
Lemma pv_insert_fresh c v p : ~ In c (map fst p) -> pv_insert c v p = Ok (p ++ [(c, v)]).
Proof.
  intros N. unfold pv_insert. destruct (existsb _ _) eqn:E; [|reflexivity].
  apply existsb_exists in E. destruct E as ([c' v'] & I & E). apply Nat.eqb_eq in E. simpl in E. subst c'.
  exfalso. apply N. apply in_map_iff. exists (c, v'). auto.
Qed.
Lemma cfs_total p s : ~ In (fst p) (map fst (c_row s)) ->
  exists s', cfs p s = Ok s' /\ incl (map fst (c_row s')) (fst p :: map fst (c_row s)).
Proof.
  intros N. unfold cfs, oa_coef. destruct (clean_nnz _ _ _ _ _ _ _ _ _ _) as [[k l] u].
  destruct k.
  - rewrite (pv_insert_fresh _ _ _ N). cbn [bind]. eexists. split; [reflexivity|]. cbn [c_row].
    rewrite map_app. intros a Ia. apply in_app_or in Ia. simpl in *. destruct Ia as [Ia|[->|[]]]; auto.
  - eexists. split; [reflexivity|]. cbn [c_row]. intros a Ia. right. exact Ia.
Qed.
Lemma fold_total es : forall s, NoDup (map fst es) -> (forall c, In c (map fst es) -> ~ In c (map fst (c_row s))) ->
  exists s', foldM cfs es s = Ok s' /\ incl (map fst (c_row s')) (map fst es ++ map fst (c_row s)).
Proof.
  induction es as [|p es IH]; intros s ND DJ; cbn [foldM].
  - exists s. split; [reflexivity|]. simpl. apply incl_refl.
  - cbn [map] in *. inversion ND as [|a l N1 N2 E1]; subst.
    destruct (cfs_total p s (DJ _ (or_introl eq_refl))) as (s1 & E & I1). rewrite E. cbn [bind].
    destruct (IH s1 N2) as (s' & E' & I2).
    + intros c Hc Hc'. apply I1 in Hc'. destruct Hc' as [<-|Hc']; [contradiction|].
      apply (DJ c); [right; exact Hc|exact Hc'].
    + exists s'. split; [exact E'|]. intros a Ia. apply I2 in Ia. apply in_app_or in Ia.
      simpl. rewrite in_app_iff. destruct Ia as [Ia|Ia]; [auto|]. apply I1 in Ia. destruct Ia as [<-|Ia]; auto.
Qed.
End Coef.

(** ** The loop that updates cells *)
Section CellLoop.
Context {T S : Type} (key : T -> outcome (option nat)) (step : T -> S -> outcome S).
Definition hits (k : nat) (t : T) : bool :=
  match key t with Ok (Some j) => Nat.eqb j k | _ => false end.
Lemma lset_nth {A} i j (a d : A) l l' : lset i a l = Ok l' ->
  nth j l' d = if Nat.eqb j i then a else nth j l d.
Proof.
  unfold lset. destruct (Nat.ltb_spec i (length l)) as [H|H]; [|discriminate].
  intros E; injection E as <-. apply upd_nth. exact H.
Qed.
Lemma lset_length {A} i (a : A) l l' : lset i a l = Ok l' -> length l' = length l.
Proof.
  unfold lset. destruct (Nat.ltb_spec i (length l)) as [H|H]; [|discriminate].
  intros E; injection E as <-. apply upd_length. exact H.
Qed.
Lemma rd_inv {A} i (l : list A) a d : rd i l = Ok a -> (i < length l)%nat /\ a = nth i l d.
Proof.
  unfold rd. destruct (nth_error l i) eqn:E; [|discriminate]. intros H; injection H as ->.
  split; [apply nth_error_Some; congruence|]. symmetry. apply nth_error_nth. exact E.
Qed.
Lemma cell_loop_inv d ts : forall ss ss', cell_loop key step ts ss = Ok ss' ->
  length ss' = length ss /\
  forall k, (k < length ss)%nat -> foldM step (filter (hits k) ts) (nth k ss d) = Ok (nth k ss' d).
Proof.
  induction ts as [|t ts IH]; intros ss ss' H; cbn [cell_loop] in H.
  - injection H as <-. split; [reflexivity|]. intros k Hk. reflexivity.
  - apply bind_ok in H. destruct H as (ko & K & H). cbn [filter]. destruct ko as [j|].
    + apply bind_ok in H. destruct H as (s & R & H). apply bind_ok in H. destruct H as (s1 & ST & H).
      apply bind_ok in H. destruct H as (ss1 & L & H).
      destruct (rd_inv _ _ _ d R) as [Hj Es]. pose proof (lset_length _ _ _ _ L) as LL.
      destruct (IH _ _ H) as [LEN F]. split; [congruence|]. intros k Hk.
      assert (Hk1 : (k < length ss1)%nat) by (rewrite LL; exact Hk). specialize (F k Hk1).
      rewrite (lset_nth _ k _ d _ _ L) in F. unfold hits at 1. rewrite K. rewrite Nat.eqb_sym.
      destruct (Nat.eqb_spec k j) as [e|N].
      * subst j. cbn [foldM]. rewrite <- Es, ST. cbn [bind]. exact F.
      * exact F.
    + destruct (IH _ _ H) as [LEN F]. split; [exact LEN|]. intros k Hk. unfold hits at 1. rewrite K. apply F. exact Hk.
Qed.
(** If every key is in range and every cell's own run succeeds, the loop succeeds. *)
Lemma cell_loop_total d ts : forall ss,
  (forall t, In t ts -> exists ko, key t = Ok ko /\ match ko with Some k => (k < length ss)%nat | None => True end) ->
  (forall k, (k < length ss)%nat -> exists s', foldM step (filter (hits k) ts) (nth k ss d) = Ok s') ->
  exists ss', cell_loop key step ts ss = Ok ss'.
Proof.
  induction ts as [|t ts IH]; intros ss KE FO; cbn [cell_loop].
  - eexists; reflexivity.
  - destruct (KE t (or_introl eq_refl)) as (ko & K & R). rewrite K. cbn [bind]. destruct ko as [j|].
    + rewrite (rd_nth _ _ d R). cbn [bind].
      destruct (FO j R) as (s' & F). cbn [filter] in F. unfold hits at 1 in F. rewrite K, Nat.eqb_refl in F.
      cbn [foldM] in F. apply bind_ok in F. destruct F as (s1 & ST & F). rewrite ST. cbn [bind].
      destruct (lset j s1 ss) as [ss1| | | | | | |] eqn:L;
        try (unfold lset in L; apply Nat.ltb_lt in R; rewrite R in L; discriminate). cbn [bind].
      pose proof (lset_length _ _ _ _ L) as LL. apply IH.
      * intros t' I'. rewrite LL. apply KE. right; exact I'.
      * intros k Hk. rewrite (lset_nth _ k _ d _ _ L). destruct (Nat.eqb_spec k j) as [e|N].
        -- subst k. exists s'. exact F.
        -- rewrite LL in Hk. destruct (FO k Hk) as (s2 & F2). cbn [filter] in F2. unfold hits at 1 in F2.
           rewrite K, Nat.eqb_sym in F2. destruct (Nat.eqb_spec k j); [contradiction|]. exists s2. exact F2.
    + apply IH; [intros t' I'; apply KE; right; exact I'|].
      intros k Hk. destruct (FO k Hk) as (s2 & F2). cbn [filter] in F2. unfold hits at 1 in F2. rewrite K in F2.
      exists s2. exact F2.
Qed.
End CellLoop.

(** ** Rows, entries and the dense Jacobian *)
Lemma qsum_add {A} (f g : A -> Q) l : qsum (map (fun a => f a + g a) l) == qsum (map f l) + qsum (map g l).
Proof. induction l as [|a l IH]; cbn [map qsum]; [ring|]. rewrite IH. ring. Qed.
Lemma qsum_single n c (f : nat -> Q) : (c < n)%nat ->
  qsum (map (fun j => if Nat.eqb c j then f j else 0) (seq 0 n)) == f c.
Proof.
  intros H.
  assert (G : forall k o, (o <= c)%nat -> (c < o + k)%nat ->
             qsum (map (fun j => if Nat.eqb c j then f j else 0) (seq o k)) == f c).
  { induction k as [|k IH]; intros o L U; [lia|]. cbn [seq map qsum]. destruct (Nat.eqb_spec c o) as [e|N].
    - subst o. rewrite qsum_all0; [ring|]. intros a Ha. apply in_seq in Ha.
      destruct (Nat.eqb_spec c a); [lia|reflexivity].
    - rewrite IH by lia. ring. }
  apply G; lia.
Qed.
Lemma dense_sum n off (L : list (nat * nat * Q)) i (d : nat -> Q) :
  (forall p, In p L -> off <= snd (fst p) < n + off)%nat ->
  qsum (map (fun j => qsum (map (fun p => if (Nat.eqb (fst (fst p)) (i + off) && Nat.eqb (snd (fst p)) (j + off))%bool
                                         then snd p else 0) L) * d j) (seq 0 n))
  == qsum (map (fun p => snd p * d (fst p))
       (map (fun p => ((snd (fst p) - off)%nat, snd p)) (filter (fun p => Nat.eqb (fst (fst p)) (i + off)) L))).
Proof.
  induction L as [|[[r c] v] L IH]; intros B.
  - cbn [map qsum filter]. apply qsum_all0. intros; ring.
  - cbn [map qsum filter]. cbn [fst snd].
    rewrite (qsum_ext _ (fun j => (if (Nat.eqb r (i + off) && Nat.eqb c (j + off))%bool then v else 0) * d j +
        qsum (map (fun p => if (Nat.eqb (fst (fst p)) (i + off) && Nat.eqb (snd (fst p)) (j + off))%bool then snd p else 0) L) * d j))
      by (intros; ring).
    rewrite qsum_add. rewrite IH by (intros p Hp; apply B; right; exact Hp).
    destruct (B _ (or_introl eq_refl)) as [B1 B2]. cbn [fst snd] in B1, B2.
    destruct (Nat.eqb_spec r (i + off)) as [e|N]; cbn [andb].
    + cbn [map qsum fst snd]. apply Qplus_comp; [|reflexivity].
      rewrite (qsum_ext _ (fun j => if Nat.eqb (c - off) j then v * d j else 0)).
      * rewrite (qsum_single n (c - off) (fun j => v * d j)) by lia. reflexivity.
      * intros j Hj. destruct (Nat.eqb_spec c (j + off)), (Nat.eqb_spec (c - off) j); try lia; ring.
    + rewrite qsum_all0; [ring|]. intros; ring.
Qed.
Lemma combine_col P x p : nlp_ok P -> In p (combine (p_jst P) (p_jv P x)) ->
  (p_off P <= fst (fst p) < p_m P + p_off P /\ p_off P <= snd (fst p) < p_n P + p_off P)%nat.
Proof.
  intros OK I. destruct p as [rc v]. apply in_combine_l in I.
  pose proof (ok_jst P OK) as F. rewrite Forall_forall in F. specialize (F _ I). cbn [fst]. lia.
Qed.
Lemma rowlin_entries P x i y : nlp_ok P ->
  rowlin P x i y == qsum (map (fun p => snd p * (nth (fst p) y 0 - nth (fst p) x 0)) (row_entries P x i)).
Proof.
  intros OK. unfold rowlin, dense, row_entries.
  apply (dense_sum (p_n P) (p_off P) _ i (fun j => nth j y 0 - nth j x 0)).
  intros p Hp. apply (combine_col P x p OK) in Hp. lia.
Qed.
Lemma negl_entries P vt x i y :
  negligible P vt x i y == qsum (map (negl1 vt x y) (row_entries P x i)).
Proof.
  unfold negligible, row_entries. induction (combine (p_jst P) (p_jv P x)) as [|[[r c] v] L IH]; [reflexivity|].
  cbn [map qsum filter fst snd]. rewrite IH. destruct (Nat.eqb_spec r (i + p_off P)); cbn [andb map qsum].
  - unfold negl1 at 2. cbn [fst snd]. reflexivity.
  - ring.
Qed.
Lemma entries_col P x i c v : nlp_ok P -> In (c, v) (row_entries P x i) -> (c < p_n P)%nat.
Proof.
  intros OK I. apply in_map_iff in I. destruct I as (p & E & I). apply filter_In in I. destruct I as [I _].
  apply (combine_col P x p OK) in I. injection E as <- _. lia.
Qed.
Lemma entries_nodup P x i : nlp_ok P -> NoDup (p_jst P) -> NoDup (map fst (row_entries P x i)).
Proof.
  intros OK ND. unfold row_entries. rewrite map_map. cbn [fst].
  assert (B : forall p, In p (combine (p_jst P) (p_jv P x)) -> (p_off P <= snd (fst p))%nat)
    by (intros p Hp; apply (combine_col P x p OK) in Hp; lia).
  revert B. generalize (p_jv P x) as vs. induction (p_jst P) as [|[r c] st IH]; intros vs B; [constructor|].
  destruct vs as [|v vs]; [constructor|]. inversion ND as [|a l N1 N2 E1]; subst. cbn [combine filter] in *.
  cbn [fst snd]. assert (B' : forall p, In p (combine st vs) -> (p_off P <= snd (fst p))%nat)
    by (intros p Hp; apply B; right; exact Hp).
  destruct (Nat.eqb_spec r (i + p_off P)) as [e|N]; [|apply IH; assumption].
  cbn [map fst snd]. constructor; [|apply IH; assumption].
  intros I. apply in_map_iff in I. destruct I as ([[r' c'] v'] & E & I). apply filter_In in I. destruct I as [I Er].
  cbn [fst snd] in *. apply Nat.eqb_eq in Er. pose proof (B' _ I) as B1. pose proof (B _ (or_introl eq_refl)) as B2.
  cbn [fst snd] in *. assert (c' = c) by lia. subst. apply N1. apply in_combine_l in I. exact I.
Qed.

(** ** Numbering of the nonlinear rows *)
Fixpoint nlrows (o : nat) (lin : list bool) : list nat :=
  match lin with
  | [] => []
  | true :: lin => nlrows (S o) lin
  | false :: lin => o :: nlrows (S o) lin
  end.
Lemma nlrows_shift lin : forall o, nlrows (S o) lin = map S (nlrows o lin).
Proof. induction lin as [|[|] lin IH]; intros o; cbn; [reflexivity|apply IH|]. rewrite <- IH. reflexivity. Qed.
Lemma nlrows_filter lin : nlrows 0 lin = filter (fun i => negb (nth i lin true)) (seq 0 (length lin)).
Proof.
  induction lin as [|b lin IH]; [reflexivity|]. cbn [length seq filter].
  assert (E : filter (fun i => negb (nth i (b :: lin) true)) (seq 1 (length lin)) = nlrows 1 lin).
  { rewrite nlrows_shift, IH, <- seq_shift. generalize (seq 0 (length lin)). intros l.
    induction l as [|a l IHl]; [reflexivity|]. simpl. destruct (nth a lin true); simpl; [exact IHl|]. f_equal. exact IHl. }
  rewrite E. change (nth 0 (b :: lin) true) with b. destruct b; reflexivity.
Qed.
Lemma nlrows_nodup lin : NoDup (nlrows 0 lin).
Proof. rewrite nlrows_filter. apply NoDup_filter, seq_NoDup. Qed.
Lemma row2cut_spec lin : forall k0 j k, nth_error (row2cut k0 lin) j = Some (Some k) <->
  (k0 <= k)%nat /\ nth_error (nlrows 0 lin) (k - k0) = Some j.
Proof.
  induction lin as [|b lin IH]; intros k0 j k.
  - cbn. destruct j; cbn; split; intros H; [discriminate|destruct H as [_ H]; destruct (k - k0)%nat; discriminate|discriminate|].
    destruct H as [_ H]. destruct (k - k0)%nat; discriminate.
  - cbn [row2cut nlrows]. rewrite nlrows_shift. destruct b.
    + destruct j as [|j].
      * cbn. split; [discriminate|]. intros [_ H]. rewrite nth_error_map in H.
        destruct (nth_error (nlrows 0 lin) (k - k0)); discriminate.
      * cbn [nth_error]. rewrite (IH k0 j k), nth_error_map. split; intros [L H]; (split; [exact L|]).
        -- rewrite H. reflexivity.
        -- destruct (nth_error (nlrows 0 lin) (k - k0)); cbn in H; [|discriminate]. congruence.
    + destruct j as [|j].
      * cbn [nth_error]. split.
        -- intros H. injection H as <-. split; [lia|]. rewrite Nat.sub_diag. reflexivity.
        -- intros [L H]. destruct (k - k0)%nat eqn:E; [|cbn in H; rewrite nth_error_map in H;
             destruct (nth_error (nlrows 0 lin) n); discriminate].
           f_equal. f_equal. lia.
      * cbn [nth_error]. rewrite (IH (S k0) j k). split; intros [L H].
        -- split; [lia|]. replace (k - k0)%nat with (S (k - S k0)) by lia. cbn [nth_error].
           rewrite nth_error_map, H. reflexivity.
        -- destruct (k - k0)%nat as [|d] eqn:E; cbn [nth_error] in H; [discriminate|].
           rewrite nth_error_map in H. split; [lia|]. replace (k - S k0)%nat with d by lia.
           destruct (nth_error (nlrows 0 lin) d); cbn in H; [|discriminate]. congruence.
Qed.
Lemma row2cut_length lin : forall k, length (row2cut k lin) = length lin.
Proof. induction lin as [|[|] lin IH]; intros k; cbn; [reflexivity|f_equal; apply IH|f_equal; apply IH]. Qed.
Lemma oa_inits_spec lin : forall gl gu g du, length gl = length lin -> length gu = length lin ->
  length g = length lin -> length du = length lin ->
  oa_inits lin gl gu g du =
  Ok (map (fun i => oa_init (nth i gl MInf) (nth i gu PInf) (nth i g 0) (nth i du 0)) (nlrows 0 lin)).
Proof.
  induction lin as [|b lin IH]; intros gl gu g du L1 L2 L3 L4; [reflexivity|].
  destruct gl as [|rl gl]; [discriminate|]. destruct gu as [|ru gu]; [discriminate|].
  destruct g as [|gi g]; [discriminate|]. destruct du as [|d du]; [discriminate|].
  cbn [oa_inits nlrows]. rewrite IH by (cbn in *; lia). cbn [bind]. rewrite nlrows_shift.
  destruct b; cbn [map nth]; rewrite map_map; reflexivity.
Qed.

(** The run over the triplets of row i is the run over its entries. *)
Definition row_sel (i : nat) (t : nat * nat * Q) : bool := Nat.eqb (fst (fst t)) i.
Lemma sel_entries P x i : nlp_ok P ->
  map (fun t => (snd (fst t), snd t)) (filter (row_sel i) (triplets P x)) = row_entries P x i.
Proof.
  intros OK. unfold triplets, row_entries.
  assert (B : forall p, In p (combine (p_jst P) (p_jv P x)) -> (p_off P <= fst (fst p))%nat)
    by (intros p Hp; apply (combine_col P x p OK) in Hp; lia).
  induction (combine (p_jst P) (p_jv P x)) as [|[[r c] v] L IH]; [reflexivity|].
  assert (IH' := IH (fun p Hp => B p (or_intror Hp))). clear IH.
  pose proof (B _ (or_introl eq_refl)) as B0. cbn [fst snd] in B0.
  cbn [map filter fst snd]. unfold row_sel at 1. cbn [fst snd].
  destruct (Nat.eqb_spec (r - p_off P) i), (Nat.eqb_spec r (i + p_off P)); try lia.
  - cbn [map fst snd]. f_equal. exact IH'.
  - exact IH'.
Qed.
Lemma fold_step_cfs P e x i ts : nlp_ok P -> env_ok P e -> length x = p_n P -> (i < p_m P)%nat ->
  (forall t, In t ts -> fst (fst t) = i /\ (snd (fst t) < p_n P)%nat) -> forall s,
  foldM (oa_step P e x) ts s =
  foldM (cfs (e_tiny e) (e_vtiny e) (glow P i) (gup P i) (e_cl e) (e_cu e) x) (map (fun t => (snd (fst t), snd t)) ts) s.
Proof.
  intros OK EN LX HI. induction ts as [|[[r c] v] ts IH]; intros B s; [reflexivity|].
  cbn [foldM map fst snd]. destruct (B _ (or_introl eq_refl)) as [B1 B2]. cbn [fst snd] in B1, B2. subst r.
  assert (E : oa_step P e x (i, c, v) s = cfs (e_tiny e) (e_vtiny e) (glow P i) (gup P i) (e_cl e) (e_cu e) x (c, v) s).
  { unfold oa_step, cfs. cbn [fst snd].
    rewrite (rd_nth c (e_cl e) MInf) by (rewrite (en_cl _ _ EN); exact B2). cbn [bind].
    rewrite (rd_nth c (e_cu e) PInf) by (rewrite (en_cu _ _ EN); exact B2). cbn [bind].
    rewrite (rd_nth i (p_gl P) MInf) by (rewrite (ok_gl _ OK); exact HI). cbn [bind].
    rewrite (rd_nth i (p_gu P) PInf) by (rewrite (ok_gu _ OK); exact HI). cbn [bind].
    rewrite (rd_nth c x 0) by (rewrite LX; exact B2). cbn [bind]. reflexivity. }
  rewrite E. destruct (cfs _ _ _ _ _ _ _ _ _); cbn [bind]; try reflexivity.
  apply IH. intros t It. apply B. right; exact It.
Qed.
Lemma triplets_range P x t : nlp_ok P -> In t (triplets P x) ->
  (fst (fst t) < p_m P /\ snd (fst t) < p_n P)%nat.
Proof.
  intros OK I. apply in_map_iff in I. destruct I as (p & <- & I). apply (combine_col P x p OK) in I. cbn [fst snd]. lia.
Qed.

(** ** The cuts of the rows *)
Definition row_cut (P : nlp) (e : oaenv) (x : list Q) (i : nat) (s : cutst) : Prop :=
  foldM (cfs (e_tiny e) (e_vtiny e) (glow P i) (gup P i) (e_cl e) (e_cu e) x) (row_entries P x i)
        (oa_init (glow P i) (gup P i) (gi P i x) (nth i (e_duals e) 0)) = Ok s.
Lemma row_cut_total P e x i : nlp_ok P -> NoDup (p_jst P) -> exists s, row_cut P e x i s.
Proof.
  intros OK ND. destruct (fold_total (e_tiny e) (e_vtiny e) (glow P i) (gup P i) (e_cl e) (e_cu e) x (row_entries P x i)
     (oa_init (glow P i) (gup P i) (gi P i x) (nth i (e_duals e) 0))) as (s & E & _).
  - apply entries_nodup; assumption.
  - intros c _ I. unfold oa_init in I. destruct (gtm _ && ltp _)%bool; cbn in I; exact I.
  - exists s. exact E.
Qed.
Lemma hits_sel lin i k : nth_error (nlrows 0 lin) k = Some i -> forall ts : list (nat * nat * Q),
  (forall t, In t ts -> (fst (fst t) < length lin)%nat) ->
  filter (hits (oa_key (row2cut 0 lin)) k) ts = filter (row_sel i) ts.
Proof.
  intros H ts B. apply filter_ext_in. intros [[r c] v] I. specialize (B _ I). cbn [fst snd] in B.
  unfold hits, oa_key, rd, row_sel. cbn [fst snd].
  destruct (nth_error (row2cut 0 lin) r) as [o|] eqn:E.
  - destruct o as [j|].
    + pose proof E as E0. apply row2cut_spec in E. destruct E as [_ E]. rewrite Nat.sub_0_r in E.
      destruct (Nat.eqb_spec j k) as [e|N], (Nat.eqb_spec r i) as [e'|N']; try reflexivity.
      * subst j. rewrite H in E. congruence.
      * subst r. exfalso. apply N. apply (proj1 (NoDup_nth_error (nlrows 0 lin)) (nlrows_nodup lin)).
        -- apply nth_error_Some. congruence.
        -- congruence.
    + destruct (Nat.eqb_spec r i) as [e'|N']; [|reflexivity]. subst r.
      assert (X : nth_error (row2cut 0 lin) i = Some (Some k))
        by (apply row2cut_spec; rewrite Nat.sub_0_r; split; [lia|exact H]).
      congruence.
  - apply nth_error_None in E. rewrite row2cut_length in E. lia.
Qed.
Lemma nlrows_range lin i k : nth_error (nlrows 0 lin) k = Some i -> (i < length lin)%nat.
Proof.
  intros H. apply nth_error_In in H. rewrite nlrows_filter in H. apply filter_In in H. destruct H as [H _].
  apply in_seq in H. lia.
Qed.
Lemma oa_rows_spec P e x : nlp_ok P -> env_ok P e -> length x = p_n P ->
  (forall ss, oa_rows P e x = Ok ss -> Forall2 (row_cut P e x) (nonlinear_rows P) ss) /\
  (NoDup (p_jst P) -> exists ss, oa_rows P e x = Ok ss).
Proof.
  intros OK EN LX. set (lin := p_lin P).
  assert (LL : length lin = p_m P) by apply (ok_lin _ OK).
  assert (NR : nonlinear_rows P = nlrows 0 lin).
  { rewrite nlrows_filter, LL. reflexivity. }
  set (d0 := mkCut [] MInf PInf).
  set (f := fun i => oa_init (nth i (p_gl P) MInf) (nth i (p_gu P) PInf) (nth i (p_g P x) 0) (nth i (e_duals e) 0)).
  assert (IN : oa_inits lin (p_gl P) (p_gu P) (p_g P x) (e_duals e) = Ok (map f (nlrows 0 lin))).
  { apply oa_inits_spec; rewrite LL; [apply (ok_gl _ OK)|apply (ok_gu _ OK)|apply (ok_g _ OK); exact LX|apply (en_du _ _ EN)]. }
  assert (RG : forall t, In t (triplets P x) -> (fst (fst t) < length lin)%nat).
  { intros t It. rewrite LL. apply (triplets_range P x t OK It). }
  assert (RUN : forall k i, nth_error (nlrows 0 lin) k = Some i ->
     foldM (oa_step P e x) (filter (hits (oa_key (row2cut 0 lin)) k) (triplets P x)) (nth k (map f (nlrows 0 lin)) d0) =
     foldM (cfs (e_tiny e) (e_vtiny e) (glow P i) (gup P i) (e_cl e) (e_cu e) x) (row_entries P x i) (f i)).
  { intros k i Hk. rewrite (hits_sel lin i k Hk _ RG). rewrite <- (sel_entries P x i OK).
    rewrite (nth_error_nth (map f (nlrows 0 lin)) k d0 (x := f i)) by (rewrite nth_error_map, Hk; reflexivity).
    apply fold_step_cfs; try assumption.
    - rewrite <- LL. apply (nlrows_range lin i k Hk).
    - intros t It. apply filter_In in It. destruct It as [It S]. apply Nat.eqb_eq in S. split; [exact S|].
      apply (triplets_range P x t OK It). }
  split.
  - intros ss H. unfold oa_rows in H. fold lin in H. rewrite IN in H. cbn [bind] in H.
    destruct (cell_loop_inv _ _ d0 _ _ _ H) as [LEN F]. rewrite map_length in LEN, F. rewrite NR.
    clear H. assert (G : forall l' k, (forall j i, nth_error l' j = Some i -> nth_error (nlrows 0 lin) (k + j) = Some i) ->
        (length l' + k = length (nlrows 0 lin))%nat -> Forall2 (row_cut P e x) l' (skipn k ss)).
    { induction l' as [|i l' IH]; intros k HN HL.
      - cbn in HL. rewrite skipn_all2 by lia. constructor.
      - assert (Hk : (k < length (nlrows 0 lin))%nat) by (cbn in HL; lia).
        pose proof (HN 0%nat i eq_refl) as Hi. rewrite Nat.add_0_r in Hi.
        assert (SK : skipn k ss = nth k ss d0 :: skipn (S k) ss).
        { clear -Hk LEN. revert k Hk. rewrite <- LEN. clear LEN. induction ss as [|a ss IH]; intros k Hk; [cbn in Hk; lia|].
          destruct k; [reflexivity|]. cbn [skipn nth]. apply IH. cbn in Hk; lia. }
        rewrite SK. constructor.
        + unfold row_cut. change (oa_init (glow P i) (gup P i) (gi P i x) (nth i (e_duals e) 0)) with (f i).
          rewrite <- (RUN k i Hi). apply F. exact Hk.
        + apply IH.
          * intros j i' Hj. replace (S k + j)%nat with (k + S j)%nat by lia. apply HN. exact Hj.
          * cbn in HL; lia. }
    apply (G (nlrows 0 lin) 0%nat); [intros; assumption|lia].
  - intros ND. unfold oa_rows. fold lin. rewrite IN. cbn [bind]. apply (cell_loop_total _ _ d0).
    + intros t It. specialize (RG t It). unfold oa_key.
      destruct (nth_error (row2cut 0 lin) (fst (fst t))) as [o|] eqn:E.
      * exists o. unfold rd. rewrite E. split; [reflexivity|]. destruct o as [k|]; [|exact Logic.I].
        apply row2cut_spec in E. destruct E as [_ E]. rewrite Nat.sub_0_r in E. rewrite map_length.
        apply nth_error_Some. congruence.
      * apply nth_error_None in E. rewrite row2cut_length in E. lia.
    + intros k Hk. rewrite map_length in Hk. destruct (nth_error (nlrows 0 lin) k) as [i|] eqn:E.
      * rewrite (RUN k i E). destruct (row_cut_total P e x i OK ND) as (s & R). exists s. exact R.
      * apply nth_error_None in E. lia.
Qed.
