(** Proofs for Inn_Props. *)
From Coq Require Import String Psatz.
From Verif Require Import Base Arr Spa_Model Spa_Spec Spa_Proofs Inn_Model Inn_Spec.
From Verif Require Set_Model.
#[local] Open Scope Q_scope.
#[local] Open Scope list_scope.

Definition zero_on (c : pvec) (x : list Q) : Prop := forall j, In j (map fst c) -> nth j x 0 == 0.

(** The entries that do not move. *)
Lemma chord_still g g2 x x2 : forall es p ub add,
  (forall j v, In (j, v) es -> (j < List.length x)%nat /\ (j < List.length x2)%nat /\ Qabs (nth j x 0 - nth j x2 0) < same_tol) ->
  NoDup (map fst p ++ map fst es) -> chord_entries g g2 x x2 es (p, ub, add) = Ok (p ++ es, ub, add).
Proof.
  induction es as [|[j v] es IH]; intros p ub add H N. now rewrite app_nil_r.
  cbn [chord_entries]. destruct (H j v (or_introl eq_refl)) as [L1 [L2 D]].
  rewrite (rd_nth j x 0 L1), (rd_nth j x2 0 L2). cbn [bind]. apply Qleb_gt in D. rewrite D.
  rewrite pv_insert_fresh. 2:{ intros K. cbn in N. apply NoDup_remove_2 in N. apply N. apply in_or_app; auto. }
  cbn [bind]. rewrite IH.
  - now rewrite <- app_assoc.
  - intros; apply (H j0 v0); now right.
  - rewrite map_app. cbn. rewrite <- app_assoc. exact N.
Qed.
Lemma chord_app g g2 x x2 : forall es es' st st', chord_entries g g2 x x2 es st = Ok st' ->
  chord_entries g g2 x x2 (es ++ es') st = chord_entries g g2 x x2 es' st'.
Proof.
  induction es as [|[j v] es IH]; intros es' [[p ub] add] st' H. cbn in H. injection H as <-. reflexivity.
  cbn [chord_entries app] in *. apply bind_ok in H. destruct H as [xj [E1 H]]. apply bind_ok in H. destruct H as [yj [E2 H]]. rewrite E1, E2. cbn [bind].
  destruct (Qle_bool same_tol (Qabs (xj - yj))); apply bind_ok in H; destruct H as [q [E3 H]]; rewrite E3; cbn [bind]; apply IH; exact H.
Qed.

Lemma nodup_left {A} (l l' : list A) : NoDup (l ++ l') -> NoDup l.
Proof.
  induction l as [|a l IH]; cbn; intros H. constructor. inversion H as [|? ? N K]; subst. constructor; auto. intros I. apply N. apply in_or_app; auto.
Qed.
(** The chord of a univariate row. *)
Definition chord_ub (g a xa : Q) : Q := (a * xa - g) - Qabs (a * xa - g) * ub_rel.
Lemma chord_uni_gen lin r a f c x x2 : univariate lin r a f c -> List.length x = List.length lin -> List.length x2 = List.length lin ->
  (forall j, nth j lin false = true -> nth j x 0 == 0 /\ nth j x2 0 == 0) ->
  exists l l', c = l ++ l' /\
  if Qle_bool same_tol (Qabs (nth a x 0 - nth a x2 0)) then
    let s := (r_g r x - r_g r x2) / (nth a x 0 - nth a x2 0) in
    chord_entries (r_g r x) (r_g r x2) x x2 (r_j r x2) ([], 0, false) = Ok (l ++ (a, s) :: l', chord_ub (r_g r x) s (nth a x 0), true)
  else exists d, chord_entries (r_g r x) (r_g r x2) x x2 (r_j r x2) ([], 0, false) = Ok (l ++ (a, d) :: l', 0, false).
Proof.
  intros [LA [NA [ND [LC [FP [G J]]]]]] L1 L2 Z. destruct (J x2) as [l [d [l' [EJ EC]]]]. exists l, l'. split. exact EC. rewrite EJ.
  assert (ST : forall j v, In (j, v) c -> (j < List.length x)%nat /\ (j < List.length x2)%nat /\ Qabs (nth j x 0 - nth j x2 0) < same_tol).
  { intros j v I. destruct (LC j v I) as [B T]. rewrite L1, L2. repeat split; auto. destruct (Z j T) as [-> ->]. reflexivity. }
  assert (S1 : forall j v, In (j, v) l -> (j < List.length x)%nat /\ (j < List.length x2)%nat /\ Qabs (nth j x 0 - nth j x2 0) < same_tol)
    by (intros j v I; apply (ST j v); subst c; apply in_or_app; auto).
  assert (S2 : forall j v, In (j, v) l' -> (j < List.length x)%nat /\ (j < List.length x2)%nat /\ Qabs (nth j x 0 - nth j x2 0) < same_tol)
    by (intros j v I; apply (ST j v); subst c; apply in_or_app; auto).
  subst c. rewrite map_app in ND. inversion ND as [|? ? NI ND']; subst.
  assert (N1 : NoDup (map fst l ++ a :: map fst l')) by (apply NoDup_Add with (l := map fst l ++ map fst l') (a := a); [apply Add_app | auto]).
  rewrite (chord_app _ _ _ _ l _ ([], 0, false) (l, 0, false)).
  2:{ rewrite chord_still. reflexivity. exact S1. cbn. exact (nodup_left _ _ ND'). }
  cbn [chord_entries]. rewrite (rd_nth a x 0) by lia. rewrite (rd_nth a x2 0) by lia. cbn [bind].
  assert (NIl : ~ In a (map fst l)) by (intros K; apply NI; apply in_or_app; auto).
  destruct (Qle_bool same_tol (Qabs (nth a x 0 - nth a x2 0))) eqn:E.
  - cbn [bind]. rewrite pv_insert_fresh by exact NIl. cbn [bind]. rewrite chord_still. rewrite <- app_assoc. reflexivity. exact S2. rewrite map_app, <- app_assoc. exact N1.
  - exists d. rewrite pv_insert_fresh by exact NIl. cbn [bind]. rewrite chord_still. rewrite <- app_assoc. reflexivity. exact S2. rewrite map_app, <- app_assoc. exact N1.
Qed.
Definition flat (lin : list bool) (x : list Q) : Prop := List.length x = List.length lin /\ forall j, nth j lin false = true -> nth j x 0 == 0.
Lemma lhs_flat lin r a f c x : univariate lin r a f c -> flat lin x -> lhs c x == 0.
Proof.
  intros [_ [_ [_ [LC _]]]] [_ F]. apply lhs_zero. intros j I. apply in_map_iff in I. destruct I as [[k v] [E I]]. cbn in E; subst k. apply F. apply (LC j v I).
Qed.
Definition switched_on (r : row) (y : list Q) : Prop := match r_id r with Some (S z) => nth (S z) y 0 == 1 | _ => True end.
Lemma chord_none lin r a f c x x2 : univariate lin r a f c -> flat lin x -> flat lin x2 -> Qabs (nth a x 0 - nth a x2 0) < same_tol -> chord r x x2 = Ok None.
Proof.
  intros U [L1 F1] [L2 F2] D. destruct (chord_uni_gen lin r a f c x x2 U L1 L2) as [l [l' [EC H]]]. { intros j T. split; auto. }
  apply Qleb_gt in D. rewrite D in H. destruct H as [d H]. unfold chord. rewrite H. reflexivity.
Qed.
Lemma chord_some lin r a f c x x2 : univariate lin r a f c -> r_id r = None -> flat lin x -> flat lin x2 -> same_tol <= Qabs (nth a x 0 - nth a x2 0) ->
  exists d, chord r x x2 = Ok (Some d).
Proof.
  intros U ID [L1 F1] [L2 F2] D. destruct (chord_uni_gen lin r a f c x x2 U L1 L2) as [l [l' [EC H]]]. { intros j T. split; auto. }
  apply Qle_bool_iff in D. rewrite D in H. cbv zeta in H. unfold chord. rewrite H. cbn [bind]. rewrite ID. eauto.
Qed.
Lemma ub_below g a xa : chord_ub g a xa <= a * xa - g.
Proof. unfold chord_ub. pose proof (Qabs_nonneg (a * xa - g)). set (q := Qabs _) in *. unfold ub_rel. clearbody q. lra. Qed.
Lemma chord_sound lin r a f c x x2 d y : univariate lin r a f c -> convex1 f -> flat lin x -> flat lin x2 -> switched_on r y ->
  nth a x 0 <= nth a y 0 -> nth a y 0 <= nth a x2 0 -> chord r x x2 = Ok (Some d) -> holds d y -> r_g r y <= 0.
Proof.
  intros U CV F1 F2 SW LE GE H HD.
  destruct (Qlt_le_dec (Qabs (nth a x 0 - nth a x2 0)) same_tol) as [T | T].
  { rewrite (chord_none lin r a f c x x2 U F1 F2 T) in H. discriminate. }
  pose proof (lhs_flat _ _ _ _ _ _ U F1) as Z1. pose proof (lhs_flat _ _ _ _ _ _ U F2) as Z2.
  destruct F1 as [L1 F1], F2 as [L2 F2].
  destruct (chord_uni_gen lin r a f c x x2 U L1 L2) as [l [l' [EC H']]]. { intros j I. split; auto. }
  apply Qle_bool_iff in T. rewrite T in H'. cbv zeta in H'. unfold chord in H. rewrite H' in H. cbn [bind] in H.
  set (s := (r_g r x - r_g r x2) / (nth a x 0 - nth a x2 0)) in *. pose proof (ub_below (r_g r x) s (nth a x 0)) as UB. set (ub := chord_ub _ _ _) in *.
  assert (CUT : lhs (l ++ (a, s) :: l') y <= ub).
  { unfold switched_on in SW. destruct (r_id r) as [[|z]|].
    - injection H as <-. destruct HD as [_ HD]. exact HD.
    - apply bind_ok in H. destruct H as [p [E H]]. apply pv_insert_ok in E. subst p. injection H as <-. destruct HD as [_ HD]. cbn [c_up c_row up_ok] in HD.
      rewrite lhs_app, lhs_one, SW in HD. lra.
    - injection H as <-. destruct HD as [_ HD]. exact HD. }
  rewrite lhs_app, lhs_cons in CUT. assert (LC : lhs c y == lhs l y + lhs l' y) by (rewrite EC; apply lhs_app).
  destruct U as [LA [NA [ND [LCC [FP [G J]]]]]].
  assert (DX : nth a x 0 < nth a x2 0).
  { apply Qle_bool_iff in T. destruct (Qlt_le_dec (nth a x 0) (nth a x2 0)) as [K | K]; [exact K|].
    assert (K2 : nth a x 0 - nth a x2 0 == 0) by lra. rewrite K2 in T. exfalso. revert T. vm_compute. intros T; apply T; reflexivity. }
  pose proof (CV _ _ _ LE GE) as C. rewrite G. pose proof (G x) as GX. pose proof (G x2) as GX2. rewrite Z1 in GX. rewrite Z2 in GX2.
  assert (SE : s * (nth a x2 0 - nth a x 0) == f (nth a x2 0) - f (nth a x 0)).
  { subst s. rewrite GX, GX2. field. intros K. lra. }
  clearbody s ub. rewrite LC. set (X := nth a x 0) in *. set (Y := nth a y 0) in *. set (X2 := nth a x2 0) in *. set (g := r_g r x) in *.
  assert (FY : f Y <= f X + s * (Y - X)).
  { apply Qmult_le_r with (z := X2 - X); [lra|]. setoid_replace ((f X + s * (Y - X)) * (X2 - X)) with (f X * (X2 - X) + (Y - X) * (s * (X2 - X))) by ring. rewrite SE. nra. }
  nra.
Qed.

(** The points. *)
Lemma nth_zero_lin lin v i : List.length v = List.length lin -> (i < List.length lin)%nat -> nth i (zero_lin lin v) 0 = if nth i lin false then 0 else nth i v 0.
Proof.
  intros L I. unfold zero_lin. rewrite (nth_indep _ 0 ((fun p => if fst p : bool then 0 else snd p) (false, 0))) by (rewrite map_length, combine_length; lia).
  rewrite (map_nth (fun p => if fst p : bool then 0 else snd p) (combine lin v) (false, 0)). rewrite combine_nth by auto. reflexivity.
Qed.
Lemma len_zero_lin lin v : List.length v = List.length lin -> List.length (zero_lin lin v) = List.length lin.
Proof. intros L. unfold zero_lin. rewrite map_length, combine_length. lia. Qed.
Lemma len_steps nb lo up : List.length up = List.length lo -> List.length (steps nb lo up) = List.length lo.
Proof. intros L. unfold steps. rewrite map_length, combine_length. lia. Qed.
Lemma nth_steps nb lo up i : List.length up = List.length lo -> (i < List.length lo)%nat -> nth i (steps nb lo up) 0 = (nth i up 0 - nth i lo 0) / inject_Z (Z.of_nat nb).
Proof.
  intros L I. unfold steps. set (F := fun p : Q * Q => (snd p - fst p) / inject_Z (Z.of_nat nb)).
  rewrite (nth_indep _ 0 (F (0, 0))) by (rewrite map_length, combine_length; lia). rewrite (map_nth F (combine lo up) (0, 0)), combine_nth by auto. reflexivity.
Qed.
Section Points.
Variable lin : list bool.
Variable cl cu : list ext.
Variable nb : nat.
Hypothesis SZ : sizes lin cl cu.
Definition LO := lows lin cl.
Definition UP := highs lin cu.
Definition pt := shift LO (steps nb LO UP).
Lemma len_LO : List.length LO = List.length lin.
Proof. destruct SZ as [A B]. apply len_zero_lin. rewrite map_length. lia. Qed.
Lemma len_UP : List.length UP = List.length lin.
Proof. destruct SZ as [A B]. apply len_zero_lin. rewrite map_length. lia. Qed.
Lemma len_pt k : List.length (pt k) = List.length lin.
Proof. unfold pt, shift. rewrite map_length, combine_length, len_steps, len_LO by (rewrite len_LO, len_UP; reflexivity). lia. Qed.
Lemma nth_pt k i : (i < List.length lin)%nat -> nth i (pt k) 0 = nth i LO 0 + inject_Z (Z.of_nat k) * ((nth i UP 0 - nth i LO 0) / inject_Z (Z.of_nat nb)).
Proof.
  intros I. assert (LL : List.length UP = List.length LO) by (rewrite len_LO, len_UP; reflexivity). assert (IL : (i < List.length LO)%nat) by (rewrite len_LO; exact I).
  unfold pt. rewrite nth_shift by (rewrite ?len_steps by exact LL; auto). rewrite nth_steps by auto. reflexivity.
Qed.
Lemma out_of lin' j : nth j lin' false = true -> (j < List.length lin')%nat.
Proof. intros H. destruct (Nat.lt_ge_cases j (List.length lin')) as [L|L]; [exact L|]. rewrite nth_overflow in H by exact L. discriminate. Qed.
Lemma LO_lin j : nth j lin false = true -> nth j LO 0 = 0.
Proof. intros H. destruct SZ as [A B]. unfold LO, lows. rewrite nth_zero_lin; [now rewrite H | rewrite map_length; lia | now apply out_of]. Qed.
Lemma UP_lin j : nth j lin false = true -> nth j UP 0 = 0.
Proof. intros H. destruct SZ as [A B]. unfold UP, highs. rewrite nth_zero_lin; [now rewrite H | rewrite map_length; lia | now apply out_of]. Qed.
Lemma flat_pt k : flat lin (pt k).
Proof. split. apply len_pt. intros j H. rewrite nth_pt by (now apply out_of). rewrite LO_lin, UP_lin by exact H. unfold Qdiv. ring. Qed.
Lemma flat_UP : flat lin UP.
Proof. split. apply len_UP. intros j H. rewrite UP_lin by exact H. reflexivity. Qed.
Lemma LO_nl a : (a < List.length lin)%nat -> nth a lin false = false -> nth a LO 0 = clip_low (nth a cl MInf).
Proof.
  intros L H. destruct SZ as [A B]. unfold LO, lows. rewrite nth_zero_lin, H by (rewrite ?map_length; lia).
  rewrite (nth_indep _ 0 (clip_low MInf)) by (rewrite map_length; lia). apply map_nth.
Qed.
Lemma UP_nl a : (a < List.length lin)%nat -> nth a lin false = false -> nth a UP 0 = clip_high (nth a cu PInf).
Proof.
  intros L H. destruct SZ as [A B]. unfold UP, highs. rewrite nth_zero_lin, H by (rewrite ?map_length; lia).
  rewrite (nth_indep _ 0 (clip_high PInf)) by (rewrite map_length; lia). apply map_nth.
Qed.
End Points.

Lemma clip_low_spec l : l <> PInf -> clip_low l = lowest l.
Proof. destruct l as [|l|]; cbn; try congruence; auto. intros _. destruct (Qlt_le_dec l (-1000)) as [H|H]; [apply Qltb_lt in H | apply Qltb_ge in H]; rewrite H; reflexivity. Qed.
Lemma clip_high_spec u : u <> MInf -> clip_high u = highest u.
Proof. destruct u as [|u|]; cbn; try congruence; auto. intros _. destruct (Qlt_le_dec 100 u) as [H|H]; [apply Qltb_lt in H | apply Qltb_ge in H]; rewrite H; reflexivity. Qed.

(** Where a value lies between the points. *)
Lemma interval n lo st y : (1 <= n)%nat -> lo <= y -> y <= lo + inject_Z (Z.of_nat n) * st ->
  exists k, (k < n)%nat /\ lo + inject_Z (Z.of_nat k) * st <= y /\ y <= lo + inject_Z (Z.of_nat (S k)) * st.
Proof.
  induction n as [|n IH]; intros N L U. lia.
  destruct (Qlt_le_dec y (lo + inject_Z (Z.of_nat n) * st)) as [K | K].
  - destruct n as [|n].
    + change (inject_Z (Z.of_nat 0)) with 0 in K. lra.
    + destruct IH as [k [A [B C]]]; [lia | exact L | lra |]. exists k. repeat split; auto.
  - exists n. repeat split; auto.
Qed.

(** Which chords there are. *)
Lemma chords_in strict rows x x2 r : forall cs, chords strict rows x x2 = Ok cs -> In r rows -> r_linear r = false ->
  exists o, chord r x x2 = Ok o /\ match o with Some d => In d cs | None => strict = false end.
Proof.
  induction rows as [|q rows IH]; intros cs H I N. destruct I. cbn [chords] in H. destruct (r_linear q) eqn:LQ.
  - destruct I as [-> | I]; [congruence|]. apply IH; auto.
  - apply bind_ok in H. destruct H as [o [E H]]. destruct o as [d|].
    + apply bind_ok in H. destruct H as [ds [E2 H]]. injection H as <-. destruct I as [-> | I].
      * exists (Some d). split; [exact E | now left].
      * destruct (IH ds E2 I N) as [o [A B]]. exists o. split; [exact A|]. destruct o; [now right | exact B].
    + destruct strict; [discriminate|]. destruct I as [-> | I]. exists None; auto. apply IH; auto.
Qed.
Lemma chain_in rows pt : forall todo k cs, chain rows pt todo k = Ok cs -> forall i, (k <= i < k + todo)%nat ->
  exists ds, chords true rows (pt i) (pt (S i)) = Ok ds /\ incl ds cs.
Proof.
  induction todo as [|todo IH]; intros k cs H i I. lia. cbn [chain] in H. apply bind_ok in H. destruct H as [ds [E H]]. apply bind_ok in H. destruct H as [es [E2 H]]. injection H as <-.
  destruct (Nat.eq_dec i k) as [-> | NE].
  - exists ds. split; [exact E | apply incl_appl, incl_refl].
  - destruct (IH (S k) es E2 i) as [fs [A B]]; [lia|]. exists fs. split; [exact A | apply incl_appr, B].
Qed.

Lemma inner_sound nb lin cl cu rows cs r a f c y : (1 <= nb)%nat -> sizes lin cl cu ->
  In r rows -> r_linear r = false -> switched_on r y -> univariate lin r a f c -> convex1 f -> in_box cl cu y ->
  -1000 <= nth a y 0 <= 100 -> (2 <= nb)%nat \/ same_tol <= width cl cu a ->
  inner_cuts nb lin cl cu rows = Ok cs -> (forall d, In d cs -> holds d y) -> r_g r y <= 0.
Proof.
  intros NB SZ IR LR SW U CV BX RG TWO H HD. pose proof U as [LA [NA _]]. pose proof SZ as [Z1 Z2].
  destruct (BX a) as [BL BU]; [lia|].
  assert (L : nth a (LO lin cl) 0 <= nth a y 0).
  { rewrite (LO_nl lin cl cu SZ) by assumption. destruct (nth a cl MInf) as [|l|]; cbn in *; try tauto. destruct (Qltb l (-1000)); tauto. }
  assert (R : nth a y 0 <= nth a (UP lin cu) 0).
  { rewrite (UP_nl lin cl cu SZ) by assumption. destruct (nth a cu PInf) as [|u|]; cbn in *; try tauto. destruct (Qltb 100 u); tauto. }
  assert (NZ : ~ inject_Z (Z.of_nat nb) == 0) by (change 0 with (inject_Z 0); rewrite inject_Z_injective; lia).
  assert (TOP : nth a (UP lin cu) 0 == nth a (LO lin cl) 0 + inject_Z (Z.of_nat nb) * ((nth a (UP lin cu) 0 - nth a (LO lin cl) 0) / inject_Z (Z.of_nat nb))) by (field; exact NZ).
  destruct (interval nb (nth a (LO lin cl) 0) ((nth a (UP lin cu) 0 - nth a (LO lin cl) 0) / inject_Z (Z.of_nat nb)) (nth a y 0) NB L) as [k [KN [KL KU]]]; [lra|].
  unfold inner_cuts in H. fold (LO lin cl) in H. fold (UP lin cu) in H. fold (pt lin cl cu nb) in H.
  apply bind_ok in H. destruct H as [cs1 [E1 H]]. apply bind_ok in H. destruct H as [cs2 [E2 H]]. injection H as <-.
  destruct (Nat.lt_ge_cases k (nb - 1)) as [K | K].
  - destruct (chain_in _ _ _ _ _ E1 k) as [ds [A B]]; [lia|]. destruct (chords_in _ _ _ _ _ _ A IR LR) as [o [C D]]. destruct o as [d|]; [|discriminate].
    apply (chord_sound lin r a f c (pt lin cl cu nb k) (pt lin cl cu nb (S k)) d y); auto using flat_pt.
    + rewrite nth_pt by assumption. exact KL.
    + rewrite nth_pt by assumption. exact KU.
    + apply HD. apply in_or_app. left. apply B, D.
  - assert (k = (nb - 1)%nat) by lia. subst k. destruct (chords_in _ _ _ _ _ _ E2 IR LR) as [o [C D]].
    destruct o as [d|].
    + apply (chord_sound lin r a f c (pt lin cl cu nb (nb - 1)) (UP lin cu) d y); auto using flat_pt.
      * eapply flat_UP; eauto.
      * rewrite nth_pt by assumption. exact KL.
      * apply HD. apply in_or_app. right. exact D.
    + exfalso.
      assert (T : same_tol <= Qabs (nth a (pt lin cl cu nb (nb - 1)) 0 - nth a (UP lin cu) 0)).
      { destruct (le_lt_dec 2 nb) as [N2 | N2].
        - destruct (chain_in _ _ _ _ _ E1 0%nat) as [ds [A B]]; [lia|]. destruct (chords_in _ _ _ _ _ _ A IR LR) as [o [C' D']]. destruct o as [d|]; [|discriminate].
          assert (W : Qabs (nth a (pt lin cl cu nb (nb - 1)) 0 - nth a (UP lin cu) 0) == Qabs (nth a (pt lin cl cu nb 0) 0 - nth a (pt lin cl cu nb 1) 0)).
          { rewrite !nth_pt by assumption. set (st := (nth a (UP lin cu) 0 - nth a (LO lin cl) 0) / inject_Z (Z.of_nat nb)) in *. rewrite TOP. apply Qabs_wd.
            replace (Z.of_nat nb) with (Z.of_nat (nb - 1) + 1)%Z by lia. rewrite inject_Z_plus.
            change (inject_Z (Z.of_nat 0)) with 0. change (inject_Z (Z.of_nat 1)) with 1. change (inject_Z 1) with 1. ring. }
          rewrite W. destruct (Qlt_le_dec (Qabs (nth a (pt lin cl cu nb 0) 0 - nth a (pt lin cl cu nb 1) 0)) same_tol) as [T | T]; [|exact T].
          rewrite (chord_none lin r a f c _ _ U) in C'; auto using flat_pt. discriminate.
        - assert (nb = 1%nat) by lia. subst nb. destruct TWO as [TWO | TWO]; [lia|]. rewrite nth_pt by assumption. cbn [Nat.sub]. change (inject_Z (Z.of_nat 0)) with 0.
          setoid_replace (nth a (LO lin cl) 0 + 0 * ((nth a (UP lin cu) 0 - nth a (LO lin cl) 0) / inject_Z (Z.of_nat 1)) - nth a (UP lin cu) 0) with (- (nth a (UP lin cu) 0 - nth a (LO lin cl) 0)) by (unfold Qdiv; ring).
          rewrite Qabs_opp. eapply Qle_trans; [|apply Qle_Qabs]. unfold width in TWO. rewrite (LO_nl lin cl cu SZ), (UP_nl lin cl cu SZ) by assumption.
          rewrite clip_low_spec, clip_high_spec; [exact TWO | |]; intros X; rewrite X in *; cbn in *; tauto. }
      destruct (chord_uni_gen lin r a f c (pt lin cl cu nb (nb - 1)) (UP lin cu) U) as [l [l' [_ X]]].
      { apply len_pt; assumption. } { eapply len_UP; eauto. } { intros j J. split. apply (proj2 (flat_pt lin cl cu nb SZ (nb - 1)) j J). apply (proj2 (flat_UP lin cl cu SZ) j J). }
      apply Qle_bool_iff in T. rewrite T in X. cbv zeta in X. unfold chord in C. rewrite X in C. cbn [bind] in C. destruct (r_id r) as [[|z]|]; try discriminate.
      apply bind_ok in C. destruct C as [? [_ C]]. discriminate.
Qed.

(** ** No early end *)
Definition nonlinear (rows : list row) : list row := filter (fun r => negb (r_linear r)) rows.
Lemma chords_ok strict x x2 : forall rows, (forall r, In r rows -> r_linear r = false -> exists d, chord r x x2 = Ok (Some d)) ->
  exists cs, chords strict rows x x2 = Ok cs /\ List.length cs = List.length (nonlinear rows).
Proof.
  induction rows as [|r rows IH]; intros H. exists []; auto.
  destruct IH as [cs [E L]]. { intros; apply H; auto. now right. } unfold nonlinear in *. cbn [chords filter]. destruct (r_linear r) eqn:LR; cbn [negb].
  - eauto.
  - destruct (H r (or_introl eq_refl) LR) as [d D]. rewrite D, E. cbn [bind]. eexists; split; [reflexivity|]. cbn. now rewrite L.
Qed.
Lemma chain_ok rows pt : forall todo k, (forall i r, (k <= i < k + todo)%nat -> In r rows -> r_linear r = false -> exists d, chord r (pt i) (pt (S i)) = Ok (Some d)) ->
  exists cs, chain rows pt todo k = Ok cs /\ List.length cs = (todo * List.length (nonlinear rows))%nat.
Proof.
  induction todo as [|todo IH]; intros k H. exists []; auto.
  destruct (chords_ok true (pt k) (pt (S k)) rows) as [cs [E L]]. { intros r. apply H. lia. }
  destruct (IH (S k)) as [ds [E2 L2]]. { intros i r I. apply H. lia. }
  cbn [chain]. rewrite E, E2. cbn [bind]. eexists; split; [reflexivity|]. rewrite app_length, L, L2. reflexivity.
Qed.
Lemma chords_exit x x2 : forall rows, (forall r, In r rows -> r_linear r = false -> exists o, chord r x x2 = Ok o) ->
  (exists r, In r rows /\ r_linear r = false /\ chord r x x2 = Ok None) -> chords true rows x x2 = Thrown.
Proof.
  induction rows as [|q rows IH]; intros H [r [I [L N]]]. destruct I.
  cbn [chords]. destruct (r_linear q) eqn:LQ.
  - destruct I as [-> | I]; [congruence|]. apply IH. { intros; apply H; auto. now right. } eauto.
  - destruct (H q (or_introl eq_refl) LQ) as [o E]. rewrite E. cbn [bind]. destruct o as [d|]; [|reflexivity].
    destruct I as [-> | I]; [congruence|]. rewrite IH; [reflexivity | | eauto]. intros; apply H; auto. now right.
Qed.

Lemma gap nb lin cl cu k a : sizes lin cl cu -> (a < List.length lin)%nat ->
  Qabs (nth a (pt lin cl cu nb k) 0 - nth a (pt lin cl cu nb (S k)) 0) == Qabs ((nth a (UP lin cu) 0 - nth a (LO lin cl) 0) / inject_Z (Z.of_nat nb)).
Proof.
  intros SZ L. rewrite !nth_pt by assumption. rewrite <- Qabs_opp. apply Qabs_wd. rewrite Nat2Z.inj_succ. unfold Z.succ. rewrite inject_Z_plus. change (inject_Z 1) with 1. ring.
Qed.
Lemma gap_last nb lin cl cu a : (1 <= nb)%nat -> sizes lin cl cu -> (a < List.length lin)%nat ->
  Qabs (nth a (pt lin cl cu nb (nb - 1)) 0 - nth a (UP lin cu) 0) == Qabs ((nth a (UP lin cu) 0 - nth a (LO lin cl) 0) / inject_Z (Z.of_nat nb)).
Proof.
  intros NB SZ L. rewrite nth_pt by assumption. rewrite <- Qabs_opp. apply Qabs_wd.
  assert (NZ : ~ inject_Z (Z.of_nat nb) == 0) by (change 0 with (inject_Z 0); rewrite inject_Z_injective; lia).
  assert (E : inject_Z (Z.of_nat (nb - 1)) == inject_Z (Z.of_nat nb) - 1) by (replace (Z.of_nat (nb - 1)) with (Z.of_nat nb + -1)%Z by lia; rewrite inject_Z_plus; change (inject_Z (-1)) with (-1 # 1); ring).
  rewrite E. field. exact NZ.
Qed.
Lemma width_eq lin cl cu a y : sizes lin cl cu -> (a < List.length lin)%nat -> nth a lin false = false -> in_box cl cu y ->
  nth a (UP lin cu) 0 - nth a (LO lin cl) 0 = width cl cu a.
Proof.
  intros SZ L N B. rewrite (LO_nl lin cl cu SZ), (UP_nl lin cl cu SZ) by assumption. destruct SZ as [A _]. destruct (B a) as [BL BU]; [lia|]. unfold width.
  rewrite clip_low_spec, clip_high_spec; [reflexivity | |]; intros X; rewrite X in *; cbn in *; tauto.
Qed.
Lemma nb_pos nb : (1 <= nb)%nat -> 0 < inject_Z (Z.of_nat nb).
Proof. intros H. change 0 with (inject_Z 0). rewrite <- Zlt_Qlt. lia. Qed.

Lemma inner_runs nb lin cl cu rows y : (1 <= nb)%nat -> sizes lin cl cu -> in_box cl cu y ->
  (forall r, In r rows -> r_linear r = false -> r_id r = None /\ exists a f c, univariate lin r a f c /\ inject_Z (Z.of_nat nb) * same_tol <= width cl cu a) ->
  exists cs, inner_cuts nb lin cl cu rows = Ok cs /\ List.length cs = (nb * List.length (nonlinear rows))%nat.
Proof.
  intros NB SZ B H. pose proof (nb_pos nb NB) as NP.
  assert (ST : forall a f c r, univariate lin r a f c -> inject_Z (Z.of_nat nb) * same_tol <= width cl cu a ->
     same_tol <= Qabs ((nth a (UP lin cu) 0 - nth a (LO lin cl) 0) / inject_Z (Z.of_nat nb))).
  { intros a f c r [LA [NA _]] W. rewrite (width_eq lin cl cu a y) by assumption. eapply Qle_trans; [|apply Qle_Qabs]. apply Qle_shift_div_l; [exact NP|]. rewrite Qmult_comm. exact W. }
  unfold inner_cuts. fold (LO lin cl). fold (UP lin cu). fold (pt lin cl cu nb).
  destruct (chain_ok rows (pt lin cl cu nb) (nb - 1) 0) as [cs [E L]].
  { intros i r _ I LR. destruct (H r I LR) as [ID [a [f [c [U W]]]]]. pose proof U as [LA _].
    apply (chord_some lin r a f c); auto using flat_pt. rewrite gap by assumption. eapply ST; eauto. }
  destruct (chords_ok false (pt lin cl cu nb (nb - 1)) (UP lin cu) rows) as [ds [E2 L2]].
  { intros r I LR. destruct (H r I LR) as [ID [a [f [c [U W]]]]]. pose proof U as [LA _].
    apply (chord_some lin r a f c); auto using flat_pt. eapply flat_UP; eauto. rewrite gap_last by assumption. eapply ST; eauto. }
  rewrite E, E2. cbn [bind]. eexists; split; [reflexivity|]. rewrite app_length, L, L2. destruct nb as [|n]; [lia|]. replace (S n - 1)%nat with n by lia. lia.
Qed.
Lemma inner_exits nb lin cl cu rows y r a f c : (2 <= nb)%nat -> sizes lin cl cu -> in_box cl cu y -> all_univariate lin rows ->
  In r rows -> r_linear r = false -> univariate lin r a f c -> Qabs (width cl cu a) < inject_Z (Z.of_nat nb) * same_tol -> inner_cuts nb lin cl cu rows = Thrown.
Proof.
  intros NB SZ B AU I LR U W. assert (NB1 : (1 <= nb)%nat) by lia. pose proof (nb_pos nb NB1) as NP.
  unfold inner_cuts. fold (LO lin cl). fold (UP lin cu). fold (pt lin cl cu nb).
  assert (E : chords true rows (pt lin cl cu nb 0) (pt lin cl cu nb 1) = Thrown).
  { apply chords_exit.
    - intros q IQ LQ. destruct (AU q IQ LQ) as [ID [b [h [e UQ]]]].
      destruct (Qlt_le_dec (Qabs (nth b (pt lin cl cu nb 0) 0 - nth b (pt lin cl cu nb 1) 0)) same_tol) as [T | T].
      + exists None. apply (chord_none lin q b h e); auto using flat_pt.
      + destruct (chord_some lin q b h e (pt lin cl cu nb 0) (pt lin cl cu nb 1)) as [d D]; auto using flat_pt. eauto.
    - exists r. repeat split; auto. pose proof U as [LA [NA _]]. apply (chord_none lin r a f c); auto using flat_pt. rewrite gap by assumption.
      rewrite (width_eq lin cl cu a y) by assumption. unfold Qdiv. rewrite Qabs_Qmult. rewrite (Qabs_pos (/ _)) by (apply Qinv_le_0_compat; lra).
      apply Qlt_shift_div_r; [exact NP|]. rewrite Qmult_comm. exact W. }
  destruct (nb - 1)%nat as [|m] eqn:N; [lia|]. cbn [chain]. rewrite E. reflexivity.
Qed.

(** ** Linked chords *)
Lemma chord_cols g g2 x x2 : forall es p ub add p' ub' add', chord_entries g g2 x x2 es (p, ub, add) = Ok (p', ub', add') -> map fst p' = map fst p ++ map fst es.
Proof.
  induction es as [|[j v] es IH]; intros p ub add p' ub' add' H.
  - cbn in H. injection H as <- <- <-. now rewrite app_nil_r.
  - cbn [chord_entries] in H. apply bind_ok in H. destruct H as [xj [E1 H]]. apply bind_ok in H. destruct H as [yj [E2 H]].
    destruct (Qle_bool same_tol (Qabs (xj - yj))); apply bind_ok in H; destruct H as [q [E3 H]]; apply pv_insert_ok in E3; subst q; apply IH in H; rewrite H, map_app, <- app_assoc; reflexivity.
Qed.
Lemma off_kept r x x2 c y z : r_id r = Some (S z) -> nth (S z) y 0 == 0 -> (forall j, In j (map fst (r_j r x2)) -> nth j y 0 == 0) ->
  chord r x x2 = Ok (Some c) -> holds c y.
Proof.
  intros ID Z0 ZR H. unfold chord in H. apply bind_ok in H. destruct H as [[[p ub] add] [E H]]. rewrite ID in H. destruct add; [|discriminate].
  apply bind_ok in H. destruct H as [q [E2 H]]. apply pv_insert_ok in E2. subst q. injection H as <-. apply chord_cols in E. cbn in E.
  split; cbn [c_lo c_up c_row lo_ok up_ok]; [exact Logic.I|]. rewrite lhs_app, lhs_one, Z0. rewrite lhs_zero. lra. intros j I. rewrite E in I. auto.
Qed.

(** ** The guess *)
Lemma fold_guess (F : pc -> Q) : forall ps obj, fold_left (fun s p => s + F p) ps obj == obj + qsum (map F ps).
Proof. induction ps as [|p ps IH]; intros obj; cbn. ring. rewrite IH. ring. Qed.
Lemma one_guess_eq ps p : one_guess (qsum (map up_tot ps) / inject_Z (zsum (map up_num ps))) (qsum (map down_tot ps) / inject_Z (zsum (map down_num ps))) p == expected ps p.
Proof.
  unfold one_guess, expected, per_unit.
  set (ua := qsum (map up_tot ps) / _). set (da := qsum (map down_tot ps) / _).
  assert (A : (if (up_num p =? 0)%Z then up_est p * ua else up_est p * up_tot p / inject_Z (up_num p)) == up_est p * (if Z.eq_dec (up_num p) 0 then ua else up_tot p / inject_Z (up_num p))).
  { destruct (Z.eq_dec (up_num p) 0) as [E|E]. rewrite E. reflexivity. apply Z.eqb_neq in E. rewrite E. unfold Qdiv. ring. }
  assert (B : (if (down_num p =? 0)%Z then down_est p * da else down_est p * down_tot p / inject_Z (down_num p)) == down_est p * (if Z.eq_dec (down_num p) 0 then da else down_tot p / inject_Z (down_num p))).
  { destruct (Z.eq_dec (down_num p) 0) as [E|E]. rewrite E. reflexivity. apply Z.eqb_neq in E. rewrite E. unfold Qdiv. ring. }
  set (u := if (up_num p =? 0)%Z then _ else _) in *. set (d := if (down_num p =? 0)%Z then _ else _) in *.
  rewrite <- A, <- B. destruct (Qltb d u) eqn:E.
  - apply Qltb_lt in E. symmetry. apply Qminmax.Q.min_r. lra.
  - apply Qltb_ge in E. symmetry. apply Qminmax.Q.min_l. lra.
Qed.
Lemma qsum_ext {A} (F G : A -> Q) l : (forall a, F a == G a) -> qsum (map F l) == qsum (map G l).
Proof. intros H. induction l; cbn. reflexivity. rewrite H, IHl. reflexivity. Qed.
Lemma qsum_nonneg l : (forall q, In q l -> 0 <= q) -> 0 <= qsum l.
Proof. induction l as [|a l IH]; cbn; intros H. lra. pose proof (H a (or_introl eq_refl)). assert (0 <= qsum l) by (apply IH; auto). lra. Qed.
Lemma zsum_nonneg l : (forall q, In q l -> (0 <= q)%Z) -> (0 <= zsum l)%Z.
Proof. induction l as [|a l IH]; cbn; intros H. lia. pose proof (H a (or_introl eq_refl)). assert (0 <= zsum l)%Z by (apply IH; auto). unfold zsum in *. lia. Qed.
Lemma div_nonneg a z : 0 <= a -> (0 <= z)%Z -> 0 <= a / inject_Z z.
Proof. intros A Z. unfold Qdiv. apply Qmult_le_0_compat; [exact A|]. apply Qinv_le_0_compat. change 0 with (inject_Z 0). now rewrite <- Zle_Qle. Qed.
Lemma per_unit_nonneg t n ts ns : 0 <= t -> (0 <= n)%Z -> (forall q, In q ts -> 0 <= q) -> (forall q, In q ns -> (0 <= q)%Z) -> 0 <= per_unit t n ts ns.
Proof. intros A B C D. unfold per_unit. destruct (Z.eq_dec n 0); apply div_nonneg; auto using qsum_nonneg, zsum_nonneg. Qed.
Lemma in_map_nonneg {A B} (F : A -> B) (P : A -> Prop) (R : B -> Prop) l : Forall P l -> (forall a, P a -> R (F a)) -> forall b, In b (map F l) -> R b.
Proof. intros H K b I. apply in_map_iff in I. destruct I as [a [<- I]]. apply K. rewrite Forall_forall in H. auto. Qed.
Lemma expected_nonneg ps p : Forall nonneg ps -> nonneg p -> 0 <= expected ps p.
Proof.
  intros H [A [B [C [D [E F]]]]]. unfold expected. apply Qminmax.Q.min_glb; (apply Qmult_le_0_compat; [assumption|]); apply per_unit_nonneg; auto.
  - apply (in_map_nonneg up_tot nonneg (fun q => 0 <= q) ps H). intros a [K _]; exact K.
  - apply (in_map_nonneg up_num nonneg (fun q => (0 <= q)%Z) ps H). intros a K; apply K.
  - apply (in_map_nonneg down_tot nonneg (fun q => 0 <= q) ps H). intros a K; apply K.
  - apply (in_map_nonneg down_num nonneg (fun q => (0 <= q)%Z) ps H). intros a K; apply K.
Qed.
Lemma guess_value ps nobj obj : List.length ps = nobj ->
  guess (PseudoCosts ps) nobj obj = Ok ((-1)%Z, PInf) /\ (zsum (map up_num ps) = 0%Z \/ zsum (map down_num ps) = 0%Z) \/
  exists v, guess (PseudoCosts ps) nobj obj = Ok ((-1)%Z, Fin v) /\ v == obj + qsum (map (expected ps) ps) /\ zsum (map up_num ps) <> 0%Z /\ zsum (map down_num ps) <> 0%Z.
Proof.
  intros <-. unfold guess. rewrite Nat.eqb_refl. cbn [negb].
  destruct (Z.eqb_spec (zsum (map up_num ps)) 0) as [U|U]; cbn [orb]; [left; auto|].
  destruct (Z.eqb_spec (zsum (map down_num ps)) 0) as [D|D]; [left; auto|]. right.
  eexists; split; [reflexivity|]. split; [|auto]. rewrite fold_guess. apply Qplus_inj_l. apply qsum_ext. intros p. apply one_guess_eq.
Qed.

(** ** The strategy *)
Lemma freq_thrown reg p n o : List.find (fun e => String.eqb (fst e) n) reg = None -> freq reg p n o = Thrown.
Proof. intros H. unfold freq, get_reg. rewrite H. reflexivity. Qed.
Lemma freqs_nth reg p o : forall ns vs, freqs reg p o ns = Ok vs -> forall k n, nth_error ns k = Some n ->
  exists v, nth_error vs k = Some v /\ freq reg p n o = Ok v.
Proof.
  induction ns as [|m ns IH]; intros vs H k n K. destruct k; discriminate. cbn in H. apply bind_ok in H. destruct H as [v [E H]]. apply bind_ok in H. destruct H as [ws [E2 H]]. injection H as <-.
  destruct k as [|k]. cbn in K. injection K as <-. exists v; auto. cbn in *. apply IH; auto.
Qed.
Lemma freqs_runs reg p o : forall ns, (forall n, In n ns -> List.find (fun e => String.eqb (fst e) n) reg <> None) -> exists vs, freqs reg p o ns = Ok vs.
Proof.
  induction ns as [|n ns IH]; intros H. exists []; reflexivity. destruct IH as [vs E]. { intros; apply H; now right. }
  cbn. unfold freq, get_reg at 1. destruct (List.find _ reg) as [[m d]|] eqn:F; [|exfalso; apply (H n (or_introl eq_refl) F)].
  destruct (Set_Model.look p n (Set_Model.o_int o)); cbn [bind]; rewrite E; cbn [bind]; eauto.
Qed.
Lemma has_cg_in k gs : has_cg k gs = true <-> In k (map fst gs).
Proof.
  unfold has_cg. rewrite existsb_exists, in_map_iff. split.
  - intros [[j f] [I E]]. apply Nat.eqb_eq in E. exists (j, f). auto.
  - intros [[j f] [E I]]. exists (j, f). split; auto. apply Nat.eqb_eq; auto.
Qed.
Lemma add_spec : forall fs k gs, exists new, add_generators k fs gs = gs ++ new /\ NoDup (map fst new) /\
  forall j f, In (j, f) new <-> (k <= j)%nat /\ nth_error fs (j - k) = Some f /\ f <> 0%Z /\ ~ In j (map fst gs).
Proof.
  induction fs as [|f fs IH]; intros k gs.
  - exists []. rewrite app_nil_r. repeat split; try constructor. all: try contradiction. intros [_ [H _]]. destruct (j - k)%nat; discriminate.
  - cbn [add_generators]. destruct (negb (f =? 0)%Z && negb (has_cg k gs))%bool eqn:E.
    + apply andb_prop in E. destruct E as [E1 E2]. apply Bool.negb_true_iff in E1, E2. apply Z.eqb_neq in E1.
      assert (NK : ~ In k (map fst gs)) by (rewrite <- has_cg_in; congruence).
      destruct (IH (S k) (gs ++ [(k, f)])) as [new [A [B C]]]. exists ((k, f) :: new). split; [rewrite A, <- app_assoc; reflexivity|]. split.
      * cbn. constructor; [|exact B]. intros I. apply in_map_iff in I. destruct I as [[j h] [Ej I]]. cbn in Ej; subst j. apply C in I. lia.
      * intros j h. cbn [In]. rewrite C. rewrite map_app, in_app_iff. cbn. split.
        -- intros [X | [X1 [X2 [X3 X4]]]].
           ++ injection X as <- <-. rewrite Nat.sub_diag. cbn. auto.
           ++ replace (j - k)%nat with (S (j - S k)) by lia. cbn. repeat split; auto; lia.
        -- intros [X1 [X2 [X3 X4]]]. destruct (Nat.eq_dec j k) as [-> | NE].
           ++ rewrite Nat.sub_diag in X2. cbn in X2. injection X2 as <-. auto.
           ++ right. replace (j - k)%nat with (S (j - S k)) in X2 by lia. cbn in X2. repeat split; auto; try lia. intros [Y | [Y | []]]; auto.
    + destruct (IH (S k) gs) as [new [A [B C]]]. exists new. split; [exact A|]. split; [exact B|]. intros j h. rewrite C. split.
      * intros [X1 [X2 [X3 X4]]]. replace (j - k)%nat with (S (j - S k)) by lia. cbn. repeat split; auto; lia.
      * intros [X1 [X2 [X3 X4]]]. destruct (Nat.eq_dec j k) as [-> | NE].
        -- exfalso. rewrite Nat.sub_diag in X2. cbn in X2. injection X2 as <-. apply Z.eqb_neq in X3. rewrite X3 in E. cbn in E. apply Bool.negb_false_iff in E. apply has_cg_in in E. auto.
        -- replace (j - k)%nat with (S (j - S k)) in X2 by lia. cbn in X2. repeat split; auto; lia.
Qed.
