(** Proofs about the heuristics built on a second branch-and-bound. *)
From Verif Require Import Base Arr Oad_Model Loc_Model Loc_Spec.
#[local] Open Scope Q_scope.

(** ** Storage *)
Lemma mem_true i l : existsb (Nat.eqb i) l = true <-> In i l.
Proof.
  rewrite existsb_exists. split.
  - intros (x & I & E). apply Nat.eqb_eq in E. subst. exact I.
  - intros I. exists i. split; [exact I|apply Nat.eqb_refl].
Qed.
Lemma remove_fresh i l : ~ In i l -> remove Nat.eq_dec i l = l.
Proof.
  induction l as [|a l IH]; intros N; [reflexivity|]. cbn [remove]. destruct (Nat.eq_dec i a) as [->|D].
  - exfalso. apply N. left. reflexivity.
  - rewrite IH; [reflexivity|]. intros I. apply N. right. exact I.
Qed.
Lemma release_top i l k : ~ In i l -> release i (mkHeap (i :: l) k) = Ok (mkHeap l k).
Proof.
  intros N. unfold release. cbn [h_live h_next existsb remove]. rewrite Nat.eqb_refl. cbn [orb].
  destruct (Nat.eq_dec i i); [|congruence]. rewrite remove_fresh by exact N. reflexivity.
Qed.
Lemma release_second i j l k : ~ In i l -> i <> j -> release i (mkHeap (j :: i :: l) k) = Ok (mkHeap (j :: l) k).
Proof.
  intros N D. unfold release. cbn [h_live h_next]. rewrite (proj2 (mem_true i (j :: i :: l)) (or_intror (or_introl eq_refl))).
  cbn [remove]. destruct (Nat.eq_dec i j); [congruence|]. destruct (Nat.eq_dec i i); [|congruence].
  rewrite remove_fresh by exact N. reflexivity.
Qed.
Lemma release_gone i h : ~ In i (h_live h) -> release i h = Dangling.
Proof.
  intros N. unfold release. destruct (existsb (Nat.eqb i) (h_live h)) eqn:E; [|reflexivity].
  exfalso. apply N, mem_true, E.
Qed.
(** Deleting the copied set-up releases the solver it was given and everything else it
    made. *)
Lemma copy_deleted bb k s l nx : s_objs s = [] -> (forall i, In i l -> (i < nx)%nat) ->
  exists nx', delete_setup (fst (copy_prefix bb k s nx (mkHeap (nx :: l) (S nx)))) (snd (copy_prefix bb k s nx (mkHeap (nx :: l) (S nx)))) = Ok (mkHeap l nx').
Proof.
  intros SO B. assert (N : ~ In nx l) by (intros I; apply B in I; lia).
  unfold copy_prefix. rewrite SO. cbn [clone_objs]. destruct bb; cbn [fst snd]; unfold delete_setup; cbn [s_non s_cont s_objs ptr_eqb].
  - rewrite Nat.eqb_refl. cbn [bind delete_ptr release_all]. rewrite (release_top nx l (S nx) N). cbn [bind]. eexists. reflexivity.
  - unfold alloc. cbn [fst snd h_next h_live]. destruct (Nat.eqb nx (S nx)) eqn:E; [apply Nat.eqb_eq in E; lia|].
    cbn [delete_ptr]. rewrite (release_second nx (S nx) l _ N) by lia. cbn [bind].
    rewrite release_top; [|intros I; apply B in I; lia]. cbn [bind release_all]. eexists. reflexivity.
Qed.

(** ** The local search *)
Lemma dls_ok n O bb s px P c buf val l nx : s_objs s = [] -> (forall i, In i l -> (i < nx)%nat) -> cols_n n (q_cols P) -> sizes_ok n O -> length buf = n ->
  exists nx', doLocalSearch O bb s px nx P c buf val (mkHeap (nx :: l) (S nx)) =
    Ok (match O px P c with
        | Some (x, v) => mkRes 1 v x (mkHeap l nx') (Some (px, P, c))
        | None => mkRes 0 val buf (mkHeap l nx') (Some (px, P, c)) end).
Proof.
  intros SO B CN SZ LB. destruct (copy_deleted (bb px) 0 s l nx SO B) as (nx' & D). exists nx'.
  unfold doLocalSearch. cbv zeta. destruct (O px P c) as [[x v]|] eqn:E.
  - pose proof (SZ _ _ _ _ _ E) as LX. rewrite (proj1 CN).
    replace (Nat.ltb (length x) n) with false by (symmetry; apply Nat.ltb_ge; lia).
    replace (Nat.ltb (length buf) n) with false by (symmetry; apply Nat.ltb_ge; lia).
    cbn [bind fst snd]. rewrite D. cbn [bind]. rewrite <- LX at 1. rewrite firstn_all.
    rewrite skipn_all2 by lia. rewrite app_nil_r. reflexivity.
  - cbn [bind fst snd]. rewrite D. reflexivity.
Qed.
Lemma fresh_next h : heap_ok h -> forall i, In i (h_live h) -> (i < h_next h)%nat.
Proof. intros [_ H]. exact H. Qed.

(** ** RINS *)
Definition hit (v x : Q) : bool := Qltb (Qabs (x - v)) rins_tol.
Lemma nth_error_lset {A} i j (a : A) l l' : lset i a l = Ok l' -> nth_error l' j = if Nat.eqb j i then Some a else nth_error l j.
Proof.
  intros H. assert (LT : (i < length l)%nat).
  { destruct (Nat.lt_ge_cases i (length l)) as [|G]; [assumption|]. exfalso. unfold lset in H.
    rewrite (proj2 (Nat.ltb_ge i (length l)) G) in H. discriminate H. }
  rewrite (lset_ok i a l LT) in H. injection H as <-.
  destruct (Nat.eqb j i) eqn:E.
  - apply Nat.eqb_eq in E. subst j. rewrite nth_error_app2; rewrite firstn_length_le by lia; [|lia].
    rewrite Nat.sub_diag. reflexivity.
  - apply Nat.eqb_neq in E. destruct (Nat.lt_ge_cases j i) as [L|G].
    + rewrite nth_error_app1 by (rewrite firstn_length_le; lia). rewrite <- (firstn_skipn i l) at 2.
      rewrite nth_error_app1 by (rewrite firstn_length_le; lia). reflexivity.
    + rewrite nth_error_app2; rewrite firstn_length_le by lia; [|lia].
      destruct (j - i)%nat as [|d] eqn:D; [lia|]. cbn [nth_error].
      rewrite <- (firstn_skipn (S i) l) at 2. rewrite nth_error_app2; rewrite firstn_length_le by lia; [|lia].
      f_equal. lia.
Qed.
Lemma lset_len {A} i (a : A) l l' : lset i a l = Ok l' -> length l' = length l.
Proof.
  intros H. destruct (Nat.lt_ge_cases i (length l)) as [L|G].
  - rewrite (lset_ok i a l L) in H. injection H as <-. apply upd_length. exact L.
  - unfold lset in H. rewrite (proj2 (Nat.ltb_ge i (length l)) G) in H. discriminate H.
Qed.
Lemma rd_some {A} i (l : list A) a : rd i l = Ok a <-> nth_error l i = Some a.
Proof. unfold rd. destruct (nth_error l i); split; intros H; try discriminate H; congruence. Qed.
Lemma rd_get {A} i (l : list A) d : (i < length l)%nat -> rd i l = Ok (nth i l d).
Proof. intros H. apply rd_some. apply nth_error_nth'. exact H. Qed.
Lemma lset_run {A} i (a : A) l : (i < length l)%nat -> exists l', lset i a l = Ok l'.
Proof. intros H. rewrite (lset_ok i a l H). eexists. reflexivity. Qed.

(** The value a variable of RINS is compared with and fixed at. *)
Definition target (best : list Q) (p : nat * (ext * ext)) : Q := clampv (fst (snd p)) (snd (snd p)) (nth (fst p) best 0).
Definition agrees (best cur : list Q) (p : nat * (ext * ext)) : bool := hit (target best p) (nth (fst p) cur 0).
(** What the loop does to the bounds of column j: the last agreeing entry for j fixes it. *)
Definition rins_bound (best cur : list Q) (ints : list (nat * (ext * ext))) (j : nat) (old : option ext) : option ext :=
  fold_left (fun o p => if (Nat.eqb j (fst p) && agrees best cur p)%bool then Some (Fin (inject_Z (nearest (target best p)))) else o) ints old.
Lemma rins_fix_run n : forall ints best cur c k, cols_n n c -> length best = n -> length cur = n ->
  (forall i b, In (i, b) ints -> (i < n)%nat) ->
  exists c', rins_fix ints best cur c k = Ok (c', (k + length (filter (agrees best cur) ints))%nat) /\ cols_n n c' /\
    forall j, nth_error (k_lo c') j = rins_bound best cur ints j (nth_error (k_lo c) j) /\
              nth_error (k_up c') j = rins_bound best cur ints j (nth_error (k_up c) j).
Proof.
  induction ints as [|[i [l u]] ints IH]; intros best cur c k CN LB LC HI.
  - exists c. cbn. rewrite Nat.add_0_r. auto.
  - assert (Li : (i < n)%nat) by (apply (HI i (l, u)); left; reflexivity).
    assert (HI' : forall i b, In (i, b) ints -> (i < n)%nat) by (intros i' b I; apply (HI i' b); right; exact I).
    cbn [rins_fix]. rewrite (rd_get i best 0), (rd_get i cur 0) by lia. cbn [bind].
    change (Qltb (Qabs (nth i cur 0 - clampv l u (nth i best 0))) rins_tol) with (agrees best cur (i, (l, u))).
    cbn [filter rins_bound fold_left fst].
    destruct (agrees best cur (i, (l, u))) eqn:A.
    + change (clampv l u (nth i best 0)) with (target best (i, (l, u))).
      set (e := Fin (inject_Z (nearest (target best (i, (l, u)))))).
      destruct CN as [CL CU]. unfold setLower, setUpper.
      destruct (lset_run i e (k_lo c)) as (lo & EL); [lia|]. destruct (lset_run i e (k_up c)) as (up & EU); [lia|].
      rewrite EL. cbn [bind k_up k_lo]. rewrite EU. cbn [bind].
      destruct (IH best cur (mkCols lo up) (S k)) as (c' & R & CN' & B); auto.
      { split; cbn [k_lo k_up]; [rewrite (lset_len _ _ _ _ EL)|rewrite (lset_len _ _ _ _ EU)]; assumption. }
      exists c'. rewrite R. cbn [length]. split; [do 2 f_equal; lia|]. split; [exact CN'|].
      intros j. destruct (B j) as [B1 B2]. rewrite B1, B2. cbn [k_lo k_up].
      rewrite (nth_error_lset _ _ _ _ _ EL), (nth_error_lset _ _ _ _ _ EU).
      destruct (Nat.eqb j i); cbn [andb]; auto.
    + destruct (IH best cur c k CN LB LC HI') as (c' & R & CN' & B). exists c'. split; [exact R|]. split; [exact CN'|].
      intros j. rewrite andb_false_r. exact (B j).
Qed.
Lemma rins_bound_out best cur ints j o : ~ In j (map fst ints) -> rins_bound best cur ints j o = o.
Proof.
  unfold rins_bound. revert o. induction ints as [|p ints IH]; intros o N; [reflexivity|]. cbn [fold_left].
  destruct (Nat.eqb j (fst p)) eqn:E; [apply Nat.eqb_eq in E; exfalso; apply N; left; auto|]. cbn [andb].
  apply IH. intros I. apply N. right. exact I.
Qed.
Lemma rins_bound_in best cur ints p o : NoDup (map fst ints) -> In p ints ->
  rins_bound best cur ints (fst p) o = if agrees best cur p then Some (Fin (inject_Z (nearest (target best p)))) else o.
Proof.
  revert o. induction ints as [|q ints IH]; intros o ND I; [destruct I|].
  inversion ND as [|a b NI ND' E]. unfold rins_bound. cbn [fold_left].
  fold (rins_bound best cur ints (fst p) (if (Nat.eqb (fst p) (fst q) && agrees best cur q)%bool then Some (Fin (inject_Z (nearest (target best q)))) else o)).
  destruct I as [->|I].
  - rewrite Nat.eqb_refl. cbn [andb]. apply rins_bound_out. exact NI.
  - destruct (Nat.eqb (fst p) (fst q)) eqn:E'.
    + exfalso. apply Nat.eqb_eq in E'. apply NI. rewrite <- E'. apply in_map. exact I.
    + cbn [andb]. apply IH; assumption.
Qed.

(** Clamping and rounding. *)
Lemma clamp_in l u v : (exists z, lo_ok l z /\ up_ok u z) -> lo_ok l (clampv l u v) /\ up_ok u (clampv l u v).
Proof.
  intros (z & L & U). unfold clampv. destruct l as [|a|], u as [|b|]; cbn in *; try tauto; repeat qcase; split; try exact Logic.I; try lra.
Qed.
Lemma clamp_id l u v : lo_ok l v -> up_ok u v -> clampv l u v = v.
Proof. intros L U. unfold clampv. destruct l as [|a|], u as [|b|]; cbn in *; try tauto; repeat qcase; try reflexivity; lra. Qed.
Lemma nearest_int z : nearest (inject_Z z) = z.
Proof.
  unfold nearest. pose proof (Qfloor_le (inject_Z z + (1 # 2))) as A. pose proof (Qlt_floor (inject_Z z + (1 # 2))) as B.
  assert (A' : inject_Z (Qfloor (inject_Z z + (1 # 2))) < inject_Z (z + 1)) by (rewrite inject_Z_plus; change (inject_Z 1) with 1; lra).
  assert (B' : inject_Z z < inject_Z (Qfloor (inject_Z z + (1 # 2)) + 1)) by lra.
  rewrite <- Zlt_Qlt in A', B'. lia.
Qed.
Lemma nearest_eq a b : a == b -> nearest a = nearest b.
Proof. intros E. unfold nearest. rewrite E. reflexivity. Qed.
(** Rounding to the nearest integer stays between integral bounds. *)
Definition whole (e : ext) : Prop := match e with Fin a => exists z, a == inject_Z z | _ => True end.
Lemma round_in l u v : whole l -> whole u -> lo_ok l v -> up_ok u v -> lo_ok l (inject_Z (nearest v)) /\ up_ok u (inject_Z (nearest v)).
Proof.
  intros WL WU L U. unfold nearest. pose proof (Qfloor_le (v + (1 # 2))) as A. pose proof (Qlt_floor (v + (1 # 2))) as B.
  set (f := Qfloor (v + (1 # 2))) in *. rewrite inject_Z_plus in B. change (inject_Z 1) with 1 in B. split.
  - destruct l as [|a|]; cbn [lo_ok whole] in L, WL |- *; try tauto. destruct WL as (z & E).
    assert (C : inject_Z z < inject_Z (f + 1)) by (rewrite inject_Z_plus; change (inject_Z 1) with 1; lra).
    rewrite <- Zlt_Qlt in C. assert (D : (z <= f)%Z) by lia. rewrite Zle_Qle in D. lra.
  - destruct u as [|b|]; cbn [up_ok whole] in U, WU |- *; try tauto. destruct WU as (z & E).
    assert (C : inject_Z f < inject_Z (z + 1)) by (rewrite inject_Z_plus; change (inject_Z 1) with 1; lra).
    rewrite <- Zlt_Qlt in C. assert (D : (f <= z)%Z) by lia. rewrite Zle_Qle in D. lra.
Qed.
