(** Proofs about the linear relaxation. *)
From Verif Require Import Base Arr Nlp OA_Model OA_Spec OA_Proofs OA_Proofs2 OA_Proofs3.
#[local] Open Scope Q_scope.

Lemma ex_inits_spec lin : forall gl gu g du, length gl = length lin -> length gu = length lin ->
  length g = length lin -> length du = length lin ->
  ex_inits lin gl gu g du =
  Ok (map (fun i => ex_init (nth i lin true) (nth i gl MInf) (nth i gu PInf) (nth i g 0) (nth i du 0)) (seq 0 (length lin))).
Proof.
  induction lin as [|b lin IH]; intros gl gu g du L1 L2 L3 L4; [reflexivity|].
  destruct gl as [|rl gl]; [discriminate|]. destruct gu as [|ru gu]; [discriminate|].
  destruct g as [|gi g]; [discriminate|]. destruct du as [|d du]; [discriminate|].
  cbn [ex_inits length seq map nth]. rewrite IH by (cbn in *; lia). cbn [bind]. rewrite <- seq_shift, map_map. reflexivity.
Qed.
Lemma delete_rows_map {A B} (f : A -> bool) (g : A -> B) l :
  delete_rows (map f l) (map g l) = map g (filter (fun a => negb (f a)) l).
Proof. induction l as [|a l IH]; [reflexivity|]. cbn. destruct (f a); cbn; rewrite IH; reflexivity. Qed.

(** ** Bounds of one row *)
Section Row.
Variables (tiny vtiny : Q) (rl ru : ext) (cl cu : list ext) (x : list Q).
Definition exs (p : nat * Q) (s : ext * ext) : outcome (ext * ext) :=
  let '(kept, lo, up) := clean_nnz (snd p) (nth (fst p) cl MInf) (nth (fst p) cu PInf) rl ru (nth (fst p) x 0) (fst s) (snd s) tiny vtiny in
  Ok (if (kept : bool) then (eadd lo (snd p * nth (fst p) x 0), eadd up (snd p * nth (fst p) x 0)) else (lo, up)).
Definition kflag (p : nat * Q) : bool :=
  fst (fst (clean_nnz (snd p) (nth (fst p) cl MInf) (nth (fst p) cu PInf) rl ru (nth (fst p) x 0) MInf PInf tiny vtiny)).
Lemma clean_flag v a b c d xc l u l' u' :
  fst (fst (clean_nnz v a b c d xc l u tiny vtiny)) = fst (fst (clean_nnz v a b c d xc l' u' tiny vtiny)).
Proof.
  unfold clean_nnz. destruct (Qle_bool tiny (Qabs v)); [reflexivity|]. destruct (Qltb (Qabs v) vtiny); [reflexivity|].
  destruct b, a; repeat match goal with |- context [if ?z then _ else _] => destruct z end; reflexivity.
Qed.
Definition kterm (y : list Q) (p : nat * Q) : Q := if kflag p then snd p * nth (fst p) y 0 else 0.
Lemma exs_cfs p lo up y : exists s', cfs tiny vtiny rl ru cl cu x p (mkCut [] lo up) = Ok s' /\
  exs p (lo, up) = Ok (c_lb s', c_ub s') /\ lhs (c_row s') y == kterm y p.
Proof.
  unfold exs, cfs, oa_coef, kterm, kflag. destruct p as [c v]. cbn [fst snd c_lb c_ub c_row].
  rewrite (clean_flag v (nth c cl MInf) (nth c cu PInf) rl ru (nth c x 0) MInf PInf lo up).
  destruct (clean_nnz _ _ _ _ _ _ _ _ _ _) as [[k l] u]. cbn [fst]. destruct k.
  - rewrite (pv_insert_fresh c v []) by (intros []). cbn [bind app]. eexists. split; [reflexivity|].
    cbn [c_lb c_ub c_row]. split; [reflexivity|]. apply lhs_one.
  - eexists. split; [reflexivity|]. cbn [c_lb c_ub c_row]. split; [reflexivity|]. unfold lhs. reflexivity.
Qed.
Lemma exs_fold y es : forall lo up, (ltp ru = false -> up = PInf) -> (gtm rl = false -> lo = MInf) ->
  exists lo' up', foldM exs es (lo, up) = Ok (lo', up') /\
    shifted up up' (qsum (map (kterm y) es) - dsum tiny vtiny rl ru cl cu x y es) /\
    shifted lo lo' (qsum (map (kterm y) es) - dsum tiny vtiny rl ru cl cu x y es).
Proof.
  induction es as [|p es IH]; intros lo up NU NL.
  - exists lo, up. split; [reflexivity|]. unfold dsum. cbn. split; apply shifted_refl; ring.
  - destruct (exs_cfs p lo up y) as (s' & E & X & LH).
    pose proof (step_up tiny vtiny rl ru cl cu x y p _ _ E NU) as SU.
    pose proof (step_lo tiny vtiny rl ru cl cu x y p _ _ E NL) as SL. cbn [c_ub c_lb c_row] in SU, SL.
    destruct (IH (c_lb s') (c_ub s')) as (lo' & up' & E2 & S2 & S3).
    { intros H. rewrite (NU H) in SU. exact SU. } { intros H. rewrite (NL H) in SL. exact SL. }
    exists lo', up'. cbn [foldM]. rewrite X. cbn [bind]. split; [exact E2|].
    unfold dsum. cbn [map qsum]. fold (dsum tiny vtiny rl ru cl cu x y es).
    split; [eapply shifted_trans; [exact SU|exact S2|]|eapply shifted_trans; [exact SL|exact S3|]];
      rewrite LH; unfold lhs; cbn [map qsum]; unfold dsum; ring.
Qed.
(** Leaving the coefficient in the row is harmless when 0 is in the column's box. *)
Definition zneg (p : nat * Q) : Q := if Qltb (Qabs (snd p)) vtiny then Qabs (snd p) * Qabs (nth (fst p) x 0) else 0.
Lemma left_up y p : ltp ru = true -> lo_ok (nth (fst p) cl MInf) 0 -> up_ok (nth (fst p) cu PInf) 0 ->
  snd p * nth (fst p) y 0 - kterm y p + snd p * (corner tiny vtiny rl ru cl cu x y p - nth (fst p) x 0) - zneg p
  <= snd p * (nth (fst p) y 0 - nth (fst p) x 0).
Proof.
  destruct p as [c v]. unfold kterm, kflag, corner, zneg, clean_nnz. cbn [fst snd]. intros U LO UP. rewrite U.
  set (xc := nth c x 0). set (yc := nth c y 0).
  assert (N : 0 <= if Qltb (Qabs v) vtiny then Qabs v * Qabs xc else 0).
  { destruct (Qltb (Qabs v) vtiny); [apply Qmult_le_0_compat; apply Qabs_nonneg|lra]. }
  destruct (Qle_bool tiny (Qabs v)); [cbn [fst]; lra|].
  destruct (Qltb (Qabs v) vtiny) eqn:T. { cbn [fst]. pose proof (abs_mul v xc) as [B _]. lra. }
  destruct (Qltb 0 v) eqn:V; [apply Qltb_lt in V|apply Qltb_ge in V];
  rewrite ?andb_false_r; cbn [negb andb orb]; cbv iota;
    destruct (gtm rl); cbn [negb andb orb]; cbv iota;
    destruct (nth c cu PInf) as [|u|]; simpl in UP; try tauto;
    destruct (nth c cl MInf) as [|l|]; simpl in LO; try tauto; cbn [fst]; try lra; nra.
Qed.
Lemma left_lo y p : gtm rl = true -> lo_ok (nth (fst p) cl MInf) 0 -> up_ok (nth (fst p) cu PInf) 0 ->
  snd p * (nth (fst p) y 0 - nth (fst p) x 0) <=
  snd p * nth (fst p) y 0 - kterm y p + snd p * (corner tiny vtiny rl ru cl cu x y p - nth (fst p) x 0) + zneg p.
Proof.
  destruct p as [c v]. unfold kterm, kflag, corner, zneg, clean_nnz. cbn [fst snd]. intros U LO UP. rewrite U.
  set (xc := nth c x 0). set (yc := nth c y 0).
  assert (N : 0 <= if Qltb (Qabs v) vtiny then Qabs v * Qabs xc else 0).
  { destruct (Qltb (Qabs v) vtiny); [apply Qmult_le_0_compat; apply Qabs_nonneg|lra]. }
  destruct (Qle_bool tiny (Qabs v)); [cbn [fst]; lra|].
  destruct (Qltb (Qabs v) vtiny) eqn:T. { cbn [fst]. pose proof (abs_mul v xc) as [_ B]. lra. }
  destruct (Qltb 0 v) eqn:V; [apply Qltb_lt in V|apply Qltb_ge in V];
  rewrite ?andb_false_r; cbn [negb andb orb]; cbv iota;
    destruct (ltp ru); cbn [negb andb orb]; cbv iota;
    destruct (nth c cu PInf) as [|u|]; simpl in UP; try tauto;
    destruct (nth c cl MInf) as [|l|]; simpl in LO; try tauto; cbn [fst]; try lra; nra.
Qed.
Lemma kterm_large y p : tiny <= Qabs (snd p) -> kterm y p = snd p * nth (fst p) y 0.
Proof. intros H. unfold kterm, kflag, clean_nnz. apply Qleb_le in H. rewrite H. reflexivity. Qed.
End Row.

(** Starting bounds of a nonlinear row that is not skipped. *)
Lemma ex_up P e i g : nth i (p_lin P) true = false -> skipped P e i = false ->
  let s := snd (ex_init false (glow P i) (gup P i) g (nth i (e_duals e) 0)) in
  (uses_up P e i /\ snd s = eadd (gup P i) (- g + ex_eps)) \/ (~ uses_up P e i /\ snd s = PInf).
Proof.
  intros NL SK. unfold skipped in SK. rewrite NL in SK. cbn [negb andb] in SK. unfold ex_init, uses_up.
  destruct (gup P i) as [|u|] eqn:U; destruct (glow P i) as [|l|] eqn:L; cbn [gtm ltp andb eadd] in *; cbv zeta; try rewrite SK; cbn [snd];
    try (left; split; [split; [congruence|auto]|reflexivity]);
    try (right; split; [intros [A B]; congruence|reflexivity]);
    (destruct (Qle_bool (nth i (e_duals e) 0) 0) eqn:D;
      [apply Qleb_le in D; right; split; [intros [_ [B|B]]; [congruence|lra]|reflexivity]
      |apply Qleb_gt in D; left; split; [split; [congruence|right; exact D]|reflexivity]]).
Qed.
Lemma ex_lo P e i g : nth i (p_lin P) true = false -> skipped P e i = false ->
  let s := snd (ex_init false (glow P i) (gup P i) g (nth i (e_duals e) 0)) in
  (uses_lo P e i /\ fst s = eadd (glow P i) (- g - ex_eps)) \/ (~ uses_lo P e i /\ fst s = MInf).
Proof.
  intros NL SK. unfold skipped in SK. rewrite NL in SK. cbn [negb andb] in SK. unfold ex_init, uses_lo.
  destruct (gup P i) as [|u|] eqn:U; destruct (glow P i) as [|l|] eqn:L; cbn [gtm ltp andb eadd] in *; cbv zeta; try rewrite SK; cbn [snd fst];
    try (left; split; [split; [congruence|auto]|reflexivity]);
    try (right; split; [intros [A B]; congruence|reflexivity]);
    (destruct (Qle_bool 0 (nth i (e_duals e) 0)) eqn:D;
      [apply Qleb_le in D; right; split; [intros [_ [B|B]]; [congruence|lra]|reflexivity]
      |apply Qleb_gt in D; left; split; [split; [congruence|right; exact D]|reflexivity]]).
Qed.
Lemma ex_flag P e i g : fst (ex_init (nth i (p_lin P) true) (glow P i) (gup P i) g (nth i (e_duals e) 0)) = skipped P e i.
Proof.
  unfold ex_init, skipped. destruct (nth i (p_lin P) true); [reflexivity|]. cbn [negb andb].
  destruct (gtm (glow P i) && ltp (gup P i))%bool eqn:E.
  - destruct (Qeq_bool (nth i (e_duals e) 0) 0); reflexivity.
  - reflexivity.
Qed.

(** ** The whole bound loop *)
Definition row_bounds (P : nlp) (e : oaenv) (x : list Q) (i : nat) (b : ext * ext) : Prop :=
  foldM (ex_step P e x) (filter (row_sel i) (triplets P x))
        (snd (ex_init (nth i (p_lin P) true) (glow P i) (gup P i) (gi P i x) (nth i (e_duals e) 0))) = Ok b.
Lemma ex_fold_lin P e x i ts s : nlp_ok P -> (i < p_m P)%nat -> nth i (p_lin P) true = true ->
  (forall t, In t ts -> fst (fst t) = i) -> foldM (ex_step P e x) ts s = Ok s.
Proof.
  intros OK HI L. induction ts as [|[[r c] v] ts IH]; intros B; [reflexivity|]. cbn [foldM].
  pose proof (B _ (or_introl eq_refl)) as B0. cbn [fst] in B0. subst r. unfold ex_step.
  rewrite (rd_nth i (p_lin P) true) by (rewrite (ok_lin _ OK); exact HI). cbn [bind]. rewrite L. cbn [bind].
  apply IH. intros t It. apply B. right; exact It.
Qed.
Lemma ex_fold_nl P e x i ts : nlp_ok P -> env_ok P e -> length x = p_n P -> (i < p_m P)%nat -> nth i (p_lin P) true = false ->
  (forall t, In t ts -> fst (fst t) = i /\ (snd (fst t) < p_n P)%nat) -> forall s,
  foldM (ex_step P e x) ts s =
  foldM (exs (e_tiny e) (e_vtiny e) (glow P i) (gup P i) (e_cl e) (e_cu e) x) (map (fun t => (snd (fst t), snd t)) ts) s.
Proof.
  intros OK EN LX HI L. induction ts as [|[[r c] v] ts IH]; intros B s; [reflexivity|]. cbn [foldM map fst snd].
  destruct (B _ (or_introl eq_refl)) as [B0 B2]. cbn [fst snd] in B0, B2. subst r.
  assert (E : ex_step P e x (i, c, v) s = exs (e_tiny e) (e_vtiny e) (glow P i) (gup P i) (e_cl e) (e_cu e) x (c, v) s).
  { unfold ex_step, exs. cbn [fst snd].
    rewrite (rd_nth i (p_lin P) true) by (rewrite (ok_lin _ OK); exact HI). cbn [bind]. rewrite L.
    rewrite (rd_nth c (e_cl e) MInf) by (rewrite (en_cl _ _ EN); exact B2). cbn [bind].
    rewrite (rd_nth c (e_cu e) PInf) by (rewrite (en_cu _ _ EN); exact B2). cbn [bind].
    rewrite (rd_nth i (p_gl P) MInf) by (rewrite (ok_gl _ OK); exact HI). cbn [bind].
    rewrite (rd_nth i (p_gu P) PInf) by (rewrite (ok_gu _ OK); exact HI). cbn [bind].
    rewrite (rd_nth c x 0) by (rewrite LX; exact B2). cbn [bind]. reflexivity. }
  rewrite E. destruct (exs _ _ _ _ _ _ _ _ _); cbn [bind]; try reflexivity.
  apply IH. intros t It. apply B. right; exact It.
Qed.
Lemma exs_total tiny vt rl ru cl cu x es : forall s, exists s', foldM (exs tiny vt rl ru cl cu x) es s = Ok s'.
Proof.
  induction es as [|p es IH]; intros s; [eexists; reflexivity|]. cbn [foldM]. unfold exs at 1.
  destruct (clean_nnz _ _ _ _ _ _ _ _ _ _) as [[k l] u]. cbn [bind]. apply IH.
Qed.
Lemma row_bounds_total P e x i : nlp_ok P -> env_ok P e -> length x = p_n P -> (i < p_m P)%nat -> exists b, row_bounds P e x i b.
Proof.
  intros OK EN LX HI. unfold row_bounds. destruct (nth i (p_lin P) true) eqn:L.
  - eexists. apply (ex_fold_lin P e x i); try assumption. intros t It. apply filter_In in It. destruct It as [_ S].
    apply Nat.eqb_eq in S. exact S.
  - rewrite (ex_fold_nl P e x i _ OK EN LX HI L); [apply exs_total|].
    intros t It. apply filter_In in It. destruct It as [It S]. apply Nat.eqb_eq in S. split; [exact S|].
    apply (triplets_range P x t OK It).
Qed.
Lemma nth_map_seq {A} (f : nat -> A) m i d : (i < m)%nat -> nth i (map f (seq 0 m)) d = f i.
Proof.
  intros H. rewrite (nth_indep _ d (f 0%nat)) by (rewrite map_length, seq_length; exact H).
  rewrite map_nth, seq_nth by exact H. reflexivity.
Qed.
(** The relaxation without objective, in full. *)
Lemma extract_spec P e x : nlp_ok P -> env_ok P e -> length x = p_n P ->
  exists bds, length bds = p_m P /\ (forall i, (i < p_m P)%nat -> row_bounds P e x i (nth i bds (MInf, PInf))) /\
    let k := length (kept_rows P e) in
    let rows := map (mat_row (triplets P x)) (kept_rows P e) in
    let lo := firstn k (map fst bds) in
    let up := map (relax_ub (e_relax e)) (firstn k (map snd bds)) in
    extractLinearRelaxation P e x false = Ok (mkLp rows lo up (e_cl e) (e_cu e) (p_int P) (repeat 0 (p_n P)) 0) /\
    extractLinearRelaxation P e x true =
      if e_linobj e then Ok (mkLp rows lo up (e_cl e) (e_cu e) (p_int P) (p_gf P x) (p_f P (repeat 0 (p_n P))))
      else addObjectiveFunction P e x (mkLp rows lo up (e_cl e) (e_cu e) (p_int P) (repeat 0 (p_n P)) 0).
Proof.
  intros OK EN LX. pose proof (ok_lin _ OK) as LL.
  pose proof (ex_inits_spec (p_lin P) (p_gl P) (p_gu P) (p_g P x) (e_duals e)) as IN. rewrite !LL in IN.
  specialize (IN (ok_gl _ OK) (ok_gu _ OK) (ok_g _ OK x LX) (en_du _ _ EN)).
  set (f := fun i => ex_init (nth i (p_lin P) true) (nth i (p_gl P) MInf) (nth i (p_gu P) PInf) (nth i (p_g P x) 0) (nth i (e_duals e) 0)) in IN.
  assert (HS : forall i, filter (hits ex_key i) (triplets P x) = filter (row_sel i) (triplets P x)).
  { intros i. apply filter_ext. intros t. reflexivity. }
  assert (LM : length (map snd (map f (seq 0 (p_m P)))) = p_m P) by (rewrite !map_length, seq_length; reflexivity).
  assert (NTH : forall i, (i < p_m P)%nat -> nth i (map snd (map f (seq 0 (p_m P)))) (MInf, PInf) = snd (f i)).
  { intros i Hi. rewrite map_map. rewrite (nth_map_seq (fun i => snd (f i)) (p_m P) i (MInf, PInf) Hi). reflexivity. }
  destruct (cell_loop_total ex_key (ex_step P e x) (MInf, PInf) (triplets P x) (map snd (map f (seq 0 (p_m P))))) as (bds & EB).
  { intros t It. eexists. split; [reflexivity|]. rewrite LM. apply (triplets_range P x t OK It). }
  { intros i Hi. rewrite LM in Hi. rewrite HS, (NTH i Hi). apply (row_bounds_total P e x i OK EN LX Hi). }
  destruct (cell_loop_inv ex_key (ex_step P e x) (MInf, PInf) _ _ _ EB) as [LB F]. rewrite LM in LB, F.
  exists bds. split; [exact LB|]. split.
  { intros i Hi. specialize (F i Hi). rewrite HS, (NTH i Hi) in F. exact F. }
  assert (DR : delete_rows (map fst (map f (seq 0 (p_m P)))) (map (mat_row (triplets P x)) (seq 0 (p_m P))) =
               map (mat_row (triplets P x)) (kept_rows P e)).
  { rewrite map_map. rewrite delete_rows_map. unfold kept_rows. f_equal. apply filter_ext. intros i. f_equal.
    unfold f. apply (ex_flag P e i). }
  cbv zeta. unfold extractLinearRelaxation. rewrite IN. cbn [bind]. rewrite EB. cbn [bind]. rewrite DR.
  cbv zeta. rewrite map_length. split; [reflexivity|]. destruct (e_linobj e); reflexivity.
Qed.

(** ** Matrix rows *)
Lemma rowdot_entries P x i y : nlp_ok P -> rowdot P x i y == lhs (row_entries P x i) y.
Proof.
  intros OK. unfold rowdot, dense, row_entries, lhs. apply (dense_sum (p_n P) (p_off P) _ i (fun j => nth j y 0)).
  intros p Hp. apply (combine_col P x p OK) in Hp. lia.
Qed.
Lemma mat_row_own P x i : nlp_ok P -> own_row P x i (mat_row (triplets P x) i).
Proof.
  intros OK y LY. rewrite (rowdot_entries P x i y OK). rewrite <- (sel_entries P x i OK). reflexivity.
Qed.
Lemma row_bounds_lin P e x i b : nlp_ok P -> (i < p_m P)%nat -> nth i (p_lin P) true = true -> row_bounds P e x i b ->
  b = (glow P i, gup P i).
Proof.
  intros OK HI L H. unfold row_bounds in H. rewrite (ex_fold_lin P e x i _ _ OK HI L) in H.
  - injection H as <-. rewrite L. reflexivity.
  - intros t It. apply filter_In in It. destruct It as [_ S]. apply Nat.eqb_eq in S. exact S.
Qed.
Lemma row_bounds_nl P e x i b y : nlp_ok P -> env_ok P e -> length x = p_n P -> (i < p_m P)%nat ->
  nth i (p_lin P) true = false -> skipped P e i = false -> row_bounds P e x i b ->
  let es := row_entries P x i in
  let K := qsum (map (kterm (e_tiny e) (e_vtiny e) (glow P i) (gup P i) (e_cl e) (e_cu e) x y) es) in
  let D := dsum (e_tiny e) (e_vtiny e) (glow P i) (gup P i) (e_cl e) (e_cu e) x y es in
  ((uses_up P e i /\ shifted (eadd (gup P i) (- gi P i x + ex_eps)) (snd b) (K - D)) \/ (~ uses_up P e i /\ snd b = PInf)) /\
  ((uses_lo P e i /\ shifted (eadd (glow P i) (- gi P i x - ex_eps)) (fst b) (K - D)) \/ (~ uses_lo P e i /\ fst b = MInf)).
Proof.
  intros OK EN LX HI L SK H es K D. unfold row_bounds in H. rewrite L in H.
  rewrite (ex_fold_nl P e x i _ OK EN LX HI L) in H.
  2:{ intros t It. apply filter_In in It. destruct It as [It S]. apply Nat.eqb_eq in S. split; [exact S|].
      apply (triplets_range P x t OK It). }
  rewrite (sel_entries P x i OK) in H. fold es in H.
  pose proof (ex_up P e i (gi P i x) L SK) as EU. pose proof (ex_lo P e i (gi P i x) L SK) as EL. cbv zeta in EU, EL.
  destruct (snd (ex_init false (glow P i) (gup P i) (gi P i x) (nth i (e_duals e) 0))) as [lo up]. cbn [fst snd] in EU, EL.
  destruct (exs_fold (e_tiny e) (e_vtiny e) (glow P i) (gup P i) (e_cl e) (e_cu e) x y es lo up) as (lo' & up' & E & SU & SL).
  { intros U. destruct EU as [[[A _] _]|[_ ->]]; [|reflexivity]. destruct (gup P i); try discriminate; congruence. }
  { intros U. destruct EL as [[[A _] _]|[_ ->]]; [|reflexivity]. destruct (glow P i); try discriminate; congruence. }
  rewrite E in H. injection H as <-. cbn [fst snd]. split.
  - destruct EU as [[U ->]|[U ->]]; [left; split; [exact U|exact SU]|right; split; [exact U|]]. exact SU.
  - destruct EL as [[U ->]|[U ->]]; [left; split; [exact U|exact SL]|right; split; [exact U|]]. exact SL.
Qed.
Lemma row_bounds_own P e x i b : nlp_ok P -> env_ok P e -> length x = p_n P -> (i < p_m P)%nat ->
  skipped P e i = false -> row_bounds P e x i b -> own_bounds P e x i (fst b) (relax_ub (e_relax e) (snd b)).
Proof.
  intros OK EN LX HI SK H. unfold own_bounds. destruct (nth i (p_lin P) true) eqn:L.
  - rewrite (row_bounds_lin P e x i b OK HI L H). cbn [fst snd]. split; reflexivity.
  - intros NS R y LY. destruct (row_bounds_nl P e x i b y OK EN LX HI L SK H) as [HU HL].
    assert (DE : dsum (e_tiny e) (e_vtiny e) (glow P i) (gup P i) (e_cl e) (e_cu e) x y (row_entries P x i) == rowlin P x i y).
    { rewrite (rowlin_entries P x i y OK). unfold dsum. apply qsum_ext. intros [c v] I. cbn [fst snd].
      destruct (in_entries P x i c v OK I) as (c' & I'). apply NS in I'. unfold corner.
      apply Qleb_le in I'. rewrite I'. reflexivity. }
    assert (KE : qsum (map (kterm (e_tiny e) (e_vtiny e) (glow P i) (gup P i) (e_cl e) (e_cu e) x y) (row_entries P x i)) == rowdot P x i y).
    { rewrite (rowdot_entries P x i y OK). unfold lhs. apply qsum_ext. intros [c v] I.
      destruct (in_entries P x i c v OK I) as (c' & I'). apply NS in I'. rewrite kterm_large by exact I'. reflexivity. }
    set (K := qsum (map (kterm _ _ _ _ _ _ _ _) _)) in *. set (D := dsum _ _ _ _ _ _ _ _ _) in *.
    split; [|split; [|split]].
    + intros US. destruct HU as [[_ S]|[N _]]; [|contradiction]. rewrite (relax_zero _ _ _ R).
      rewrite (shifted_up _ _ _ (rowdot P x i y) D S) by (rewrite KE; ring).
      rewrite !up_ok_eadd. apply up_ok_eq. rewrite DE. ring.
    + intros US. destruct HL as [[_ S]|[N _]]; [|contradiction].
      rewrite (shifted_lo _ _ _ (rowdot P x i y) D S) by (rewrite KE; ring).
      rewrite !lo_ok_eadd. apply lo_ok_eq. rewrite DE. ring.
    + intros US. destruct HU as [[U _]|[_ ->]]; [contradiction|reflexivity].
    + intros US. destruct HL as [[U _]|[_ ->]]; [contradiction|reflexivity].
Qed.
(** Validity of one row for points of a box containing 0. *)
Lemma row_bounds_valid P e x i b y : nlp_ok P -> env_ok P e -> length x = p_n P -> (i < p_m P)%nat ->
  nth i (p_lin P) true = false -> skipped P e i = false -> row_bounds P e x i b ->
  zero_in_box e \/ no_small P (e_tiny e) x i -> row_ok P i y -> curved P e x i y ->
  let s := qsum (map (fun en => if Qltb (Qabs (snd en)) (e_vtiny e) then Qabs (snd en) * Qabs (nth (fst en) x 0) else 0) (row_entries P x i)) in
  lo_ok (fst b) (rowdot P x i y + s) /\ up_ok (relax_ub (e_relax e) (snd b)) (rowdot P x i y - s).
Proof.
  intros OK EN LX HI L SK H ZN [RL RU] [CU CL] s.
  destruct (row_bounds_nl P e x i b y OK EN LX HI L SK H) as [HU HL].
  pose proof (rowdot_entries P x i y OK) as RD. pose proof (rowlin_entries P x i y OK) as RE.
  assert (ZB : zero_in_box e -> forall p, In p (row_entries P x i) -> lo_ok (nth (fst p) (e_cl e) MInf) 0 /\ up_ok (nth (fst p) (e_cu e) PInf) 0).
  { intros [Z1 Z2] [c v] I. apply (entries_col P x i c v OK) in I. cbn [fst]. rewrite Forall_forall in Z1, Z2.
    split; [apply Z1|apply Z2]; apply nth_In; [rewrite (en_cl _ _ EN)|rewrite (en_cu _ _ EN)]; exact I. }
  assert (SE : s == qsum (map (zneg (e_vtiny e) x) (row_entries P x i))) by reflexivity.
  set (K := qsum (map (kterm _ _ _ _ _ _ _ _) _)) in *. set (D := dsum _ _ _ _ _ _ _ _ _) in *. clearbody s.
  assert (S0 : 0 <= s).
  { rewrite SE. apply qsum_nonneg. intros p _. unfold zneg. destruct (Qltb _ _); [|lra]. apply Qmult_le_0_compat; apply Qabs_nonneg. }
  assert (LARGE : no_small P (e_tiny e) x i -> K == rowdot P x i y /\ D == rowlin P x i y).
  { intros NS. split.
    - rewrite RD. unfold K, lhs. apply qsum_ext. intros [c v] I.
      destruct (in_entries P x i c v OK I) as (c' & I'). apply NS in I'. rewrite kterm_large by exact I'. reflexivity.
    - rewrite RE. unfold D, dsum. apply qsum_ext. intros [c v] I. cbn [fst snd].
      destruct (in_entries P x i c v OK I) as (c' & I'). apply NS in I'. unfold corner.
      apply Qleb_le in I'. rewrite I'. reflexivity. }
  assert (EXP : forall F1 F2 F3 : nat * Q -> Q, forall l, qsum (map F1 l) - qsum (map F2 l) + qsum (map F3 l) == qsum (map (fun p => F1 p - F2 p + F3 p) l)).
  { intros F1 F2 F3. induction l as [|p l IH]; cbn [map qsum]; [ring|]. rewrite <- IH. ring. }
  pose (F1 := fun p : nat * Q => snd p * nth (fst p) y 0).
  pose (F2 := kterm (e_tiny e) (e_vtiny e) (glow P i) (gup P i) (e_cl e) (e_cu e) x y).
  pose (F3 := fun p => snd p * (corner (e_tiny e) (e_vtiny e) (glow P i) (gup P i) (e_cl e) (e_cu e) x y p - nth (fst p) x 0)).
  split.
  - destruct HL as [[US S]|[_ ->]]; [|exact Logic.I]. assert (G : gtm (glow P i) = true) by (destruct US as [A _]; destruct (glow P i); try reflexivity; congruence).
    assert (LE : rowlin P x i y <= rowdot P x i y - K + D + s).
    { destruct ZN as [Z|NS]; [|destruct (LARGE NS); lra]. rewrite RE, RD, SE. unfold lhs, K, D, dsum.
      assert (G2 : qsum (map (fun p => snd p * (nth (fst p) y 0 - nth (fst p) x 0)) (row_entries P x i)) <=
         qsum (map (fun p => (snd p * nth (fst p) y 0 - kterm (e_tiny e) (e_vtiny e) (glow P i) (gup P i) (e_cl e) (e_cu e) x y p +
            snd p * (corner (e_tiny e) (e_vtiny e) (glow P i) (gup P i) (e_cl e) (e_cu e) x y p - nth (fst p) x 0)) + zneg (e_vtiny e) x p) (row_entries P x i))).
      { apply qsum_le. intros p I. destruct (ZB Z p I) as [Z1 Z2].
        apply (left_lo (e_tiny e) (e_vtiny e) (glow P i) (gup P i) (e_cl e) (e_cu e) x y p G Z1 Z2). }
      rewrite qsum_add in G2. pose proof (EXP F1 F2 F3 (row_entries P x i)) as EX. unfold F1, F2, F3 in EX. lra. }
    specialize (CL US). unfold over in CL.
    rewrite (shifted_lo _ _ _ (rowdot P x i y + s) (rowdot P x i y + s - K + D) S) by ring.
    rewrite lo_ok_eadd. eapply lo_ok_le; [exact RL|]. assert (0 <= ex_eps) by discriminate. lra.
  - apply relax_ge; [apply (en_rel _ _ EN)|].
    destruct HU as [[US S]|[_ ->]]; [|exact Logic.I]. assert (G : ltp (gup P i) = true) by (destruct US as [A _]; destruct (gup P i); try reflexivity; congruence).
    assert (LE : rowdot P x i y - K + D - s <= rowlin P x i y).
    { destruct ZN as [Z|NS]; [|destruct (LARGE NS); lra]. rewrite RE, RD, SE. unfold lhs, K, D, dsum.
      assert (G2 : qsum (map (fun p => (snd p * nth (fst p) y 0 - kterm (e_tiny e) (e_vtiny e) (glow P i) (gup P i) (e_cl e) (e_cu e) x y p +
            snd p * (corner (e_tiny e) (e_vtiny e) (glow P i) (gup P i) (e_cl e) (e_cu e) x y p - nth (fst p) x 0))) (row_entries P x i)) <=
         qsum (map (fun p => snd p * (nth (fst p) y 0 - nth (fst p) x 0) + zneg (e_vtiny e) x p) (row_entries P x i))).
      { apply qsum_le. intros p I. destruct (ZB Z p I) as [Z1 Z2].
        pose proof (left_up (e_tiny e) (e_vtiny e) (glow P i) (gup P i) (e_cl e) (e_cu e) x y p G Z1 Z2). lra. }
      pose proof (qsum_add (fun p => snd p * (nth (fst p) y 0 - nth (fst p) x 0)) (zneg (e_vtiny e) x) (row_entries P x i)) as QA. cbv beta in QA. pose proof (EXP F1 F2 F3 (row_entries P x i)) as EX. unfold F1, F2, F3 in EX. lra. }
    specialize (CU US). unfold under in CU.
    rewrite (shifted_up _ _ _ (rowdot P x i y - s) (rowdot P x i y - s - K + D) S) by ring.
    rewrite up_ok_eadd. eapply up_ok_le; [exact RU|]. assert (0 <= ex_eps) by discriminate. lra.
Qed.
