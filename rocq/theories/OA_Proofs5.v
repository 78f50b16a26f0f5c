(** The linear relaxation as a whole, the rows of the quadratic code, and the
    effect of the log level. *)
From Verif Require Import Base Arr Nlp OA_Model OA_Spec OA_Proofs OA_Proofs2 OA_Proofs3 OA_Proofs4.
#[local] Open Scope Q_scope.

Lemma filter_prefix (f : nat -> bool) m k : forall o, (k < m)%nat -> (forall j, (o <= j <= o + k)%nat -> f j = true) ->
  (k < length (filter f (seq o m)))%nat /\ nth k (filter f (seq o m)) 0%nat = (o + k)%nat.
Proof.
  revert k. induction m as [|m IH]; intros k o H F; [lia|]. cbn [seq filter]. rewrite (F o) by lia.
  destruct k as [|k]; [cbn; lia|]. cbn [length nth].
  destruct (IH k (S o)) as [A B]; [lia|intros j Hj; apply F; lia|]. split; [lia|]. rewrite B. lia.
Qed.
Lemma kept_le P e : (length (kept_rows P e) <= p_m P)%nat.
Proof.
  unfold kept_rows. rewrite <- (seq_length (p_m P) 0) at 2. generalize (seq 0 (p_m P)). intros l.
  induction l as [|a l IH]; cbn; [lia|]. destruct (negb _); cbn; lia.
Qed.
Lemma nth_firstn {A} k n (l : list A) d : (k < n)%nat -> nth k (firstn n l) d = nth k l d.
Proof. revert n l; induction k as [|k IH]; intros [|n] [|a l] H; try lia; try reflexivity. cbn. apply IH. lia. Qed.

Theorem relaxation_rows P e x : nlp_ok P -> env_ok P e -> length x = p_n P ->
  exists L, extractLinearRelaxation P e x false = Ok L /\
    length (l_rows L) = length (kept_rows P e) /\
    l_cl L = e_cl e /\ l_cu L = e_cu e /\ l_int L = p_int P /\
    (forall k, (k < length (kept_rows P e))%nat ->
       own_row P x (nth k (kept_rows P e) 0%nat) (nth k (l_rows L) []) /\
       (skipped P e k = false -> own_bounds P e x k (nth k (l_lo L) MInf) (nth k (l_up L) PInf))) /\
    (forall k, (k < p_m P)%nat -> (forall j, (j <= k)%nat -> skipped P e j = false) ->
       own_row P x k (nth k (l_rows L) []) /\ own_bounds P e x k (nth k (l_lo L) MInf) (nth k (l_up L) PInf)).
Proof.
  intros OK EN LX. destruct (extract_spec P e x OK EN LX) as (bds & LB & RB & EF & _). rewrite EF.
  eexists. split; [reflexivity|]. cbn [l_rows l_lo l_up l_cl l_cu l_int]. split; [apply map_length|].
  do 3 (split; [reflexivity|]).
  assert (ROW : forall k, (k < length (kept_rows P e))%nat ->
     own_row P x (nth k (kept_rows P e) 0%nat) (nth k (map (mat_row (triplets P x)) (kept_rows P e)) [])).
  { intros k Hk. rewrite (nth_indep _ [] (mat_row (triplets P x) 0%nat)) by (rewrite map_length; exact Hk).
    rewrite map_nth. apply mat_row_own, OK. }
  assert (BND : forall k, (k < length (kept_rows P e))%nat -> skipped P e k = false -> own_bounds P e x k
     (nth k (firstn (length (kept_rows P e)) (map fst bds)) MInf)
     (nth k (map (relax_ub (e_relax e)) (firstn (length (kept_rows P e)) (map snd bds))) PInf)).
  { intros k Hk SK. pose proof (kept_le P e). specialize (RB k ltac:(lia)).
    change PInf with (relax_ub (e_relax e) PInf) at 1. rewrite map_nth, !nth_firstn by exact Hk.
    change MInf with (fst (MInf, PInf)) at 1. change PInf with (snd (MInf, PInf)) at 2. rewrite !map_nth.
    apply (row_bounds_own P e x k _ OK EN LX ltac:(lia) SK RB). }
  split; [intros k Hk; split; [apply ROW, Hk|intros SK; apply BND; assumption]|].
  intros k Hk NS. destruct (filter_prefix (fun i => negb (skipped P e i)) (p_m P) k 0 Hk) as [A B].
  { intros j Hj. rewrite NS by lia. reflexivity. }
  fold (kept_rows P e) in A, B. cbn [plus] in B. specialize (ROW k A). rewrite B in ROW. split; [exact ROW|].
  apply BND; [exact A|apply NS; lia].
Qed.

(** ** C58 *)
Lemma kept_all P e : (forall i, (i < p_m P)%nat -> skipped P e i = false) -> kept_rows P e = seq 0 (p_m P).
Proof.
  intros H. unfold kept_rows. assert (F : forall i, In i (seq 0 (p_m P)) -> skipped P e i = false) by (intros i I; apply in_seq in I; apply H; lia).
  induction (seq 0 (p_m P)) as [|a l IH]; [reflexivity|]. cbn. rewrite (F a (or_introl eq_refl)). cbn [negb].
  rewrite IH; [reflexivity|]. intros i I. apply F. right; exact I.
Qed.
Lemma dot_ones y a : dot (repeat 0 (length y) ++ [1]) (y ++ [a]) == a.
Proof. unfold dot. induction y as [|b y IH]; cbn [length repeat app combine map qsum fst snd]; [ring|]. rewrite IH. ring. Qed.
Lemma lhs_mat P x i y a : nlp_ok P -> length y = p_n P -> lhs (mat_row (triplets P x) i) (y ++ a) == rowdot P x i y.
Proof.
  intros OK LY. rewrite <- (mat_row_own P x i OK y LY). apply lhs_ext. intros p I.
  assert (I' : In p (row_entries P x i)) by (rewrite <- (sel_entries P x i OK); exact I).
  destruct p as [c v]. apply (entries_col P x i c v OK) in I'. cbn [fst]. apply app_nth1. lia.
Qed.
Lemma box_len ls us y : in_bounds ls us y -> length y = length ls.
Proof. intros [H _]. induction H; cbn; congruence. Qed.

Theorem relaxation_contains P e x : nlp_ok P -> env_ok P e -> length x = p_n P ->
  (forall i, (i < p_m P)%nat -> skipped P e i = false) ->
  (zero_in_box e \/ forall i, In i (nonlinear_rows P) -> no_small P (e_tiny e) x i) ->
  exists L, extractLinearRelaxation P e x true = Ok L /\ relaxes P e x (lp_slop P e x) L.
Proof.
  intros OK EN LX NSK ZN. destruct (extract_spec P e x OK EN LX) as (bds & LB & RB & _ & ET).
  rewrite (kept_all P e NSK) in ET. rewrite seq_length in ET. cbv zeta in ET.
  assert (ROWS : forall y a, in_bounds (e_cl e) (e_cu e) y -> (forall i, (i < p_m P)%nat -> row_ok P i y) -> relaxable P e x y ->
    forall k, (k < p_m P)%nat -> holds (lp_slop P e x y k) (nth k (map (mat_row (triplets P x)) (seq 0 (p_m P))) [])
      (nth k (firstn (p_m P) (map fst bds)) MInf) (nth k (map (relax_ub (e_relax e)) (firstn (p_m P) (map snd bds))) PInf) (y ++ a)).
  { intros y a BOX RO [RLI [RNL _]] k Hk. pose proof (box_len _ _ _ BOX) as LY. rewrite (en_cl _ _ EN) in LY.
    change PInf with (relax_ub (e_relax e) PInf) at 1. rewrite map_nth, !nth_firstn by exact Hk.
    change MInf with (fst (MInf, PInf)) at 1. change PInf with (snd (MInf, PInf)) at 2. rewrite !map_nth.
    rewrite nth_map_seq by exact Hk. unfold holds. pose proof (lhs_mat P x k y a OK LY) as LM.
    specialize (RB k Hk). unfold lp_slop. apply Nat.ltb_lt in Hk. rewrite Hk. apply Nat.ltb_lt in Hk.
    destruct (nth k (p_lin P) true) eqn:LI.
    - rewrite (row_bounds_lin P e x k _ OK Hk LI RB). cbn [fst snd]. destruct (RO k Hk) as [R1 R2]. specialize (RLI k Hk LI).
      split; [|apply relax_ge; [apply (en_rel _ _ EN)|]].
      + eapply lo_ok_le; [exact R1|]. lra.
      + eapply up_ok_le; [exact R2|]. lra.
    - assert (Z : zero_in_box e \/ no_small P (e_tiny e) x k).
      { destruct ZN as [Z|NS]; [left; exact Z|right; apply NS]. apply filter_In. split; [apply in_seq; lia|]. rewrite LI. reflexivity. }
      destruct (row_bounds_valid P e x k _ y OK EN LX Hk LI (NSK k Hk) RB Z (RO k Hk) (RNL k Hk LI)) as [A B].
      split; [eapply lo_ok_le; [exact A|]|eapply up_ok_le; [exact B|]]; lra. }
  assert (LR : length (map (mat_row (triplets P x)) (seq 0 (p_m P))) = p_m P) by (rewrite map_length; apply seq_length).
  assert (LF : length (firstn (p_m P) (map fst bds)) = p_m P) by (rewrite firstn_length, map_length; lia).
  assert (LU : length (map (relax_ub (e_relax e)) (firstn (p_m P) (map snd bds))) = p_m P)
    by (rewrite map_length, firstn_length, map_length; lia).
  destruct (e_linobj e) eqn:LO.
  - rewrite ET. eexists. split; [reflexivity|]. intros y BOX RO RX. exists y.
    pose proof (box_len _ _ _ BOX) as LY. rewrite (en_cl _ _ EN) in LY.
    split; [rewrite <- LY; apply firstn_all|]. split.
    + split; [exact BOX|]. cbn [l_rows l_lo l_up]. rewrite LR. intros k Hk.
      pose proof (ROWS y [] BOX RO RX k Hk) as R. rewrite app_nil_r in R. exact R.
    + destruct RX as [_ [_ RX]]. rewrite LO in RX. unfold lp_value. cbn [l_obj l_const]. lra.
  - unfold addObjectiveFunction in ET. cbn [l_rows l_lo l_up l_cl l_cu l_int l_obj l_const] in ET. rewrite LR in ET.
    destruct (obj_run P e x (if Nat.eqb (p_m P) 0 then un_tiny else e_tiny e) (if Nat.eqb (p_m P) 0 then un_vtiny else e_vtiny e) MInf OK EN LX)
      as (s & row & E1 & E2 & _ & _ & LBM).
    rewrite E1 in ET. cbn [bind] in ET. rewrite E2 in ET. cbn [bind] in ET. rewrite ET.
    eexists. split; [reflexivity|]. intros y BOX RO RX. exists (y ++ [p_f P y]).
    pose proof (box_len _ _ _ BOX) as LY. rewrite (en_cl _ _ EN) in LY.
    split; [rewrite <- LY; rewrite firstn_app, firstn_all, Nat.sub_diag; apply app_nil_r|]. split.
    + split; [split; apply Forall2_app; try apply BOX; repeat constructor|]. cbn [l_rows l_lo l_up].
      rewrite app_length, LR. cbn [length]. intros k Hk.
      destruct (Nat.ltb_spec k (p_m P)) as [H|H].
      * rewrite !app_nth1 by lia. apply (ROWS y _ BOX RO RX k H).
      * assert (k = p_m P) by lia. subst k.
        rewrite !app_nth2 by lia. rewrite LR, LF, LU, Nat.sub_diag. cbn [nth]. rewrite (LBM eq_refl).
        unfold lp_slop. rewrite Nat.ltb_irrefl.
        destruct (obj_valid P e x _ _ MInf s row OK EN LX E1 E2) as [V _]. apply V; [exact BOX| |lra].
        destruct RX as [_ [_ RX]]. rewrite LO in RX. exact RX.
    + unfold lp_value. cbn [l_obj l_const]. rewrite <- LY. rewrite dot_ones. lra.
Qed.

(** ** Rows of the quadratic code *)
Lemma q_inits_spec gl : forall gu g, length gu = length gl -> length g = length gl ->
  q_inits gl gu g = Ok (map (fun i => q_init (nth i gl MInf) (nth i gu PInf) (nth i g 0)) (seq 0 (length gl))).
Proof.
  induction gl as [|rl gl IH]; intros gu g L1 L2.
  - destruct gu; [|discriminate]. destruct g; [|discriminate]. reflexivity.
  - destruct gu as [|ru gu]; [discriminate|]. destruct g as [|gi g]; [discriminate|].
    cbn [q_inits length seq map nth]. rewrite IH by (cbn in *; lia). cbn [bind]. rewrite <- seq_shift, map_map. reflexivity.
Qed.
Lemma q_fold_nl P tiny vt x i ts : nlp_ok P -> length x = p_n P -> (i < p_m P)%nat -> nth i (p_lin P) true = false ->
  (forall t, In t ts -> fst (fst t) = i /\ (snd (fst t) < p_n P)%nat) -> forall row lo up,
  exists lo' up', foldM (q_step P tiny vt x) ts (row, (lo, up)) =
    Ok (row ++ map (fun t => (snd (fst t), snd t)) ts, (lo', up')) /\
    shifted lo lo' (lhs (map (fun t => (snd (fst t), snd t)) ts) x) /\
    shifted up up' (lhs (map (fun t => (snd (fst t), snd t)) ts) x).
Proof.
  intros OK LX HI L. induction ts as [|[[r c] v] ts IH]; intros B row lo up.
  - exists lo, up. cbn [foldM map]. rewrite app_nil_r. split; [reflexivity|]. unfold lhs. cbn. split; apply shifted_refl; ring.
  - destruct (B _ (or_introl eq_refl)) as [B0 B2]. cbn [fst snd] in B0, B2. subst r. cbn [foldM map fst snd]. unfold q_step at 1.
    rewrite (rd_nth i (p_lin P) true) by (rewrite (ok_lin _ OK); exact HI). cbn [bind].
    rewrite (rd_nth c x 0) by (rewrite LX; exact B2). cbn [bind]. rewrite L.
    cbn [bind]. destruct (IH (fun t It => B t (or_intror It)) (row ++ [(c, v)]) (eadd lo (v * nth c x 0)) (eadd up (v * nth c x 0)))
      as (lo' & up' & E & S1 & S2).
    exists lo', up'. split; [etransitivity; [exact E|]; rewrite <- app_assoc; reflexivity|].
    unfold lhs in *. cbn [map qsum fst snd].
    split; [eapply shifted_trans; [apply shifted_eadd; reflexivity|exact S1|]|eapply shifted_trans; [apply shifted_eadd; reflexivity|exact S2|]]; ring.
Qed.
Lemma q_fold_total P tiny vt x i ts : nlp_ok P -> length x = p_n P -> (i < p_m P)%nat ->
  (forall t, In t ts -> fst (fst t) = i /\ (snd (fst t) < p_n P)%nat) -> forall s,
  exists s', foldM (q_step P tiny vt x) ts s = Ok s'.
Proof.
  intros OK LX HI. induction ts as [|[[r c] v] ts IH]; intros B s; [eexists; reflexivity|].
  destruct (B _ (or_introl eq_refl)) as [B0 B2]. cbn [fst snd] in B0, B2. subst r. cbn [foldM]. destruct s as [row [lo up]]. unfold q_step at 1.
  rewrite (rd_nth i (p_lin P) true) by (rewrite (ok_lin _ OK); exact HI). cbn [bind].
  rewrite (rd_nth c x 0) by (rewrite LX; exact B2). cbn [bind].
  rewrite (rd_nth c (p_xl P) MInf) by (rewrite (ok_xl _ OK); exact B2). cbn [bind].
  rewrite (rd_nth c (p_xu P) PInf) by (rewrite (ok_xu _ OK); exact B2). cbn [bind].
  destruct (nth i (p_lin P) true); [destruct (q_clean _ _ _ _ _ _ _ _ _ _) as [[[k v'] a] b]; destruct k|];
    cbn [bind]; apply IH; intros t It; apply B; right; exact It.
Qed.
Theorem q_rows_exact P tiny vt x : nlp_ok P -> length x = p_n P ->
  exists rs, q_rows P tiny vt x = Ok rs /\ length rs = p_m P /\
    forall i, In i (nonlinear_rows P) -> q_exact P x i (nth i rs ([], (MInf, PInf))).
Proof.
  intros OK LX. unfold q_rows.
  pose proof (q_inits_spec (p_gl P) (p_gu P) (p_g P x)) as IN. rewrite !(ok_gl _ OK) in IN.
  rewrite IN; [|apply (ok_gu _ OK)|apply (ok_g _ OK x LX)]. cbn [bind]. rewrite map_map.
  set (f := fun i => ([] : pvec, q_init (nth i (p_gl P) MInf) (nth i (p_gu P) PInf) (nth i (p_g P x) 0))).
  assert (RT : forall i t, In t (filter (row_sel i) (triplets P x)) -> fst (fst t) = i /\ (snd (fst t) < p_n P)%nat).
  { intros i t It. apply filter_In in It. destruct It as [It S]. apply Nat.eqb_eq in S. split; [exact S|].
    apply (triplets_range P x t OK It). }
  assert (HS : forall i, filter (hits ex_key i) (triplets P x) = filter (row_sel i) (triplets P x)).
  { intros i. apply filter_ext. intros t. reflexivity. }
  destruct (cell_loop_total ex_key (q_step P tiny vt x) ([], (MInf, PInf)) (triplets P x) (map f (seq 0 (p_m P)))) as (rs & E).
  { intros t It. eexists. split; [reflexivity|]. rewrite map_length, seq_length. apply (triplets_range P x t OK It). }
  { intros i Hi. rewrite map_length, seq_length in Hi. rewrite HS. apply (q_fold_total P tiny vt x i _ OK LX Hi (RT i)). }
  exists rs. split; [exact E|]. destruct (cell_loop_inv ex_key (q_step P tiny vt x) ([], (MInf, PInf)) _ _ _ E) as [LR F].
  rewrite map_length, seq_length in LR, F. split; [exact LR|]. intros i Hi.
  apply filter_In in Hi. destruct Hi as [Hi NL]. apply in_seq in Hi. assert (Him : (i < p_m P)%nat) by lia.
  apply negb_true_iff in NL. specialize (F i Him). rewrite HS, nth_map_seq in F by exact Him. unfold f in F.
  destruct (q_fold_nl P tiny vt x i _ OK LX Him NL (RT i) [] (fst (q_init (glow P i) (gup P i) (gi P i x))) (snd (q_init (glow P i) (gup P i) (gi P i x))))
    as (lo & up & E2 & S1 & S2).
  assert (FE : Ok (nth i rs ([], (MInf, PInf))) = Ok ([] ++ map (fun t => (snd (fst t), snd t)) (filter (row_sel i) (triplets P x)), (lo, up)))
    by (rewrite <- F; exact E2).
  injection FE as ->. clear E2 F. rewrite (sel_entries P x i OK) in S1, S2 |- *.
  intros y LY. cbn [fst snd app]. split; [symmetry; apply rowdot_entries, OK|].
  unfold q_init in S1, S2. cbn [fst snd] in S1, S2.
  assert (RE : rowlin P x i y == lhs (row_entries P x i) y - lhs (row_entries P x i) x).
  { rewrite (rowlin_entries P x i y OK). unfold lhs. generalize (row_entries P x i). intros l.
    induction l as [|p l IH]; cbn [map qsum]; [ring|]. rewrite IH. ring. }
  split.
  - rewrite (shifted_up _ _ _ (lhs (row_entries P x i) y) (lhs (row_entries P x i) y - lhs (row_entries P x i) x) S2) by ring.
    rewrite !up_ok_eadd. apply up_ok_eq. rewrite RE. ring.
  - rewrite (shifted_lo _ _ _ (lhs (row_entries P x i) y) (lhs (row_entries P x i) y - lhs (row_entries P x i) x) S1) by ring.
    rewrite !lo_ok_eadd. apply lo_ok_eq. rewrite RE. ring.
Qed.

(** ** Log level *)
Lemma oa_rows_level P e x k : oa_rows P (at_level e k) x = oa_rows P e x.
Proof. reflexivity. Qed.
Lemma obj_loop_level tiny vt gf e x k : forall i s, obj_loop tiny vt i gf (at_level e k) x s = obj_loop tiny vt i gf e x s.
Proof.
  induction gf as [|v gf IH]; intros i s; [reflexivity|]. cbn [obj_loop at_level e_cl e_cu].
  destruct (rd i (e_cl e)); cbn [bind]; try reflexivity. destruct (rd i (e_cu e)); cbn [bind]; try reflexivity.
  destruct (rd i x); cbn [bind]; try reflexivity. destruct (oa_coef _ _ _ _ _ _ _ _ _ _); cbn [bind]; try reflexivity.
  apply IH.
Qed.
Lemma oa_obj_level P e x go x2 th k : oa_obj P (at_level e k) x go x2 th = oa_obj P e x go x2 th.
Proof. unfold oa_obj, obj_cut. cbn [at_level e_linobj e_tiny]. rewrite obj_loop_level. reflexivity. Qed.
Lemma filter_level e x2 th ss k1 k2 : (k1 = 0 <-> k2 = 0)%nat \/ x2 = None ->
  oa_filter (at_level e k1) x2 th ss = oa_filter (at_level e k2) x2 th ss.
Proof.
  intros H. induction ss as [|s ss IH]; [reflexivity|]. cbn [oa_filter at_level e_level]. rewrite IH.
  destruct x2 as [y|]; [|reflexivity]. destruct H as [H|H]; [|discriminate].
  assert (E : Nat.ltb 0 k1 = Nat.ltb 0 k2) by (destruct k1, k2; try reflexivity; lia). rewrite E. reflexivity.
Qed.
Lemma filter_quiet e x2 th ss cs : oa_filter (at_level e 0) x2 th ss = Ok cs -> cs = map (oa_finish e) ss.
Proof.
  revert cs. induction ss as [|s ss IH]; intros cs H; cbn [oa_filter] in H; [injection H as <-; reflexivity|].
  apply bind_ok in H. destruct H as (sk & E & H). apply bind_ok in H. destruct H as (r & E2 & H). injection H as <-.
  assert (sk = false). { destruct x2; [apply bind_ok in E; destruct E as (q & _ & E); injection E as <-; apply andb_false_r|injection E as <-; reflexivity]. }
  subst sk. rewrite (IH _ E2). reflexivity.
Qed.
Lemma sub_refl {A} (l : list A) : sublist l l.
Proof. induction l; constructor; assumption. Qed.
Lemma sub_app {A} (l l' r : list A) : sublist l l' -> sublist (l ++ r) (l' ++ r).
Proof.
  intros H. induction H; cbn [app]; [|constructor; assumption|constructor; assumption].
  induction l; cbn [app]; [apply sub_refl|constructor; assumption].
Qed.
Lemma filter_sublist e x2 th ss : forall cs, oa_filter e x2 th ss = Ok cs -> sublist cs (map (oa_finish e) ss).
Proof.
  induction ss as [|s ss IH]; intros cs H; cbn [oa_filter] in H; [injection H as <-; constructor|].
  apply bind_ok in H. destruct H as (sk & _ & H). apply bind_ok in H. destruct H as (r & E & H). injection H as <-.
  cbn [map]. destruct sk; constructor; apply IH, E.
Qed.
Theorem level_same P e x go x2 th k1 k2 : (k1 = 0 <-> k2 = 0)%nat \/ x2 = None ->
  getOuterApproximation P (at_level e k1) x go x2 th = getOuterApproximation P (at_level e k2) x go x2 th.
Proof.
  intros H. unfold getOuterApproximation. rewrite !oa_rows_level, !oa_obj_level.
  destruct (oa_rows P e x) as [ss| | | | | | |]; cbn [bind]; try reflexivity. rewrite (filter_level e x2 th ss k1 k2 H). reflexivity.
Qed.
Theorem level_sub P e x go x2 th k cs cs0 :
  getOuterApproximation P (at_level e k) x go x2 th = Ok cs ->
  getOuterApproximation P (at_level e 0) x go x2 th = Ok cs0 -> sublist cs cs0.
Proof.
  unfold getOuterApproximation. rewrite !oa_rows_level, !oa_obj_level. intros H H0.
  apply bind_ok in H. destruct H as (ss & E & H). rewrite E in H0. cbn [bind] in H0.
  apply bind_ok in H. destruct H as (c1 & E1 & H). apply bind_ok in H. destruct H as (os & E2 & H). injection H as <-.
  apply bind_ok in H0. destruct H0 as (c0 & E0 & H0). rewrite E2 in H0. cbn [bind] in H0. injection H0 as <-.
  apply sub_app. rewrite (filter_quiet _ _ _ _ _ E0). apply (filter_sublist _ _ _ _ _ E1).
Qed.
