(** Proofs about the interface seen as an Osi solver. *)
From Verif Require Import Base Arr Nlp Prob_Model Prob_Spec Prob_Proofs Acc_Model Acc_Spec.
#[local] Open Scope Q_scope.

(** ** The invariant *)
Definition cached (s : itf) : Prop :=
  (i_sense s = None /\ i_rhs s = None /\ i_rng s = None) \/
  (b_gl (i_p s) <> [] /\
   let t := senses (b_gl (i_p s)) (b_gu (i_p s)) in
   i_sense s = Some (map (fun x => fst (fst x)) t) /\
   i_rhs s = Some (map (fun x => snd (fst x)) t) /\ i_rng s = Some (map snd t)).
Lemma extract_ok s : i_sense s = None -> i_rhs s = None -> i_rng s = None ->
  exists s', extract s = Ok s' /\ i_p s' = i_p s /\ i_opt s' = i_opt s /\ cached s' /\
    (b_gl (i_p s) <> [] -> i_sense s' <> None /\ i_rhs s' <> None /\ i_rng s' <> None) /\
    (b_gl (i_p s) = [] -> s' = s).
Proof.
  intros A B C. unfold extract. rewrite A, B, C. unfold num_constraints.
  destruct (b_gl (i_p s)) as [|l gl] eqn:G; cbn [length Nat.eqb].
  - exists s. repeat split; auto; try congruence. left. auto.
  - eexists. split; [reflexivity|]. cbn [i_p i_opt i_sense i_rhs i_rng]. repeat split; auto; try discriminate.
    right. cbn [i_p i_sense i_rhs i_rng]. rewrite G. split; [discriminate|]. auto.
Qed.
Lemma sense_step s : cached s -> exists o s', getRowSense s = Ok (o, s') /\ i_p s' = i_p s /\ i_opt s' = i_opt s /\
  cached s' /\ o = i_sense s' /\ (b_gl (i_p s) = [] -> o = None) /\ (b_gl (i_p s) <> [] -> o <> None).
Proof.
  intros [(A & B & C)|S]; unfold getRowSense.
  - rewrite A. destruct (extract_ok s A B C) as (s' & E & P & O & K & N & Z). rewrite E. cbn [bind].
    eexists _, s'. split; [reflexivity|]. repeat split; auto; [intros G; rewrite (Z G); exact A|]. intros G. apply (N G).
  - pose proof S as (G & S1 & S2 & S3). rewrite S1. cbn [bind]. rewrite S1. eexists _, s. split; [reflexivity|]. repeat split; auto.
    + right. exact S.
    + intros; contradiction.
    + discriminate.
Qed.
Lemma rhs_step s : cached s -> exists o s', getRightHandSide s = Ok (o, s') /\ i_p s' = i_p s /\ i_opt s' = i_opt s /\
  cached s' /\ o = i_rhs s' /\ (b_gl (i_p s) = [] -> o = None) /\ (b_gl (i_p s) <> [] -> o <> None).
Proof.
  intros [(A & B & C)|S]; unfold getRightHandSide.
  - rewrite B. destruct (extract_ok s A B C) as (s' & E & P & O & K & N & Z). rewrite E. cbn [bind].
    eexists _, s'. split; [reflexivity|]. repeat split; auto; [intros G; rewrite (Z G); exact B|]. intros G. apply (N G).
  - pose proof S as (G & S1 & S2 & S3). rewrite S2. cbn [bind]. rewrite S2. eexists _, s. split; [reflexivity|]. repeat split; auto.
    + right. exact S.
    + intros; contradiction.
    + discriminate.
Qed.
Lemma range_step s : cached s -> exists o s', getRowRange s = Ok (o, s') /\ i_p s' = i_p s /\ i_opt s' = i_opt s /\
  cached s' /\ o = i_rng s' /\ (b_gl (i_p s) = [] -> o = None) /\ (b_gl (i_p s) <> [] -> o <> None).
Proof.
  intros [(A & B & C)|S]; unfold getRowRange.
  - rewrite C. destruct (extract_ok s A B C) as (s' & E & P & O & K & N & Z). rewrite E. cbn [bind].
    eexists _, s'. split; [reflexivity|]. repeat split; auto; [intros G; rewrite (Z G); exact C|]. intros G. apply (N G).
  - pose proof S as (G & S1 & S2 & S3). rewrite S3. cbn [bind]. rewrite S3. eexists _, s. split; [reflexivity|]. repeat split; auto.
    + right. exact S.
    + intros; contradiction.
    + discriminate.
Qed.

Record iinv (P : nlp) (h : list iop) (s : itf) : Prop := {
  ii_p : inv P (calls h) (i_p s);
  ii_opt : i_opt s = solved h;
  ii_c : cached s }.

(** A call of the problem that leaves the rows alone keeps the cache right. *)
Lemma cached_rows s p b : cached s -> b_gl p = b_gl (i_p s) -> b_gu p = b_gu (i_p s) ->
  cached (mkI p b (i_sense s) (i_rhs s) (i_rng s)).
Proof. unfold cached. cbn [i_p i_sense i_rhs i_rng]. intros C -> ->. exact C. Qed.
Lemma rows_same P h h' s p : inv P h s -> inv P h' p -> rows_now P h' = rows_now P h ->
  b_gl p = b_gl s /\ b_gu p = b_gu s.
Proof.
  intros I J E. rewrite (v_gl _ _ _ I), (v_gl _ _ _ J), (v_gu _ _ _ I), (v_gu _ _ _ J), E. auto.
Qed.

Lemma istep_ok P h s o : iinv P h s -> (match o with IUse _ => False | _ => True end) ->
  valid_hist P (calls (o :: h)) -> exists s', istep o s = Ok s' /\ iinv P (o :: h) s'.
Proof.
  intros [I O C] NU V.
  assert (K : forall c b, calls (o :: h) = c :: calls h -> b = solved (o :: h) ->
     (rows_now P (c :: calls h) = rows_now P (calls h)) ->
     exists s', on_prob b s (step c (i_p s)) = Ok s' /\ iinv P (o :: h) s').
  { intros c b EC EB ER. rewrite EC in V. destruct V as [V1 V2].
    destruct (step_ok _ _ _ _ I V2) as (p & E & J). rewrite E. unfold on_prob. cbn [bind].
    eexists. split; [reflexivity|]. destruct (rows_same _ _ _ _ _ I J ER) as [R1 R2].
    constructor; cbn [i_p i_opt]; [rewrite EC; exact J|exact EB|apply cached_rows; auto]. }
  destruct o; cbn [istep]; cbn [calls] in *; try contradiction.
  - destruct (sense_step s C) as (q & s' & -> & P1 & P2 & P3 & _). cbn [bind]. exists s'. split; [reflexivity|].
    constructor; cbn [calls solved]; [rewrite P1; exact I|congruence|exact P3].
  - destruct (rhs_step s C) as (q & s' & -> & P1 & P2 & P3 & _). cbn [bind]. exists s'. split; [reflexivity|].
    constructor; cbn [calls solved]; [rewrite P1; exact I|congruence|exact P3].
  - destruct (range_step s C) as (q & s' & -> & P1 & P2 & P3 & _). cbn [bind]. exists s'. split; [reflexivity|].
    constructor; cbn [calls solved]; [rewrite P1; exact I|congruence|exact P3].
  - apply (K (OFinal x g zL zU lam ob viol) true); reflexivity.
  - apply (K (OX x ex) false); reflexivity.
  - apply (K OReset false); reflexivity.
  - apply (K (OD d ex) false); reflexivity.
  - apply (K (OLow i l) false); reflexivity.
  - apply (K (OUp i u) false); reflexivity.
  - apply (K (OLower l) false); reflexivity.
  - apply (K (OUpper u) false); reflexivity.
  - unfold on_prob. cbn [bind]. eexists. split; [reflexivity|]. constructor; cbn [i_p i_opt calls solved]; auto.
  - destruct V as [V1 V2]. destruct (step_ok _ _ _ _ I V2) as (p & E & J). cbn [step] in E.
    assert (Ep : p = add_rows gl gu ex (i_p s)) by congruence. subst p.
    unfold on_prob. cbn [bind]. eexists. split; [reflexivity|]. destruct gl as [|l gl].
    + assert (gu = []) as -> by (cbn [valid_op] in V2; destruct gu; [reflexivity|discriminate V2]).
      constructor; cbn [i_p i_opt calls solved]; auto.
      apply cached_rows; auto; unfold add_rows, with_i, with_g, with_sol; cbn; apply app_nil_r.
    + constructor; cbn [i_p i_opt calls solved]; auto. left. cbn. auto.
  - destruct V as [V1 V2]. destruct (step_ok _ _ _ _ I V2) as (p & E & J). cbn [step] in E.
    assert (Ep : p = del_rows gl gu (i_p s)) by congruence. subst p.
    unfold on_prob. cbn [bind]. eexists. split; [reflexivity|].
    constructor; cbn [i_p i_opt calls solved]; auto. left. cbn. auto.
Qed.
Lemma valid_tail P o h : valid_hist P (calls (o :: h)) -> valid_hist P (calls h).
Proof. destruct o; cbn [calls valid_hist]; tauto. Qed.
Lemma irun_inv P h : nlp_ok P -> legal P h -> exists s, irun P h = Ok s /\ iinv P h s.
Proof.
  intros K [NU V]. induction h as [|o h IH].
  - exists (mk_itf P). split; [reflexivity|]. constructor; [apply inv_init, K|reflexivity|left; cbn; auto].
  - pose proof (Forall_inv NU) as NO. pose proof (Forall_inv_tail NU) as NT.
    destruct (IH NT (valid_tail _ _ _ V)) as (s & E & I).
    destruct (istep_ok _ _ _ _ I NO V) as (s' & E' & I').
    exists s'. split; [|exact I']. unfold irun in *. cbn [irun_from]. rewrite E. exact E'.
Qed.

(** ** Row senses *)
Lemma convert_ok l u : proper (l, u) ->
  describes (convertBoundToSense l u) (l, u) /\ range_ok (convertBoundToSense l u).
Proof.
  intros [A B]. cbn in A, B. destruct l as [|l|], u as [|u|]; try contradiction; cbn.
  - split; [|reflexivity]. intros v. cbn. tauto.
  - split; [|reflexivity]. intros v. cbn. tauto.
  - destruct (Qeq_bool u l) eqn:E.
    + apply Qeq_bool_iff in E. split; [|reflexivity]. intros v. cbn. rewrite E. tauto.
    + split; [|exact Logic.I]. intros v. cbn. setoid_replace (u - (u - l)) with l by ring. tauto.
  - split; [|reflexivity]. intros v. cbn. tauto.
Qed.
Lemma senses_len gl : forall gu, length gu = length gl -> length (senses gl gu) = length gl.
Proof.
  induction gl as [|l gl IH]; intros [|u gu] L; cbn in *; try discriminate; auto.
Qed.
Lemma senses_ok gl : forall gu, length gu = length gl -> Forall proper (combine gl gu) ->
  Forall2 (fun d b => describes d b /\ range_ok d) (senses gl gu) (combine gl gu).
Proof.
  induction gl as [|l gl IH]; intros [|u gu] L F; cbn [senses combine length] in *; try discriminate; [constructor|].
  inversion F; subst. constructor; [apply convert_ok; auto|apply IH; auto].
Qed.
Lemma combine3 {A B C} (t : list (A * B * C)) :
  combine (combine (map (fun x => fst (fst x)) t) (map (fun x => snd (fst x)) t)) (map snd t) = t.
Proof. induction t as [|[[a b] c] t IH]; cbn; congruence. Qed.

Lemma ask_ok s : cached s -> length (b_gu (i_p s)) = length (b_gl (i_p s)) ->
  Forall proper (combine (b_gl (i_p s)) (b_gu (i_p s))) ->
  exists ss rs ws, ask s = Ok (ss, rs, ws) /\ arrays_ok (b_gl (i_p s)) (b_gu (i_p s)) ss rs ws.
Proof.
  intros C L F. unfold ask.
  destruct (sense_step s C) as (ss & s1 & -> & P1 & _ & C1 & E1 & N1 & X1). cbn [bind].
  destruct (rhs_step s1 C1) as (rs & s2 & -> & P2 & _ & C2 & E2 & N2 & X2). cbn [bind].
  destruct (range_step s2 C2) as (ws & s3 & -> & P3 & _ & C3 & E3 & N3 & X3). cbn [bind].
  exists ss, rs, ws. split; [reflexivity|].
  rewrite P1 in P2, N2, X2. rewrite P2 in P3, N3, X3.
  unfold cached in C1, C2, C3. rewrite P1 in C1. rewrite P2 in C2. rewrite P3 in C3.
  unfold arrays_ok. destruct (b_gl (i_p s)) as [|l gl] eqn:G; [auto|]. rewrite <- G in *.
  assert (NE : b_gl (i_p s) <> []) by (rewrite G; discriminate).
  destruct C1 as [(A & _)|(_ & C1 & _)]; [exfalso; apply (X1 NE); congruence|].
  destruct C2 as [(_ & A & _)|(_ & _ & C2 & _)]; [exfalso; apply (X2 NE); congruence|].
  destruct C3 as [(_ & _ & A)|(_ & _ & _ & C3)]; [exfalso; apply (X3 NE); congruence|].
  subst ss rs ws. do 3 eexists. split; [exact C1|]. split; [exact C2|]. split; [exact C3|].
  rewrite combine3, !map_length, senses_len by exact L. split; [apply senses_ok; auto|auto].
Qed.
Lemma C92_lem P h : nlp_ok P -> legal P h ->
  Forall proper (combine (fst (rows_now P (calls h))) (snd (rows_now P (calls h)))) ->
  exists s ss rs ws, irun P h = Ok s /\ ask s = Ok (ss, rs, ws) /\
    arrays_ok (fst (rows_now P (calls h))) (snd (rows_now P (calls h))) ss rs ws.
Proof.
  intros K V F. destruct (irun_inv P h K V) as (s & E & I).
  pose proof (ii_p _ _ _ I) as J. rewrite <- (v_gl _ _ _ J), <- (v_gu _ _ _ J) in *.
  destruct (ask_ok s (ii_c _ _ _ I) (v_gg _ _ _ J) F) as (ss & rs & ws & A & R).
  exists s, ss, rs, ws. auto.
Qed.

(** ** Points *)
Lemma vread_all b c l n : length l = n -> vread 0 n (mkVec b c l) = Ok l.
Proof.
  intros L. unfold vread. cbn [v_el Nat.add skipn]. rewrite L, Nat.leb_refl, <- L, firstn_all. reflexivity.
Qed.
Lemma last_final_len P h x g o : valid_hist P h -> last_final h = (x, g, Some o) -> length x = p_n P.
Proof.
  induction h as [|c h IH]; [discriminate|]. intros [V W] E. destruct c; cbn [last_final] in E; auto.
  injection E as <- _ _. cbn in W. tauto.
Qed.
Lemma solved_final h : solved h = true -> exists x g o, last_final (calls h) = (x, g, Some o).
Proof.
  induction h as [|o h IH]; [discriminate|]. destruct o; cbn [solved calls last_final]; intros S; try discriminate; eauto.
Qed.
Lemma eff_x_len P h x : valid_hist P h -> eff_x (p_n P) h = Some x -> length x = p_n P.
Proof.
  revert x. induction h as [|c h IH]; intros x V E; [discriminate|]. destruct V as [V W]. destruct c; cbn [eff_x] in E; auto;
    try discriminate; try (injection E as <-; cbn in W; tauto).
  - injection E as <-. destruct (eff_x (p_n P) h); [auto|apply repeat_length].
  - injection E as <-. destruct (eff_x (p_n P) h); [auto|apply repeat_length].
Qed.
Lemma C93_exact P h : nlp_ok P -> (0 < p_n P)%nat -> legal P h ->
  exists s, irun P h = Ok s /\
  getColSolution s = match shown (p_n P) h with Some x => Ok x | None => OutOfBounds end.
Proof.
  intros K N V. destruct (irun_inv P h K V) as (s & E & [J O C]). exists s. split; [exact E|].
  unfold getColSolution, shown. rewrite O, (inv_n _ _ _ J). destruct V as [_ V].
  destruct (solved h) eqn:S.
  - destruct (solved_final h S) as (x & g & o & L). pose proof (last_final_len _ _ _ _ _ V L) as Lx.
    pose proof (v_sx _ _ _ J) as X. rewrite L in X |- *. cbn [fst snd] in *. injection X as -> _.
    apply vread_all, Lx.
  - pose proof (v_ws _ _ _ J) as W. destruct (eff_d P (calls h)) as [d|].
    + destruct W as (x & Ex & Lx & El & _). rewrite Ex. unfold vread. rewrite El, app_length. cbn [Nat.add skipn].
      replace (Nat.leb (p_n P) (length x + length d)) with true by (symmetry; apply Nat.leb_le; lia).
      rewrite firstn_app_len by auto. reflexivity.
    + destruct (eff_x (p_n P) (calls h)) as [x|].
      * destruct W as [Lx El]. unfold vread. rewrite El. cbn [Nat.add skipn]. rewrite Lx, Nat.leb_refl, <- Lx, firstn_all. reflexivity.
      * unfold vread. rewrite W. cbn [length Nat.add]. replace (Nat.leb (p_n P) 0) with false; [reflexivity|].
        symmetry. apply Nat.leb_gt. lia.
Qed.
(** Nothing but queries and rows since the point was set or found. *)
Fixpoint undisturbed (h : list iop) : Prop :=
  match h with
  | [] => False
  | (ISolve _ _ _ _ _ _ _ | ISetCol _ _) :: _ => True
  | (ISense | IRhs | IRange | IAdd _ _ _ | IDel _ _) :: h => undisturbed h
  | _ => False
  end.
Lemma undisturbed_shown n h : undisturbed h -> shown n h = last_point h /\ last_point h <> None.
Proof.
  unfold shown. induction h as [|o h IH]; [tauto|]. destruct o; cbn [undisturbed solved calls last_final last_point eff_x];
    intros U; try tauto; try (split; [reflexivity|discriminate]).
  destruct (IH U) as [A B]. destruct (solved h); [auto|]. destruct (eff_x n (calls h)); [auto|congruence].
Qed.
(** Since setColSolution no solve: bounds, types, multipliers, rows may change. *)
Fixpoint since_set (h : list iop) : Prop :=
  match h with
  | [] => False
  | ISetCol _ _ :: _ => True
  | (ISolve _ _ _ _ _ _ _ | IClearCol | IUse _) :: _ => False
  | _ :: h => since_set h
  end.
Lemma since_shown n h : since_set h -> shown n h = last_point h /\ last_point h <> None.
Proof.
  unfold shown. induction h as [|o h IH]; [tauto|].
  assert (NS : forall g, since_set g -> solved g = false).
  { clear. induction g as [|o g IH]; [tauto|]. destruct o; cbn; intros; auto; try tauto. }
  intros U. rewrite (NS _ U). destruct o; cbn [since_set calls last_point eff_x] in *; try tauto;
    try (split; [reflexivity|discriminate]);
    try (specialize (IH U); rewrite (NS _ U) in IH; tauto);
    (specialize (IH U); rewrite (NS _ U) in IH; destruct IH as [A B]; destruct (eff_x n (calls h)); [auto|congruence]).
Qed.

(** ** Consistency *)
Lemma rows_stay_none h : Forall (fun o => match o with IAdd _ _ _ | IDel _ _ => False | _ => True end) h ->
  rows_stay (calls h) /\ forall P, m_now P (calls h) = length (p_gl P).
Proof.
  induction h as [|o h IH]; intros F; [split; [exact Logic.I|reflexivity]|].
  inversion F; subst. destruct (IH H2) as [A B]. destruct o; cbn [calls rows_stay]; try contradiction; auto; split; auto;
  intros P; specialize (B P); unfold m_now in *; cbn [rows_now]; auto.
Qed.
Lemma C94_exact P h : nlp_ok P -> (0 < p_n P)%nat -> legal P h -> true_solves P h -> has_solve h ->
  exists s x, irun P h = Ok s /\ fst (fst (last_final (calls h))) = x /\ length x = p_n P /\
  getRowActivity s = Ok (p_g P x) /\ getObjValue s = Some (p_f P x) /\ getObjCoefficients s = Ok (p_gf P x).
Proof.
  intros K N V T H. destruct (irun_inv P h K V) as (s & E & [J O C]).
  assert (F : exists x, last_final (calls h) = (x, p_g P x, Some (p_f P x))).
  { destruct H as (x & g & zL & zU & lam & ob & v & H). clear E J O C V. induction h as [|o h IH]; [destruct H|].
    pose proof (Forall_inv T) as T1. pose proof (Forall_inv_tail T) as T2. cbv beta in T1.
    destruct H as [->|H].
    - cbn [calls last_final]. destruct T1 as (-> & -> & ->). eauto.
    - destruct o; cbn [calls last_final]; auto. destruct T1 as (-> & -> & ->). eauto. }
  destruct F as (x & F). exists s, x. split; [exact E|].
  assert (R : Forall (fun o => match o with IAdd _ _ _ | IDel _ _ => False | _ => True end) h).
  { eapply Forall_impl; [|exact T]. intros []; auto. }
  destruct (rows_stay_none h R) as [RS M]. destruct V as [NU V].
  pose proof (last_final_len _ _ _ _ _ V F) as Lx. rewrite F. split; [reflexivity|]. split; [exact Lx|].
  pose proof (v_sg _ _ _ J RS) as G. pose proof (v_sx _ _ _ J) as X. rewrite F in G, X. cbn [fst snd] in G, X.
  injection X as X1 X2.
  unfold getRowActivity, getObjValue, getObjCoefficients. rewrite (inv_m _ _ _ J), M, (inv_n _ _ _ J), G, X1, X2.
  split; [apply vread_all; rewrite (ok_gl _ K); apply (ok_g _ K), Lx|]. split; [reflexivity|].
  rewrite vread_all by exact Lx. cbn [bind]. rewrite (v_P _ _ _ J). reflexivity.
Qed.

(** ** Basis *)
Lemma fake_rows_nth gl : forall gu k act st, fake_rows gl gu k act = Ok st ->
  forall i l u a t, nth_error gl i = Some l -> nth_error gu i = Some u -> nth_error act (k + i) = Some a ->
  nth_error st i = Some t -> t = row_status l u a.
Proof.
  induction gl as [|l0 gl IH]; intros gu k act st H i l u a t Hl Hu Ha Ht; [destruct i; discriminate|].
  destruct gu as [|u0 gu]; [destruct i; discriminate|]. cbn [fake_rows] in H.
  apply bind_ok in H. destruct H as (a0 & E0 & H). apply bind_ok in H. destruct H as (r & E1 & H).
  assert (st = row_status l0 u0 a0 :: r) by congruence. subst st. clear H.
  destruct i as [|i]; cbn [nth_error] in *.
  - injection Hl as <-. injection Hu as <-. injection Ht as <-. rewrite Nat.add_0_r in Ha.
    unfold rd in E0. rewrite Ha in E0. injection E0 as <-. reflexivity.
  - apply (IH gu (S k) act r E1 i); auto. replace (S k + i)%nat with (k + S i)%nat by lia. exact Ha.
Qed.
Lemma status_basic l u a : row_status l u a = bBasic <->
  (match l with MInf => True | Fin q => q + eps4 <= a | PInf => False end /\
   match u with PInf => True | Fin q => a <= q - eps4 | MInf => False end).
Proof.
  unfold row_status, above_up, below_lo. destruct l as [|l|], u as [|u|]; cbn;
    try (split; [discriminate|tauto]); try (split; [reflexivity|tauto]);
    repeat qcase; split; try discriminate; try tauto; intros; repeat split; try lra.
Qed.
Lemma status_two l u a : row_status l u a = bBasic \/ row_status l u a = bLower.
Proof. unfold row_status. destruct (above_up a u), (below_lo a l); auto. Qed.
Lemma basis_exact s st : build_fake_basis s = Ok st ->
  forall i l u a t, nth_error (b_gl (i_p s)) i = Some l -> nth_error (b_gu (i_p s)) i = Some u ->
  nth_error (b_gs (i_p s)) i = Some a -> nth_error st i = Some t ->
  (t = bBasic <-> (match l with MInf => True | Fin q => q + eps4 <= a | PInf => False end /\
                   match u with PInf => True | Fin q => a <= q - eps4 | MInf => False end)) /\
  (t <> bBasic -> t = bLower).
Proof.
  intros H i l u a t Hl Hu Ha Ht. pose proof (fake_rows_nth _ _ 0%nat _ _ H i l u a t Hl Hu Ha Ht) as ->.
  split; [apply status_basic|]. intros NB. destruct (status_two l u a); [contradiction|auto].
Qed.
Lemma basis_total s : length (b_gu (i_p s)) = length (b_gl (i_p s)) ->
  (exists st, build_fake_basis s = Ok st /\ length st = length (b_gl (i_p s))) <->
  (length (b_gl (i_p s)) <= length (b_gs (i_p s)))%nat.
Proof.
  unfold build_fake_basis. intros L.
  assert (G : forall gl gu k act, length gu = length gl ->
     ((exists st, fake_rows gl gu k act = Ok st /\ length st = length gl) <-> (gl = [] \/ k + length gl <= length act)%nat)).
  { induction gl as [|l gl IH]; intros [|u gu] k act E; cbn [length] in E; try discriminate.
    - split; [auto|]. intros _. exists []. auto.
    - cbn [fake_rows]. unfold rd. destruct (nth_error act k) eqn:A; cbn [bind].
      + assert (k < length act)%nat by (apply nth_error_Some; congruence).
        destruct (IH gu (S k) act ltac:(lia)) as [I1 I2]. split.
        * intros (st & X & Y). right. apply bind_ok in X. destruct X as (r & R & X).
          assert (st = row_status l u q :: r) by congruence. subst st. cbn [length] in Y.
          destruct I1 as [->|I1]; [exists r; split; [exact R|lia]| |]; cbn [length]; lia.
        * intros [X|X]; [discriminate|]. cbn [length] in X.
          destruct I2 as (r & R & Y); [right; lia|]. rewrite R. cbn [bind]. eexists. split; [reflexivity|]. cbn [length]. lia.
      + apply nth_error_None in A. split; [intros (st & X & _); discriminate|]. intros [X|X]; [discriminate|]. cbn [length] in X. lia. }
  rewrite (G _ _ 0%nat _ L). cbn [Nat.add]. split; [intros [->|X]; [cbn; lia|exact X]|auto].
Qed.

(** ** Violations *)
Lemma qmax_or a b : a <= qmax a b /\ b <= qmax a b /\ (qmax a b = a \/ qmax a b = b).
Proof. unfold qmax. qcase; repeat split; try lra; auto. Qed.
Lemma row_viol_ok l u g : small_bounds (l, u) ->
  0 <= row_viol l u g /\ row_excess l u g (row_viol l u g) /\
  (row_viol l u g == 0 \/ (exists q, l = Fin q /\ row_viol l u g == q - g) \/ (exists q, u = Fin q /\ row_viol l u g == g - q)).
Proof.
  intros [A B]. cbn [fst snd] in A, B. unfold row_viol, row_excess.
  assert (L : exists v, match l with Fin q => if Qltb (- big) q then qmax 0 (q - g) else 0 | _ => 0 end = v /\ 0 <= v /\
     match l with MInf => True | Fin q => q - g <= v | PInf => False end /\ (v == 0 \/ exists q, l = Fin q /\ v == q - g)).
  { destruct l as [|l|]; try tauto.
    - exists 0. repeat split; auto; try lra.
    - destruct (Qltb (- big) l) eqn:E; [|apply Qltb_ge in E; exfalso; lra].
      destruct (qmax_or 0 (l - g)) as (H1 & H2 & H3). eexists. split; [reflexivity|]. split; [lra|]. split; [lra|].
      destruct H3 as [H3|H3]; rewrite H3; [left; lra|right; exists l; split; [reflexivity|lra]]. }
  destruct L as (v & -> & V0 & V1 & V2). cbv zeta.
  destruct u as [|u|]; try tauto.
  - destruct (Qltb u big) eqn:E; [|apply Qltb_ge in E; exfalso; lra].
    destruct (qmax_or v (g - u)) as (H1 & H2 & H3). split; [lra|]. split; [split; [destruct l; try tauto; lra|lra]|].
    destruct H3 as [H3|H3]; rewrite H3; [tauto|right; right; exists u; split; [reflexivity|lra]].
Qed.
Lemma viol_loop_ok gl : forall gu k ct (g : list Q) norm,
  length gu = length gl -> (k + length gl = length g)%nat ->
  (forall t, ct = Some t -> length t = length g) ->
  Forall small_bounds (combine gl gu) -> 0 <= norm ->
  exists v, viol_loop gl gu k ct (map Some g) norm = Ok v /\ norm <= v /\
    (forall i l u x, nth_error gl i = Some l -> nth_error gu i = Some u -> nth_error g (k + i) = Some x ->
       (forall t, ct = Some t -> nth_error t (k + i) = Some false) -> row_excess l u x v) /\
    (v == norm \/ exists i x, nth_error g (k + i) = Some x /\ (forall t, ct = Some t -> nth_error t (k + i) = Some false) /\
       ((exists q, nth_error gl i = Some (Fin q) /\ v == q - x) \/ (exists q, nth_error gu i = Some (Fin q) /\ v == x - q))).
Proof.
  induction gl as [|l gl IH]; intros gu k ct g norm L K T F N.
  - exists norm. destruct gu; [|discriminate]. cbn [viol_loop]. split; [reflexivity|]. split; [lra|]. split; [|left; lra].
    intros [|i]; discriminate.
  - destruct gu as [|u gu]; [discriminate|]. cbn [length combine] in L, K, F. inversion F as [|? ? F1 F2]; subst.
    assert (exists x, nth_error g k = Some x) as (x & Ex).
    { destruct (nth_error g k) eqn:Z; [eauto|]. apply nth_error_None in Z. lia. }
    cbn [viol_loop].
    assert (CT : exists lin, (match ct with None => Ok false | Some t => rd k t end) = Ok lin /\
       (lin = false <-> forall t, ct = Some t -> nth_error t k = Some false)).
    { destruct ct as [t|].
      - specialize (T t eq_refl). unfold rd. destruct (nth_error t k) as [b|] eqn:Z; [|apply nth_error_None in Z; lia].
        exists b. split; [reflexivity|]. split; [intros -> t' E; congruence|]. intros E. specialize (E t eq_refl). congruence.
      - exists false. split; [reflexivity|]. split; [discriminate|reflexivity]. }
    destruct CT as (lin & -> & CT). cbn [bind].
    assert (ST : forall norm', 0 <= norm' -> norm <= norm' ->
       (lin = false -> row_excess l u x norm') ->
       (norm' == norm \/ (lin = false /\ ((exists q, l = Fin q /\ norm' == q - x) \/ (exists q, u = Fin q /\ norm' == x - q)))) ->
       exists v, viol_loop gl gu (S k) ct (map Some g) norm' = Ok v /\ norm <= v /\
       (forall i l0 u0 x0, nth_error (l :: gl) i = Some l0 -> nth_error (u :: gu) i = Some u0 -> nth_error g (k + i) = Some x0 ->
         (forall t, ct = Some t -> nth_error t (k + i) = Some false) -> row_excess l0 u0 x0 v) /\
       (v == norm \/ exists i x0, nth_error g (k + i) = Some x0 /\ (forall t, ct = Some t -> nth_error t (k + i) = Some false) /\
       ((exists q, nth_error (l :: gl) i = Some (Fin q) /\ v == q - x0) \/ (exists q, nth_error (u :: gu) i = Some (Fin q) /\ v == x0 - q)))).
    { intros norm' N1 N2 R H. destruct (IH gu (S k) ct g norm' ltac:(lia) ltac:(lia) T F2 N1) as (v & E & LE & A & B).
      exists v. split; [exact E|]. split; [lra|]. split.
      - intros [|i] l0 u0 x0 H1 H2 H3 H4; cbn [nth_error] in H1, H2.
        + injection H1 as <-. injection H2 as <-. rewrite Nat.add_0_r in H3, H4. assert (x0 = x) by congruence. subst x0.
          apply CT in H4. specialize (R H4). unfold row_excess in *. destruct R as [R1 R2].
          split; [destruct l; try tauto; lra|destruct u; try tauto; lra].
        + apply (A i); auto; replace (S k + i)%nat with (k + S i)%nat by lia; auto.
      - destruct B as [B|(i & x0 & B1 & B2 & B3)].
        + destruct H as [H|(H0 & H)]; [left; lra|]. right. exists 0%nat, x. rewrite Nat.add_0_r. split; [exact Ex|].
          split; [apply CT, H0|]. cbn [nth_error].
          destruct H as [(q & -> & H)|(q & -> & H)]; [left|right]; exists q; (split; [reflexivity|lra]).
        + right. exists (S i), x0. replace (k + S i)%nat with (S k + i)%nat by lia. auto. }
    destruct lin.
    + apply ST; [exact N|lra|discriminate|left; lra].
    + unfold aget. rewrite nth_error_map, Ex. cbn [option_map bind].
      destruct (row_viol_ok l u x F1) as (V1 & V2 & V3). destruct (Qltb norm (row_viol l u x)) eqn:E.
      * apply Qltb_lt in E. apply ST; [lra|lra|auto|].
        destruct V3 as [V3|V3]; [left; lra|right; auto].
      * apply Qltb_ge in E. apply ST; [exact N|lra| |left; lra].
        intros _. unfold row_excess in *. destruct V2. split; [destruct l; try tauto; lra|destruct u; try tauto; lra].
Qed.
Lemma no_change_rows P h : no_row_change h -> rows_now P (calls h) = (p_gl P, p_gu P).
Proof.
  induction h as [|o h IH]; intros F; [reflexivity|]. inversion F; subst. destruct o; cbn [calls rows_now]; auto; contradiction.
Qed.
Lemma C97_lem P h ct x : nlp_ok P -> legal P h -> no_row_change h -> length x = p_n P ->
  (forall t, ct = Some t -> t = p_lin P) -> Forall small_bounds (combine (p_gl P) (p_gu P)) ->
  exists s v, irun P h = Ok s /\ getConstraintsViolation ct x s = Ok (v, p_f P x) /\
    largest (p_gl P) (p_gu P) (p_g P x) (fun i => forall t, ct = Some t -> nth_error t i = Some false) v.
Proof.
  intros K V R Lx T F. destruct (irun_inv P h K V) as (s & E & [J O C]).
  pose proof (v_gl _ _ _ J) as G1. pose proof (v_gu _ _ _ J) as G2. rewrite (no_change_rows P h R) in G1, G2. cbn [fst snd] in G1, G2.
  exists s.
  unfold getConstraintsViolation. cbv zeta. unfold num_constraints. rewrite (v_P _ _ _ J), G1, G2.
  pose proof (ok_g _ K x Lx) as LG.
  replace (length (p_gl P)) with (length (p_g P x)) by (rewrite (ok_gl _ K); exact LG). rewrite ablit_fresh. cbn [bind].
  destruct (viol_loop_ok (p_gl P) (p_gu P) 0 ct (p_g P x) 0) as (v & A & B & D & H); auto; try lra.
  { rewrite (ok_gu _ K), (ok_gl _ K). reflexivity. }
  { rewrite LG, (ok_gl _ K). reflexivity. }
  { intros t Ht. rewrite (T t Ht), LG, (ok_lin _ K). reflexivity. }
  exists v. split; [exact E|]. rewrite A. cbn [bind]. split; [reflexivity|]. split; [exact B|]. split.
  - intros i l u y H1 H2 H3 H4. apply (D i); auto.
  - destruct H as [H|(i & y & H1 & H2 & H3)]; [left; exact H|right]. exists i, y. auto.
Qed.
(** Rows added by the user of the interface are not computed by the problem. *)
Lemma viol_loop_added gl : forall gu k ct (g : list Q) norm,
  length gu = length gl -> (k <= length g)%nat -> (length g < k + length gl)%nat ->
  (forall t, ct = Some t -> length t = length g) ->
  viol_loop gl gu k ct (map Some g ++ fresh (k + length gl - length g)) norm =
    match ct with None => Uninit | Some _ => OutOfBounds end.
Proof.
  induction gl as [|l gl IH]; intros gu k ct g norm L K1 K2 T; [cbn [length] in K2; lia|].
  destruct gu as [|u gu]; [discriminate|]. cbn [length] in L, K2. cbn [viol_loop].
  destruct (Nat.eq_dec k (length g)) as [->|NE].
  - destruct ct as [t|].
    + specialize (T t eq_refl). unfold rd. destruct (nth_error t (length g)) eqn:Z; [|reflexivity].
      assert (length g < length t)%nat by (apply nth_error_Some; congruence). lia.
    + cbn [bind]. unfold aget. rewrite nth_error_app2 by (rewrite map_length; lia). rewrite map_length, Nat.sub_diag.
      unfold fresh. cbn [length]. replace (length g + S (length gl) - length g)%nat with (S (length gl)) by lia. reflexivity.
  - assert (exists x, nth_error g k = Some x) as (x & Ex).
    { destruct (nth_error g k) eqn:Z; [eauto|]. apply nth_error_None in Z. lia. }
    assert (R : forall norm, viol_loop gl gu (S k) ct (map Some g ++ fresh (k + length (l :: gl) - length g)) norm =
       match ct with None => Uninit | Some _ => OutOfBounds end).
    { intros nm. cbn [length]. replace (k + S (length gl) - length g)%nat with (S k + length gl - length g)%nat by lia. apply IH; auto; lia. }
    assert (G : aget k (map Some g ++ fresh (k + length (l :: gl) - length g)) = Ok x).
    { unfold aget. rewrite nth_error_app1 by (rewrite map_length; lia). rewrite nth_error_map, Ex. reflexivity. }
    destruct ct as [t|].
    + specialize (T t eq_refl). unfold rd. destruct (nth_error t k) as [b|] eqn:Z; [|apply nth_error_None in Z; lia]. cbn [bind].
      destruct b; [apply R|]. rewrite G. cbn [bind]. apply R.
    + cbn [bind]. rewrite G. cbn [bind]. apply R.
Qed.
Lemma C97_added P h gl gu ex ct x : nlp_ok P -> legal P (IAdd gl gu ex :: h) -> no_row_change h -> gl <> [] -> length x = p_n P ->
  (forall t, ct = Some t -> t = p_lin P) ->
  exists s, irun P (IAdd gl gu ex :: h) = Ok s /\
    getConstraintsViolation ct x s = match ct with None => Uninit | Some _ => OutOfBounds end.
Proof.
  intros K V R NE Lx T. destruct (irun_inv P _ K V) as (s & E & [J O C]). exists s. split; [exact E|].
  pose proof (v_gl _ _ _ J) as G1. pose proof (v_gu _ _ _ J) as G2. cbn [calls rows_now] in G1, G2.
  rewrite (no_change_rows P h R) in G1, G2. cbn [fst snd] in G1, G2.
  destruct V as [_ [_ V]]. cbn in V.
  unfold getConstraintsViolation. cbv zeta. unfold num_constraints. rewrite (v_P _ _ _ J), G1, G2.
  pose proof (ok_g _ K x Lx) as LG. pose proof (ok_gl _ K) as LL. pose proof (ok_gu _ K) as LU.
  assert (0 < length gl)%nat by (destruct gl; [congruence|cbn; lia]).
  rewrite app_length. replace (fresh (length (p_gl P) + length gl)) with (fresh (A:=Q) (length (p_g P x)) ++ fresh (length gl)).
  2:{ unfold fresh. rewrite <- repeat_app. f_equal. lia. }
  rewrite ablit0_app by (unfold fresh; apply repeat_length). cbn [bind].
  pose proof (viol_loop_added (p_gl P ++ gl) (p_gu P ++ gu) 0 ct (p_g P x) 0) as A.
  replace (0 + length (p_gl P ++ gl) - length (p_g P x))%nat with (length gl) in A by (rewrite app_length; lia).
  rewrite A; [destruct ct; reflexivity| | | |].
  - rewrite !app_length. lia.
  - lia.
  - rewrite app_length. lia.
  - intros t Ht. rewrite (T t Ht), LG, (ok_lin _ K). reflexivity.
Qed.
