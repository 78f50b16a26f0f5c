(** The QP posed, and whole histories. *)
From Verif Require Import Base Arr Hot_Model Hot_Spec Hot_Proofs.
From Verif Require Itf_Model Nls_Model.
#[local] Open Scope Q_scope.

Lemma safe_bind2 dv {A B C} (a : outcome A) (f : A -> outcome B) (g : B -> outcome C) (P : A -> Prop) (R : C -> Prop) :
  safe dv a P -> (forall x, P x -> safe dv (bind (f x) g) R) -> safe dv (bind (bind a f) g) R.
Proof. destruct a; cbn; intros H K; auto. Qed.

(** ** Bounds *)
Lemma big_pos : 0 < big.
Proof. reflexivity. Qed.
Lemma bound_is_clip l u x0 : bound_is (clip_lo (eshift l x0)) (clip_up (eshift u x0)) l u x0.
Proof.
  intros d D1 D2. unfold clip_lo, clip_up, eshift. split.
  - destruct l as [|q|]; cbn [lo_ok].
    + tauto.
    + qcase; split; intros; lra.
    + tauto.
  - destruct u as [|q|]; cbn [up_ok].
    + tauto.
    + qcase; split; intros; lra.
    + tauto.
Qed.
Lemma shifts_length l x : length l = length x -> length (shifts l x) = length x.
Proof. revert x; induction l as [|e l IH]; intros [|q x] L; cbn in *; try discriminate; [reflexivity|]. rewrite IH; lia. Qed.
Lemma shifts_nth l : forall x i d, length l = length x -> (i < length x)%nat ->
  nth i (shifts l x) d = eshift (nth i l d) (nth i x 0).
Proof.
  induction l as [|e l IH]; intros [|q x] i d L H; cbn in *; try discriminate; try lia.
  destruct i as [|i]; [reflexivity|]. apply IH; lia.
Qed.
Lemma map_nth_in {A B} (f : A -> B) l d d' : forall i, (i < length l)%nat -> nth i (map f l) d' = f (nth i l d).
Proof. intros i H. rewrite (nth_indep _ d' (f d)) by (rewrite map_length; exact H). apply map_nth. Qed.

Definition box_ok (n m : nat) (b : box) : Prop :=
  length (b_xl b) = n /\ length (b_xu b) = n /\ length (b_gl b) = m /\ length (b_gu b) = m.
Lemma posed_box n m t b k : qp_ok n m t -> box_ok n m b ->
  k_t k = t -> k_bl k = qp_lo t b -> k_bu k = qp_up t b -> posed b t k.
Proof.
  intros (N & M & X & G & _) (B1 & B2 & B3 & B4) T L U. unfold posed. rewrite T, L, U, N, M. unfold qp_lo, qp_up.
  rewrite !map_length, !app_length, !shifts_length by lia. rewrite X, G.
  repeat (split; [reflexivity|]). split.
  - intros i H. rewrite (map_nth_in clip_lo _ PInf), (map_nth_in clip_up _ MInf) by (rewrite app_length, !shifts_length by lia; lia).
    rewrite !app_nth1 by (rewrite shifts_length by lia; lia). rewrite !shifts_nth by lia. apply bound_is_clip.
  - intros j H. rewrite (map_nth_in clip_lo _ PInf), (map_nth_in clip_up _ MInf) by (rewrite app_length, !shifts_length by lia; lia).
    rewrite !app_nth2 by (rewrite shifts_length by lia; lia). rewrite !shifts_length by lia. rewrite X.
    replace (n + j - n)%nat with j by lia. rewrite !shifts_nth by lia. apply bound_is_clip.
Qed.

(** ** A new cache *)
Lemma ablit_repeat {A} (l : list A) v k : (length l <= k)%nat ->
  ablit 0 l (repeat (Some v) k) = Ok (map Some l ++ repeat (Some v) (k - length l)).
Proof.
  intros H. replace k with (length l + (k - length l))%nat at 1 by lia. rewrite repeat_app.
  apply ablit0_app, repeat_length.
Qed.
Lemma firstn_map_app {A} (l : list A) (r : arr A) : firstn (length l) (map Some l ++ r) = map Some l.
Proof.
  replace (length l) with (length (map Some l) + 0)%nat by (rewrite map_length; lia).
  rewrite firstn_app_2, firstn_O, app_nil_r. reflexivity.
Qed.
Lemma new_cache_safe dv n m km mlp fill t b : qp_ok n m t -> 0 < fill ->
  safe dv (new_cache km mlp fill t b) (fun c => cinv c /\ h_t c = t /\ h_bl c = qp_lo t b /\ h_bu c = qp_up t b /\
    h_use c = false /\ h_have c = false /\ h_piv c = 0%Z /\ h_mlp c = mlp).
Proof.
  intros (N & M & X & G & HL) F. unfold new_cache.
  eapply safe_bind; [apply to_int_safe, fill_nonneg, F|]. intros fl (F0 & F1).
  eapply safe_bind; [apply new_size_safe|]. intros lw (-> & MX).
  eapply safe_bind; [apply new_size_safe|]. intros ll (-> & ML).
  set (km' := match km with None => _ | Some k => _ end) in *.
  set (mx := (Z.of_nat _ + fl)%Z) in *.
  assert (A1 : (length (t_hla t) <= Z.to_nat (Z.of_nat (length (t_hv t) + t_n t + 2 + km' + (9 * t_n t + t_m t))))%nat).
  { rewrite Nat2Z.id. rewrite N. lia. }
  assert (A2 : (length (t_hv t) <= Z.to_nat mx)%nat) by (subst mx; lia).
  rewrite !ablit_repeat by assumption. cbn [bind safe].
  split; [|cbn; repeat split]. unfold cinv. cbn.
  split; [|split; [exact MX|split; [lia|split; [reflexivity|split; [reflexivity|exact Logic.I]]]]].
  unfold winv. cbn. rewrite !fresh_length. repeat (split; [reflexivity|]).
  rewrite !app_length, !map_length, !repeat_length. split; [lia|]. split; [lia|].
  split; apply firstn_map_app.
Qed.

(** ** What a solve reports *)
Lemma values_written {A} (a : arr A) : written a -> exists d, values a = Ok d /\ a = map Some d.
Proof.
  induction a as [|[v|] a IH]; intros W.
  - exists []. auto.
  - inversion W; subst. destruct (IH H2) as (d & E & ->). exists (v :: d). cbn [values]. rewrite E. auto.
  - inversion W; subst. congruence.
Qed.
Lemma vadd_ok x : forall d, length d = length x -> exists r, vadd x d = Ok r /\ length r = length x /\
  forall i, (i < length x)%nat -> nth i r 0 == nth i x 0 + nth i d 0.
Proof.
  induction x as [|a x IH]; intros [|b d] L; cbn in L; try discriminate.
  - exists []. cbn. split; [reflexivity|]. split; [reflexivity|]. intros i H. lia.
  - destruct (IH d) as (r & E & L' & H); [lia|]. exists ((a + b) :: r). cbn [vadd]. rewrite E. cbn [bind].
    split; [reflexivity|]. cbn [length]. split; [lia|]. intros [|i] I; cbn; [reflexivity|apply H; lia].
Qed.
Definition report_ok (t : tqp) (l : list (call * answer)) (r : rep) : Prop :=
  exists k a d f, last (map Some l) None = Some (k, a) /\ w_x (a_w a) = map Some d /\ w_f (a_w a) = Some f /\
    length (r_x r) = t_n t /\ (forall i, (i < t_n t)%nat -> nth i (r_x r) 0 == nth i (t_x0 t) 0 + nth i d 0) /\
    (r_st r = Itf_Model.solvedOptimal <-> a_ifail a = 0%Z) /\
    (a_ifail a = 0%Z -> r_obj r == t_f0 t + f) /\
    (r_st r = Itf_Model.provenInfeasible <-> a_ifail a = 1%Z \/ a_ifail a = 2%Z \/ a_ifail a = 3%Z).
Lemma bqpd_status_cases z :
  (Nls_Model.bqpd_status z = (Itf_Model.solvedOptimal, Nls_Model.SUCCESS_) /\ z = 0%Z) \/
  (Nls_Model.bqpd_status z = (Itf_Model.provenInfeasible, Nls_Model.LOCAL_INFEASIBILITY_) /\ (z = 1%Z \/ z = 2%Z \/ z = 3%Z)) \/
  (Nls_Model.bqpd_status z = (Itf_Model.sException, Nls_Model.INTERNAL_ERROR_) /\ z <> 0%Z /\ z <> 1%Z /\ z <> 2%Z /\ z <> 3%Z).
Proof.
  unfold Nls_Model.bqpd_status, Nls_Model.do_switch, Nls_Model.bqpd_switch. cbn [existsb orb].
  destruct (Z.eqb_spec z 0) as [->|H0]; [left; auto|]. cbn [orb].
  destruct (Z.eqb_spec z 1) as [->|H1]; [right; left; cbn; auto|]. cbn [orb].
  destruct (Z.eqb_spec z 2) as [->|H2]; [right; left; cbn; auto|]. cbn [orb].
  destruct (Z.eqb_spec z 3) as [->|H3]; [right; left; cbn; auto|]. cbn [orb].
  right; right. auto 8.
Qed.

Section B.
Variable bqpd : call -> answer.
Hypothesis Hb : honest bqpd.
Variable dv : Prop.
(** The loop of enlargements ends. *)
Definition ends (fuel : nat) (t : tqp) (fill : Q) : Prop :=
  dv \/ ((1 <= fuel)%nat /\ (1 <= amax t)%nat /\ inject_Z int_max + 1 <= fill * inject_Z (2 ^ Z.of_nat fuel)).
Lemma ends_more fuel t fill fill' : ends fuel t fill -> fill <= fill' -> ends fuel t fill'.
Proof.
  intros [D | (D1 & D2 & D3)] L; [left; exact D|right]. split; [exact D1|]. split; [exact D2|].
  eapply Qle_trans; [exact D3|]. apply Qmult_le_compat_r; [exact L|]. change 0 with (inject_Z 0). rewrite <- Zle_Qle. lia.
Qed.
Lemma twice_more fill j : 0 < fill -> fill <= fill * inject_Z (2 ^ Z.of_nat j).
Proof.
  intros F. rewrite <- (Qmult_1_r fill) at 1. apply Qmult_le_l; [exact F|].
  change 1 with (inject_Z 1). rewrite <- Zle_Qle. lia.
Qed.

(** The solver between solves of the QP [t]. *)
Definition yinv (t : tqp) (first : bool) (y : bsol) : Prop :=
  0 < y_fill y /\ exists c, y_cache y = Some c /\ cinv c /\ h_t c = t /\ h_m0de c <> None /\ (first = true -> h_use c = false).
Definition com_last (l : list (call * answer)) (g : com) : Prop :=
  exists k a, last (map Some l) None = Some (k, a) /\ g = a_com a.
Lemma callOptimizer_safe md re fuel c y g n m t : qp_ok n m t -> h_t c = t ->
  cinv c -> 0 < y_fill y -> (h_use c = true -> h_m0de c <> None) -> ends fuel t (y_fill y) ->
  safe dv (callOptimizer bqpd md re fuel c y g) (fun '(r, y', g', l) =>
    report_ok t l r /\ Forall (good bqpd c) l /\ 0 < y_fill y' /\
    (exists j, y_fill y' == y_fill y * inject_Z (2 ^ Z.of_nat j)) /\ y_kmax y' = y_kmax y /\ y_mlp y' = y_mlp y /\
    exists c' k a, y_cache y' = Some c' /\ cinv c' /\ same c c' /\ ginv c' g' /\ (0 <= c_kkk g')%Z /\ h_m0de c' <> None /\
      (h_use c = false -> h_use c' = false) /\
      last (map Some l) None = Some (k, a) /\ h_w c' = a_w a /\ h_ifail c' = a_ifail a /\ g' = a_com a).
Proof.
  intros QP T C F U EN. unfold callOptimizer.
  eapply safe_bind; [apply safe_eq, (optimize_leads _ Hb); [exact C|exact F|exact U|cbn [s_c s_fill]; rewrite T; exact EN]|].
  intros s (_ & C' & SM & (l & LE & GD) & GI & KK & (WX & WF & WI & l' & k & a & LL & HW & HI & HC) & M' & (j & FE) & F' & U').
  cbn [s_log s_fill s_c] in *.
  pose proof SM as (ST & _). rewrite T in ST.
  assert (LA : last (map Some (s_log s)) None = Some (k, a)).
  { rewrite LL, map_app. cbn [map]. rewrite last_last. reflexivity. }
  destruct (values_written _ WX) as (d & VE & XE).
  assert (LD : length d = length (t_x0 t)).
  { destruct C' as ((W1 & _) & _). rewrite XE, map_length in W1. destruct QP as (N & M & X & _). congruence. }
  destruct (vadd_ok _ _ LD) as (x & XO & XL & XN).
  destruct (w_f (h_w (s_c s))) as [f|] eqn:WFE; [|congruence].
  assert (REP : forall st sr, Nls_Model.bqpd_status (h_ifail (s_c s)) = (st, sr) ->
            report_ok t (s_log s) (mkR st x match sr with Nls_Model.LOCAL_INFEASIBILITY_ => f | _ => f + t_f0 t end (repeat 0 (t_m t + 2 * t_n t)))).
  { intros st sr E. exists k, a, d, f. cbn [r_st r_x r_obj]. destruct QP as (N & M & X & _).
    split; [exact LA|]. split; [rewrite <- HW; exact XE|]. split; [rewrite <- HW; exact WFE|]. split; [congruence|].
    split; [intros i H; apply XN; congruence|]. rewrite HI in E.
    destruct (bqpd_status_cases (a_ifail a)) as [(B & Z0) | [(B & Z0) | (B & Z0)]]; rewrite B in E; injection E as <- <-.
    - split; [tauto|]. split; [intros _; ring|]. split; [discriminate|lia].
    - split; [split; [discriminate|lia]|]. split; [lia|]. tauto.
    - split; [split; [discriminate|lia]|]. split; [lia|]. split; [discriminate|lia]. }
  destruct (Nls_Model.bqpd_status (h_ifail (s_c s))) as [st sr] eqn:SE.
  rewrite VE. cbn [bind]. rewrite ST, XO. cbn [bind safe].
  split; [apply REP; reflexivity|]. split; [rewrite LE; exact GD|]. cbn [y_fill y_kmax y_mlp y_cache].
  split; [exact F'|]. split; [exists j; exact FE|]. split; [reflexivity|]. split; [reflexivity|].
  exists (s_c s), k, a. split; [reflexivity|]. split; [exact C'|]. split; [exact SM|]. split; [exact GI|]. split; [exact KK|].
  split; [exact M'|]. split; [exact U'|]. split; [exact LA|]. auto.
Qed.

Lemma destroy_ok c : cinv c -> destroy_cache c = Ok tt.
Proof.
  intros C. unfold destroy_cache. destruct (h_have c) eqn:H; [|reflexivity].
  destruct (unmark_ok c C H) as (c' & -> & _). reflexivity.
Qed.
Definition solved (b : box) (t : tqp) (y y' : bsol) (g' : com) (l : list (call * answer)) (r : rep) : Prop :=
  report_ok t l r /\ Forall (fun ka => posed b t (fst ka) /\ in_place (fst ka)) l /\ 0 < y_fill y' /\
  (exists j, y_fill y' == y_fill y * inject_Z (2 ^ Z.of_nat j)).
Definition ready (t : tqp) (g' : com) (l : list (call * answer)) (y : bsol) : Prop :=
  exists c k a, y_cache y = Some c /\ cinv c /\ h_t c = t /\ ginv c g' /\ (0 <= c_kkk g')%Z /\ h_m0de c <> None /\
    last (map Some l) None = Some (k, a) /\ h_w c = a_w a /\ h_ifail c = a_ifail a /\ g' = a_com a.
Lemma OptimizeTNLP_safe md re fuel n m t b y g : qp_ok n m t -> box_ok n m b -> 0 < y_fill y -> ends fuel t (y_fill y) ->
  match y_cache y with Some c => cinv c /\ h_use c = false | None => True end ->
  safe dv (OptimizeTNLP bqpd md re fuel t b y g) (fun '(r, y', g', l) => solved b t y y' g' l r /\ yinv t true y' /\ ready t g' l y').
Proof.
  intros QP BX F EN Y.
  assert (K : forall c, cinv c /\ h_t c = t /\ h_bl c = qp_lo t b /\ h_bu c = qp_up t b /\ h_use c = false /\ h_have c = false /\ h_piv c = 0%Z /\ h_mlp c = y_mlp y ->
     forall g, safe dv (callOptimizer bqpd md re fuel c y g) (fun '(r, y', g', l) => solved b t y y' g' l r /\ yinv t true y' /\ ready t g' l y')).
  { intros c (C & T & BL & BU & U & HV & _) g0. eapply safe_imp; [|eapply callOptimizer_safe; eauto; congruence].
    intros (((r, y'), g'), l) (R & GD & F' & FJ & _ & _ & c' & k & a & YC & C' & SM & GI & KK & M' & U' & LA & HW & HI & HC).
    assert (T' : h_t c' = t) by (destruct SM as (-> & _); exact T).
    split; [|split].
    - split; [exact R|]. split; [|split; [exact F'|exact FJ]].
      eapply Forall_impl; [|exact GD]. intros ka (G1 & G2 & G3 & G4 & G5 & G6 & G7).
      split; [eapply posed_box; eauto; congruence|exact G6].
    - split; [exact F'|]. exists c'. auto 8.
    - exists c', k, a. auto 12. }
  unfold OptimizeTNLP. destruct (y_cache y) as [c|].
  - destruct Y as (C & U). rewrite U. eapply safe_bind; [eapply new_cache_safe; eauto|]. intros c' P.
    rewrite destroy_ok by exact C. cbn [bind]. apply K, P.
  - eapply safe_bind; [eapply new_cache_safe; eauto|]. intros c' P. apply K, P.
Qed.
Lemma ReOptimizeTNLP_safe md re fuel n m t b y g : qp_ok n m t -> box_ok n m b -> yinv t false y -> ends fuel t (y_fill y) ->
  safe dv (ReOptimizeTNLP bqpd md re fuel b y g) (fun '(r, y', g', l) => solved b t y y' g' l r /\ yinv t false y' /\ ready t g' l y').
Proof.
  intros QP BX (F & c & YC & C & T & M & _) EN. unfold ReOptimizeTNLP. rewrite YC.
  eapply safe_imp; [|eapply callOptimizer_safe; eauto].
  - intros (((r, y'), g'), l) (R & GD & F' & FJ & _ & _ & c' & k & a & YC' & C' & SM & GI & KK & M' & U' & LA & HW & HI & HC).
    assert (T' : h_t c' = t) by (destruct SM as (-> & _); exact T).
    split; [|split].
    + split; [exact R|]. split; [|split; [exact F'|exact FJ]].
      eapply Forall_impl; [|exact GD]. intros ka (G1 & G2 & G3 & G4 & G5 & G6 & G7). cbn in G1, G4, G5.
      split; [eapply posed_box; eauto; congruence|exact G6].
    + split; [exact F'|]. exists c'. split; [exact YC'|]. split; [exact C'|]. split; [exact T'|]. split; [exact M'|discriminate].
    + exists c', k, a. auto 12.
  - cbn. discriminate.
Qed.
(** The state is kept as it is by the mark. *)
Lemma bsol_mark_ok re t g l y first : yinv t first y -> ready t g l y ->
  exists y' c c' k a, bsol_mark re y g = Ok y' /\ yinv t first y' /\ y_cache y = Some c /\ y_cache y' = Some c' /\
    last (map Some l) None = Some (k, a) /\ h_hot c' = HLive (a_w a) (a_com a) /\ h_have c' = true /\ h_w c' = a_w a /\
    h_next c' = re /\ h_piv c' = h_piv c /\ h_bad c' = h_bad c /\ ginv c' g /\ y_fill y' = y_fill y.
Proof.
  intros (F & c & YC & C & T & M & U) (c0 & k & a & YC0 & C0 & T0 & GI & KK & M0 & LA & HW & HI & HC).
  assert (c0 = c) by congruence. subst c0.
  unfold bsol_mark. rewrite YC. unfold markHotStart. pose proof C as (W & MX & ML & K & L & H).
  pose proof W as (W1 & W2 & W3 & W4 & W5 & W6 & W7 & W8 & W9 & W10 & W11 & W12).
  rewrite !copy_of_ok by assumption. cbn [bind].
  eexists _, c, _, k, a. split; [reflexivity|]. split.
  - split; [exact F|]. eexists. split; [reflexivity|]. split; [|cbn; auto].
    unfold cinv. cbn. split; [exact W|]. split; [exact MX|]. split; [exact ML|]. split; [exact K|]. split; [exact L|].
    unfold hinv. cbn. split; [destruct (h_w c); exact W|]. split; [exact GI|exact KK].
  - split; [reflexivity|]. split; [reflexivity|]. split; [exact LA|]. cbn. rewrite HC, HW. destruct (a_w a).
    repeat (split; [reflexivity|]). split; [|reflexivity]. rewrite <- HC. exact GI.
Qed.

(** ** Whole histories *)
Variable oth : tqp -> box -> bool -> Itf_Model.rstatus * list Q * Q * list Q.
Variable qp_of : list Q -> list Q -> tqp.
Variables (filter : bool) (o : opts) (gl gu : list ext) (fuel n m : nat).
Hypothesis Ho : oth_ok oth.
Hypothesis Hq : forall x du, length x = n -> qp_ok n m (qp_of x du).
Hypothesis Hg : length gl = m /\ length gu = m.
Hypothesis Hf : 0 < o_fill o.
Hypothesis He : forall x du, length x = n -> ends fuel (qp_of x du) (o_fill o).

Definition zinv (marked : bool) (z : state) : Prop :=
  length (z_xl z) = n /\ length (z_xu z) = n /\ length (z_x z) = n /\
  if marked then
    z_before z <> None /\ exists t first, z_tqp z = Some t /\ qp_ok n m t /\ z_first z = Some first /\
      if filter then exists y, z_sol z = Some (SBqpd y) /\ yinv t first y /\ ends fuel t (y_fill y) else z_sol z = Some SOther
  else z_sol z = None.
Lemma the_box_ok mk z : zinv mk z -> box_ok n m (the_box gl gu z).
Proof. intros (A & B & _). unfold box_ok. cbn. tauto. Qed.
Lemma report_len t l r : qp_ok n m t -> report_ok t l r -> length (r_x r) = n.
Proof. intros (N & _) (k & a & d & f & _ & _ & _ & L & _). congruence. Qed.
(** What is said of the calls of a solve. *)
Definition fine (b : box) (t : tqp) (l : list (call * answer)) : Prop :=
  Forall (fun ka => posed b t (fst ka) /\ in_place (fst ka)) l.
Lemma mark_safe z : zinv false z ->
  safe dv (mark bqpd qp_of filter o gl gu fuel z) (fun '(z', l) => zinv true z' /\
    z_tqp z' = Some (qp_of (z_x z) (z_du z)) /\ fine (the_box gl gu z) (qp_of (z_x z) (z_du z)) l /\
    z_xl z' = z_xl z /\ z_xu z' = z_xu z /\ z_before z' = Some (z_status z) /\ z_status z' = z_status z /\
    (filter = true -> exists r, report_ok (qp_of (z_x z) (z_du z)) l r /\ z_x z' = r_x r /\ z_obj z' = r_obj r)).
Proof.
  intros I. pose proof (the_box_ok _ _ I) as BX. destruct I as (XL & XU & X & SOL).
  pose proof (Hq (z_x z) (z_du z) X) as QP. unfold mark, zinv. destruct filter eqn:FE.
  - eapply safe_bind; [eapply OptimizeTNLP_safe; [exact QP|exact BX|exact Hf|apply He, X|exact Logic.I]|].
    intros (((r, y), g), l) ((R & FI & F & (j & FJ)) & YI & RD). cbn [z_m0de z_reinit z_com z_sol y_fill] in *.
    assert (EN : ends fuel (qp_of (z_x z) (z_du z)) (y_fill y)).
    { eapply ends_more; [apply He, X|]. rewrite FJ. apply twice_more, Hf. }
    destruct (is_optimal (r_st r)) eqn:IO.
    + destruct (bsol_mark_ok (o_reinit o) _ _ _ _ _ YI RD) as (y' & c & c' & k & a & -> & YI' & YC & YC' & LA & _ & _ & _ & _ & _ & _ & _ & YF). cbn [bind].
      unfold drop_solver. cbn [z_sol]. rewrite SOL. cbn [bind safe].
      split; [|cbn; split; [reflexivity|split; [exact FI|repeat split; eauto]]].
      split; [exact XL|]. split; [exact XU|]. split; [cbn; eapply report_len; eauto|].
      split; [cbn; discriminate|]. eexists _, false. cbn. split; [reflexivity|]. split; [exact QP|]. split; [reflexivity|].
      exists y'. split; [reflexivity|]. split; [|rewrite YF; exact EN]. destruct YI' as (A1 & c2 & A2 & A3 & A4 & A5 & A6). split; [exact A1|].
      exists c2. split; [exact A2|]. split; [exact A3|]. split; [exact A4|]. split; [exact A5|discriminate].
    + unfold drop_solver. cbn [z_sol]. rewrite SOL. cbn [bind safe].
      split; [|cbn; split; [reflexivity|split; [exact FI|repeat split; eauto]]].
      split; [exact XL|]. split; [exact XU|]. split; [cbn; eapply report_len; eauto|].
      split; [cbn; discriminate|]. eexists _, true. cbn. split; [reflexivity|]. split; [exact QP|]. split; [reflexivity|].
      exists y. split; [reflexivity|]. split; [exact YI|exact EN].
  - cbn [z_sol]. rewrite SOL. cbn.
    split; [|split; [reflexivity|split; [constructor|repeat split; try reflexivity; discriminate]]].
    split; [exact XL|]. split; [exact XU|]. split; [exact X|]. split; [cbn; discriminate|].
    eexists _, true. cbn. auto.
Qed.
Lemma trial_safe z : zinv true z ->
  safe dv (trial bqpd oth gl gu fuel z) (fun '(z', l) => zinv true z' /\ z_tqp z' = z_tqp z /\
    (exists t, z_tqp z = Some t /\ fine (the_box gl gu z) t l /\ (filter = true -> reported t l z')) /\
    z_xl z' = z_xl z /\ z_xu z' = z_xu z /\ z_before z' = z_before z).
Proof.
  intros I. pose proof (the_box_ok _ _ I) as BX. destruct I as (XL & XU & X & BF & t & first & T & QP & FI & SOL).
  unfold trial, zinv. rewrite T, FI. destruct filter eqn:FE.
  - destruct SOL as (y & -> & YI & EN).
    eapply safe_bind with (P := fun '(r, y', g', l) => solved (the_box gl gu z) t y y' g' l r /\ yinv t first y').
    + destruct first.
      * eapply safe_imp; [|eapply OptimizeTNLP_safe; [exact QP|exact BX|apply YI|exact EN|]].
        -- intros (((r, y'), g'), l) (A & B & C). auto.
        -- destruct YI as (_ & c & -> & C & _ & _ & U). auto.
      * eapply safe_imp; [|eapply ReOptimizeTNLP_safe; eauto].
        intros (((r, y'), g'), l) (A & B & C). auto.
    + intros (((r, y'), g'), l) ((R & FN & F & (j & FJ)) & YI'). cbn [safe].
      assert (EN' : ends fuel t (y_fill y')) by (eapply ends_more; [exact EN|]; rewrite FJ; apply twice_more, YI).
      split; [|cbn; split; [exact T|split; [|repeat split; reflexivity]]].
      * split; [exact XL|]. split; [exact XU|]. split; [cbn; eapply report_len; eauto|]. split; [exact BF|].
        exists t, (if is_optimal (r_st r) then false else first). cbn. split; [exact T|]. split; [exact QP|]. split; [reflexivity|].
        exists y'. split; [reflexivity|]. split; [|exact EN']. destruct YI' as (A1 & c2 & A2 & A3 & A4 & A5 & A6). split; [exact A1|].
        exists c2. split; [exact A2|]. split; [exact A3|]. split; [exact A4|]. split; [exact A5|].
        destruct (is_optimal (r_st r)); [discriminate|exact A6].
      * exists t. split; [reflexivity|]. split; [exact FN|]. intros _. exact R.
  - rewrite SOL. pose proof (Ho t (the_box gl gu z) (negb first)) as HO.
    destruct (oth t (the_box gl gu z) (negb first)) as (((stt, d), f), du). cbn [fst snd] in HO.
    destruct (vadd_ok (t_x0 t) d) as (x & -> & XL' & _). { destruct QP as (N & M & X0 & _). congruence. }
    cbn [bind safe].
    split; [|cbn; split; [exact T|split; [|repeat split; reflexivity]]].
    + split; [exact XL|]. split; [exact XU|]. split; [cbn; destruct QP as (N & M & X0 & _); congruence|]. split; [exact BF|].
      eexists t, _. cbn. split; [exact T|]. split; [exact QP|]. split; reflexivity.
    + exists t. split; [reflexivity|]. split; [constructor|discriminate].
Qed.
Lemma unmark_safe z : zinv true z ->
  safe dv (unmark z) (fun z' => zinv false z' /\ z_xl z' = z_xl z /\ z_xu z' = z_xu z /\ z_x z' = z_x z /\ z_du z' = z_du z /\
     z_obj z' = z_obj z /\ z_before z = Some (z_status z')).
Proof.
  intros (XL & XU & X & BF & t & first & T & QP & FI & SOL). unfold unmark.
  assert (D : drop_solver z = Ok tt).
  { unfold drop_solver. destruct filter.
    - destruct SOL as (y & -> & (_ & c & YC & C & _) & _). unfold bsol_destroy. rewrite YC. apply destroy_ok, C.
    - rewrite SOL. reflexivity. }
  rewrite D. cbn [bind]. destruct (z_before z) as [b|] eqn:E; [|congruence]. cbn.
  split; [|repeat split]. split; [exact XL|]. split; [exact XU|]. split; [exact X|reflexivity].
Qed.

(** The state reached and what was seen on the way. *)
Definition node_of (marked : bool) (z : state) (node : option (list Q * list Q)) : Prop :=
  forall x du, node = Some (x, du) -> marked = false -> z_x z = x /\ z_du z = du.
Fixpoint marked_after (mk : bool) (ps : list op) : bool :=
  match ps with [] => mk | Mark :: ps => marked_after true ps | Unmark :: ps => marked_after false ps | _ :: ps => marked_after mk ps end.
Lemma run_safe ps : forall mk z node, legal n mk ps -> zinv mk z -> node_of mk z node -> (mk = true -> node = None) ->
  safe dv (run bqpd oth qp_of filter o gl gu fuel ps z) (fun '(z', es) =>
    zinv (marked_after mk ps) z' /\
    posed_all qp_of (the_box gl gu z) node (if mk then z_tqp z else None) ps es /\
    Forall (fun ka => in_place (fst ka)) (concat (map calls_of es)) /\
    (filter = true -> reported_all (if mk then z_tqp z else None) ps es)).
Proof.
  induction ps as [|p ps IH]; intros mk z node LG I ND NM.
  - cbn. auto.
  - cbn [run].
    destruct p as [xl xu|x du obj r g|g md re| | |]; cbn [legal] in LG.
    + destruct LG as (L1 & L2 & LG). cbn [step bind].
      eapply safe_bind; [apply (IH mk _ node LG)|].
      * destruct I as (A & B & C & D). split; [exact L1|]. split; [exact L2|]. split; [exact C|exact D].
      * exact ND.
      * exact NM.
      * intros (z', es) (A & B & C & D). cbn. auto.
    + destruct LG as (-> & L1 & LG). cbn [step bind].
      eapply safe_bind; [apply (IH false _ (Some (x, du)) LG)|].
      * destruct I as (A & B & C & D). split; [exact A|]. split; [exact B|]. split; [exact L1|exact D].
      * intros x' du' E _. injection E as <- <-. auto.
      * discriminate.
      * intros (z', es) (A & B & C & D). cbn. auto.
    + cbn [step bind]. eapply safe_bind; [apply (IH mk _ node LG)|].
      * exact I.
      * exact ND.
      * exact NM.
      * intros (z', es) (A & B & C & D). cbn. auto.
    + destruct LG as (-> & LG). cbn [step].
      eapply safe_bind2; [apply mark_safe, I|].
      * intros (z1, l) (I1 & T1 & F1 & X1 & X2 & B1 & S1 & R1). cbn [bind].
        eapply safe_bind; [apply (IH true z1 None LG I1)|].
        -- intros x du E. discriminate.
        -- reflexivity.
        -- intros (z', es) (A & B & C & D). cbn [safe posed_all marked_after map concat calls_of reported_all].
           split; [exact A|]. split; [split; [|split]|].
           ++ intros x du E. destruct (ND x du E eq_refl) as (-> & ->). reflexivity.
           ++ eapply Forall_impl; [|exact F1]. intros ka (K & _). exact K.
           ++ rewrite T1 in B. unfold the_box in *. rewrite X1, X2 in B. exact B.
           ++ split; [apply Forall_app; split; [|exact C]|].
              ** eapply Forall_impl; [|exact F1]. intros ka (_ & K). exact K.
              ** rewrite T1 in D. exact D.
    + destruct LG as (-> & LG). cbn [step].
      eapply safe_bind2; [apply trial_safe, I|].
      * intros (z1, l) (I1 & T1 & (t & T2 & F1 & R1) & X1 & X2 & B1). cbn [bind].
        eapply safe_bind; [apply (IH true z1 None LG I1)|].
        -- intros x du E. discriminate.
        -- reflexivity.
        -- intros (z', es) (A & B & C & D). cbn [safe posed_all marked_after map concat calls_of reported_all].
           split; [exact A|]. split; [split|].
           ++ exists t. split; [exact T2|]. eapply Forall_impl; [|exact F1]. intros ka (K & _). exact K.
           ++ rewrite T1 in B. unfold the_box in *. rewrite X1, X2 in B. exact B.
           ++ split; [apply Forall_app; split; [|exact C]|].
              ** eapply Forall_impl; [|exact F1]. intros ka (_ & K). exact K.
              ** intros FT. split; [exists t; split; [exact T2|exact (R1 FT)]|]. rewrite T1 in D. exact (D FT).
    + destruct LG as (-> & LG). cbn [step].
      eapply safe_bind2; [apply unmark_safe, I|].
      * intros z1 (I1 & X1 & X2 & _). cbn [bind].
        eapply safe_bind; [apply (IH false z1 None LG I1)|].
        -- intros x du E. discriminate.
        -- reflexivity.
        -- intros (z', es) (A & B & C & D). cbn [safe posed_all marked_after map concat calls_of reported_all].
           split; [exact A|]. rewrite (NM eq_refl). split; [|auto]. unfold the_box in *. rewrite X1, X2 in B. exact B.
Qed.
End B.
