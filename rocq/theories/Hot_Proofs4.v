(** Whole histories: what the calls start from. *)
From Verif Require Import Base Arr Hot_Model Hot_Spec Hot_Proofs Hot_Proofs2 Hot_Proofs3.
From Verif Require Itf_Model Nls_Model.
#[local] Open Scope Q_scope.

Lemma concat_nil_app {A} (l : list A) : [] ++ l = l.
Proof. reflexivity. Qed.
Lemma last_snoc {A} (l : list A) x : last (map Some (l ++ [x])) None = Some x.
Proof. rewrite map_app. cbn [map]. apply last_last. Qed.
Lemma last_in {A} (l : list A) x : last (map Some l) None = Some x -> exists r, l = r ++ [x].
Proof.
  destruct l as [|y l] using rev_ind; [discriminate|]. rewrite last_snoc. intros H. injection H as <-. eauto.
Qed.
Section B.
Variable bqpd : call -> answer.
Hypothesis Hb : honest bqpd.
Let dv := True.
Lemma callOptimizer_inv md re fuel c y g r y' g' l : callOptimizer bqpd md re fuel c y g = Ok (r, y', g', l) ->
  exists s, optimize bqpd md re fuel (mkS c (y_fill y) g []) = Ok s /\ y_cache y' = Some (s_c s) /\ g' = s_com s /\ l = s_log s /\
    r_st r = fst (Nls_Model.bqpd_status (h_ifail (s_c s))) /\ y_kmax y' = y_kmax y /\ y_mlp y' = y_mlp y.
Proof.
  intros E. unfold callOptimizer in E. apply bind_inv in E. destruct E as (s & E1 & E). exists s. split; [exact E1|].
  destruct (Nls_Model.bqpd_status (h_ifail (s_c s))) as [stt sr] eqn:SE.
  apply bind_inv in E. destruct E as (d & _ & E). apply bind_inv in E. destruct E as (x & _ & E).
  destruct (w_f (h_w (s_c s))); [|discriminate]. injection E as <- <- <- <-. cbn. auto 8.
Qed.
Lemma optimal_iff z : is_optimal (fst (Nls_Model.bqpd_status z)) = true <-> z = 0%Z.
Proof.
  destruct (bqpd_status_cases z) as [(B & Z0) | [(B & Z0) | (B & Z0)]]; rewrite B; cbn.
  - tauto.
  - split; [discriminate|lia].
  - split; [discriminate|lia].
Qed.
Lemma new_cache_fields km mlp fill t b c : new_cache km mlp fill t b = Ok c ->
  h_t c = t /\ h_use c = false /\ h_have c = false /\ h_bad c = false /\ h_piv c = 0%Z.
Proof.
  intros E. unfold new_cache in E.
  apply bind_inv in E. destruct E as (? & _ & E). apply bind_inv in E. destruct E as (? & _ & E).
  apply bind_inv in E. destruct E as (? & _ & E). apply bind_inv in E. destruct E as (? & _ & E).
  apply bind_inv in E. destruct E as (? & _ & E). injection E as <-. cbn. auto.
Qed.
(** What a solve shows; [H] is what was solved before. *)
Definition shows (al : Prop) (H : list (call * answer)) (md : Z) (l : list (call * answer)) : Prop :=
  (al -> coherent H l) /\ Forall (mode_ok md) l /\ (md = 6%Z -> tried_scratch l).
Definition left_by (al : Prop) (H : list (call * answer)) (g : com) (c : cache) (b : bool) : Prop :=
  h_bad c = b /\ (al -> src H (h_w c) g /\ ginv c g /\ hotsrc H c).
Lemma callOptimizer_hist (al : Prop) H smd re fuel c y g n m t r y' g' l : qp_ok n m t -> h_t c = t ->
  cinv c -> 0 < y_fill y -> (h_use c = true -> h_m0de c = Some smd) ->
  (al -> h_use c = true -> src H (h_w c) g /\ ginv c g) -> (al -> hotsrc H c) ->
  callOptimizer bqpd smd re fuel c y g = Ok (r, y', g', l) ->
  shows al H smd l /\ (exists c', y_cache y' = Some c' /\ left_by al (H ++ l) g' c' (lost l) /\
    (h_use c = true -> h_bad c = false -> h_use c' = false) /\
    exists k a q, l = (k, a) :: q /\ h_piv c' = (h_piv c + pivots a)%Z /\
      (h_use c = false \/ h_bad c = true -> scratch k /\ h_use c' = h_use c)) /\
  (is_optimal (r_st r) = true <-> exists k a q, l = q ++ [(k, a)] /\ a_ifail a = 0%Z).
Proof.
  intros QP T C F U SW SH E.
  assert (U' : h_use c = true -> h_m0de c <> None) by (intros X; rewrite U by exact X; discriminate).
  pose proof (callOptimizer_safe bqpd Hb dv smd re fuel c y g n m t QP T C F U' (or_introl Logic.I)) as SF.
  pose proof (safe_ok _ _ _ _ SF E) as (_ & _ & _ & _ & _ & _ & c' & k & a & YC & C' & SM & GI & KK & M' & UU & LA & HW & HI & HC).
  destruct (callOptimizer_inv _ _ _ _ _ _ _ _ _ _ E) as (s & EO & YC2 & GE & LE & RS & _).
  assert (CE : s_c s = c') by congruence.
  assert (SW' : al -> h_use c = true -> src H (h_w c) (s_com (set_common (mkS c (y_fill y) g [])))).
  { intros A X. destruct (SW A X) as (R & (G1 & G2 & G3 & G4 & G5 & G6)). destruct R as (k0 & a0 & I0 & W0 & G0).
    exists k0, a0. split; [exact I0|]. split; [exact W0|]. cbn. rewrite <- G0. destruct g; cbn in *. f_equal; congruence. }
  pose proof (optimize_hist bqpd Hb smd re al H smd fuel (mkS c (y_fill y) g []) s C F U (eq_refl _) SW' SH EO)
    as ((JM & JF & JA) & LS & BD & UB & k1 & a1 & q & LG & PV & CD).
  cbn [s_c] in *. rewrite CE in *. rewrite <- LE in *.
  assert (LO : lost l = Z.eqb (h_ifail c') 8) by (unfold lost; rewrite LA; congruence).
  split; [|split].
  - split; [intros A; apply (JA A)|]. split; [exact JF|]. intros S6 L. specialize (LS S6). unfold Lst in LS. rewrite CE, <- LE in LS. apply LS.
    rewrite LO in L. apply Z.eqb_eq in L. exact L.
  - exists c'. split; [exact YC|]. split; [|split; [exact UB|]].
    + split; [congruence|]. intros A. split; [|split; [exact GI|apply JA, A]].
      exists k, a. split; [|auto]. apply in_or_app. right. apply last_in in LA. destruct LA as (q0 & ->). apply in_or_app. right. left. reflexivity.
    + exists k1, a1, q. split; [exact LG|]. split; [exact PV|]. intros X. destruct (CD X) as (Y1 & Y2 & _). auto.
  - rewrite RS, optimal_iff. split.
    + intros Z0. apply last_in in LA. destruct LA as (q0 & Q0). exists k, a, q0. split; [exact Q0|congruence].
    + intros (k0 & a0 & q0 & Q0 & Z0). rewrite Q0, last_snoc in LA. injection LA as -> ->. congruence.
Qed.

Variable oth : tqp -> box -> bool -> Itf_Model.rstatus * list Q * Q * list Q.
Variable qp_of : list Q -> list Q -> tqp.
Variables (o : opts) (gl gu : list ext) (fuel n m : nat).
Hypothesis Ho : oth_ok oth.
Hypothesis Hq : forall x du, length x = n -> qp_ok n m (qp_of x du).
Hypothesis Hg : length gl = m /\ length gu = m.
Hypothesis Hf : 0 < o_fill o.
Lemma He : forall x du, length x = n -> ends dv fuel (qp_of x du) (o_fill o).
Proof. intros. left. exact Logic.I. Qed.
Notation zi := (zinv dv true fuel n m).

Definition HI (al mo : Prop) (H : list (call * answer)) (b : bool) (z : state) : Prop :=
  zi true z /\ (mo -> z_m0de z = o_m0de o) /\
  exists y c, z_sol z = Some (SBqpd y) /\ y_cache y = Some c /\ left_by al H (z_com z) c b.
Definition UI (marked : bool) (al mo : Prop) H b z : Prop := if marked then HI al mo H b z else zi false z.

Lemma trial_hist (al mo : Prop) H b z z' l : HI al mo H b z -> trial bqpd oth gl gu fuel z = Ok (z', l) ->
  HI al mo (H ++ l) (lost l) z' /\ shows al H (z_m0de z) l /\ (b = true -> exists k a r, l = (k, a) :: r /\ scratch k).
Proof.
  intros (I & MO & y & c & SO & YC & BD & LB) E.
  pose proof (trial_safe bqpd Hb dv oth true gl gu fuel n m Ho Hg z I) as TS.
  pose proof (safe_ok _ _ _ _ TS E) as (I' & _).
  pose proof (the_box_ok dv true gl gu fuel n m Hg _ _ I) as BX.
  destruct I as (XL & XU & X & BF & t & first & T & QP & FI & y0 & SO0 & (F & c0 & YC0 & C & TC & M & UF) & _).
  assert (y0 = y) by congruence. subst y0. assert (c0 = c) by congruence. subst c0.
  unfold trial in E. rewrite SO, T, FI in E.
  apply bind_inv in E. destruct E as ((((r, y'), g'), l') & E1 & E). injection E as Ez El. subst l'.
  assert (FIN : forall c', y_cache y' = Some c' -> left_by al (H ++ l) g' c' (lost l) -> HI al mo (H ++ l) (lost l) z').
  { intros c' YC' LB'. split; [exact I'|]. rewrite <- Ez. cbn. split; [exact MO|]. exists y', c'. auto. }
  destruct first.
  - unfold OptimizeTNLP in E1. rewrite YC, UF in E1 by reflexivity. apply bind_inv in E1. destruct E1 as (c1 & EN & E1).
    apply bind_inv in E1. destruct E1 as (d & _ & E1).
    pose proof (new_cache_fields _ _ _ _ _ _ EN) as (N1 & N2 & N3 & N4 & N5).
    pose proof (new_cache_safe dv n m (y_kmax y) (y_mlp y) (y_fill y) t (the_box gl gu z) QP F) as NS.
    pose proof (safe_ok _ _ _ _ NS EN) as (NC & _).
    destruct (callOptimizer_hist al H (z_m0de z) (z_reinit z) fuel c1 y (init_com (z_com z)) n m t r y' g' l QP N1 NC F)
      as (SHW & (c' & YC' & LB' & _ & k & a & q & LQ & PV & CD) & _).
    { congruence. } { congruence. } { intros _ V. congruence. } { exact E1. }
    split; [eapply FIN; eauto|]. split; [exact SHW|]. intros _. exists k, a, q. split; [exact LQ|]. apply CD. left. exact N2.
  - unfold ReOptimizeTNLP in E1. rewrite YC in E1.
    set (c1 := upd_bounds c _ _ true (z_m0de z)) in E1.
    destruct (callOptimizer_hist al H (z_m0de z) (z_reinit z) fuel c1 y (z_com z) n m t r y' g' l QP TC C F)
      as (SHW & (c' & YC' & LB' & _ & k & a & q & LQ & PV & CD) & _); try exact E1.
    { intros _. reflexivity. }
    { intros A _. destruct (LB A) as (S1 & S2 & S3). split; [exact S1|exact S2]. }
    { intros A. apply (LB A). }
    split; [eapply FIN; eauto|]. split; [exact SHW|]. intros Bt. exists k, a, q. split; [exact LQ|]. apply CD. right. cbn. congruence.
Qed.
Lemma mark_hist (al mo : Prop) H z z' l : zi false z -> mark bqpd qp_of true o gl gu fuel z = Ok (z', l) ->
  HI al mo (H ++ l) (lost l) z' /\ shows al H (o_m0de o) l /\ z_m0de z' = o_m0de o /\ z_reinit z' = o_reinit o /\
  (forall q k a, l = q ++ [(k, a)] -> a_ifail a = 0%Z ->
     z_first z' = Some false /\ exists y c k1 a1 q1, z_sol z' = Some (SBqpd y) /\ y_cache y = Some c /\
       h_have c = true /\ h_hot c = HLive (a_w a) (a_com a) /\ h_w c = a_w a /\ h_bad c = false /\ h_next c = o_reinit o /\
       l = (k1, a1) :: q1 /\ h_piv c = pivots a1).
Proof.
  intros I E.
  pose proof (mark_safe bqpd Hb dv qp_of true o gl gu fuel n m Hq Hg Hf He z I) as MS.
  pose proof (safe_ok _ _ _ _ MS E) as (I' & _).
  destruct I as (XL & XU & X & SOL).
  pose proof (Hq (z_x z) (z_du z) X) as QP. unfold mark in E.
  apply bind_inv in E. destruct E as ((((r, y), g'), l') & E1 & E). cbn [z_m0de z_reinit z_com z_sol] in *.
  unfold OptimizeTNLP in E1. cbn [y_cache y_kmax y_mlp y_fill] in E1.
  apply bind_inv in E1. destruct E1 as (c1 & EN & E1).
  pose proof (new_cache_fields _ _ _ _ _ _ EN) as (N1 & N2 & N3 & N4 & N5).
  pose proof (new_cache_safe dv n m (o_kmax o) (o_mlp o) (o_fill o) _ (the_box gl gu z) QP Hf) as NS.
  pose proof (safe_ok _ _ _ _ NS EN) as (NC & _).
  destruct (callOptimizer_hist al H (o_m0de o) (o_reinit o) fuel c1 (mkBs (o_fill o) (o_kmax o) (o_mlp o) None) (init_com (z_com z)) n m _ r y g' l' QP N1 NC Hf)
    as (SHW & (c' & YC' & LB' & _ & k & a & q & LQ & PV & CD) & OPT).
  { congruence. } { congruence. } { intros _ V. congruence. } { exact E1. }
  destruct (is_optimal (r_st r)) eqn:IO.
  - apply bind_inv in E. destruct E as (y2 & EM & E). apply bind_inv in E. destruct E as (d & _ & E). injection E as Ez El. subst l'.
    pose proof (callOptimizer_safe bqpd Hb dv (o_m0de o) (o_reinit o) fuel c1 (mkBs (o_fill o) (o_kmax o) (o_mlp o) None) (init_com (z_com z)) n m _ QP N1 NC Hf
                  (fun U => ltac:(congruence)) (or_introl Logic.I)) as CS.
    pose proof (safe_ok _ _ _ _ CS E1) as (_ & _ & F' & _ & _ & _ & c2 & k2 & a2 & YC2 & C2 & SM & GI & KK & M' & UU & LA & HW & HIF & HC).
    assert (c2 = c') by congruence. subst c2.
    assert (TE : h_t c' = qp_of (z_x z) (z_du z)) by (destruct SM as (-> & _); exact N1).
    destruct (bsol_mark_ok (o_reinit o) (qp_of (z_x z) (z_du z)) g' l y false) as (y' & c0 & c3 & k3 & a3 & EM' & _ & YC0 & YC3 & LA3 & HH & HV & HW3 & HN & HP & HB & HGI & _).
    { split; [exact F'|]. exists c'. split; [exact YC'|]. split; [exact C2|]. split; [exact TE|]. split; [exact M'|discriminate]. }
    { exists c', k2, a2. auto 12. }
    assert (y' = y2) by congruence. subst y'. assert (c0 = c') by congruence. subst c0.
    rewrite LA in LA3. injection LA3 as <- <-.
    assert (GE : g' = z_com z') by (rewrite <- Ez; reflexivity).
    assert (BE : h_bad c3 = lost l) by (rewrite HB; apply LB').
    split; [|split; [exact SHW|split; [rewrite <- Ez; reflexivity|split; [rewrite <- Ez; reflexivity|]]]].
    + split; [exact I'|]. split; [intros _; rewrite <- Ez; reflexivity|]. exists y2, c3. rewrite <- Ez. cbn. split; [reflexivity|]. split; [exact YC3|].
      split; [exact BE|]. intros A.
      assert (S0 : src (H ++ l) (a_w a2) (a_com a2)).
      { exists k2, a2. split; [|auto]. apply in_or_app. right. apply last_in in LA. destruct LA as (q0 & ->). apply in_or_app. right. left. reflexivity. }
      split; [rewrite HW3, HC; exact S0|]. split.
      * exact HGI.
      * intros _. exists (a_w a2), (a_com a2). auto.
    + intros q0 k0 a0 LQ0 Z0. split; [rewrite <- Ez; reflexivity|]. exists y2, c3, k, a, q.
      rewrite LQ0, last_snoc in LA. injection LA as -> ->.
      split; [rewrite <- Ez; reflexivity|]. split; [exact YC3|]. split; [exact HV|]. split; [exact HH|]. split; [exact HW3|].
      split; [|split; [exact HN|split; [exact LQ|rewrite HP, PV, N5; lia]]].
      rewrite BE. unfold lost. rewrite LQ0, last_snoc, Z0. reflexivity.
  - apply bind_inv in E. destruct E as (d & _ & E). injection E as Ez El. subst l'.
    split; [|split; [exact SHW|split; [rewrite <- Ez; reflexivity|split; [rewrite <- Ez; reflexivity|]]]].
    + split; [exact I'|]. split; [intros _; rewrite <- Ez; reflexivity|]. exists y, c'. rewrite <- Ez. cbn. auto.
    + intros q0 k0 a0 LQ0 Z0. exfalso. assert (false = true); [|discriminate]. apply OPT. eauto.
Qed.

Lemma concat_cons {A} (x : list A) l : concat (x :: l) = x ++ concat l.
Proof. reflexivity. Qed.
Lemma run_hist (al mo : Prop) ps : forall mk H b z zs es, legal n mk ps -> (al -> Forall alone ps) -> (mo -> Forall (same_options o) ps) ->
  UI mk al mo H b z -> run bqpd oth qp_of true o gl gu fuel ps z = Ok (zs, es) ->
  (al -> coherent H (concat (map calls_of es))) /\
  (mo -> Forall (mode_ok (o_m0de o)) (concat (map calls_of es))) /\
  (mo -> o_m0de o = 6%Z -> Forall tried_scratch (map calls_of es)) /\
  recovers b es.
Proof.
  induction ps as [|p ps IH]; intros mk H b z zs es LG AL MO U E.
  { cbn in E. injection E as <- <-. cbn. repeat split; constructor. }
  cbn [run] in E. apply bind_inv in E. destruct E as ((z1, e) & E1 & E).
  apply bind_inv in E. destruct E as ((z2, es1) & E2 & E). injection E as <- <-.
  assert (AL' : al -> Forall alone ps) by (intros a; apply AL in a; inversion a; assumption).
  assert (MO' : mo -> Forall (same_options o) ps) by (intros a; apply MO in a; inversion a; assumption).
  assert (QUIET : e = EOther -> forall mk', legal n mk' ps -> UI mk' al mo H b z1 ->
     (al -> coherent H (concat (map calls_of (e :: es1)))) /\
     (mo -> Forall (mode_ok (o_m0de o)) (concat (map calls_of (e :: es1)))) /\
     (mo -> o_m0de o = 6%Z -> Forall tried_scratch (map calls_of (e :: es1))) /\ recovers b (e :: es1)).
  { intros -> mk' LG' U'. destruct (IH mk' H b z1 z2 es1 LG' AL' MO' U' E2) as (A1 & A2 & A3 & A4).
    cbn [map calls_of recovers]. rewrite concat_cons. cbn [app]. split; [exact A1|]. split; [exact A2|]. split; [|exact A4].
    intros a b6. constructor; [intros X; discriminate X|auto]. }
  assert (BUSY : forall l md z', calls_of e = l -> (mo -> md = o_m0de o) -> shows al H md l -> UI true al mo (H ++ l) (lost l) z' -> z' = z1 ->
     legal n true ps ->
     (al -> coherent H (concat (map calls_of (e :: es1)))) /\
     (mo -> Forall (mode_ok (o_m0de o)) (concat (map calls_of (e :: es1)))) /\
     (mo -> o_m0de o = 6%Z -> Forall tried_scratch (map calls_of (e :: es1))) /\ recovers (lost l) es1).
  { intros l md z' CE MD (S1 & S2 & S3) U' -> LG'. destruct (IH true (H ++ l) (lost l) z1 z2 es1 LG' AL' MO' U' E2) as (A1 & A2 & A3 & A4).
    cbn [map]. rewrite concat_cons, CE. split; [intros a; apply coherent_app; auto|].
    split; [intros a; apply Forall_app; rewrite <- MD by exact a; rewrite <- MD in A2 by exact a; auto|].
    split; [|exact A4]. intros a b6. constructor; [apply S3; rewrite MD by exact a; exact b6|auto]. }
  destruct p as [xl xu|x du obj r g|g md re| | |]; cbn [legal] in LG; cbn [step] in E1.
  - destruct LG as (L1 & L2 & LG). injection E1 as <- <-. eapply QUIET; [reflexivity|exact LG|]. destruct mk.
    + destruct U as ((_ & _ & X & REST) & M & y & c & SO & YC & LB).
      split; [split; [exact L1|split; [exact L2|split; [exact X|exact REST]]]|]. split; [exact M|]. exists y, c. auto.
    + destruct U as (_ & _ & X & REST). split; [exact L1|]. split; [exact L2|]. split; [exact X|exact REST].
  - destruct LG as (-> & L1 & LG). injection E1 as <- <-. eapply QUIET; [reflexivity|exact LG|].
    destruct U as (X1 & X2 & X & REST). split; [exact X1|]. split; [exact X2|]. split; [exact L1|exact REST].
  - injection E1 as <- <-. eapply QUIET; [reflexivity|exact LG|]. destruct mk.
    + destruct U as (ZI & M & y & c & SO & YC & LB & _). split; [exact ZI|]. split.
      * intros a. apply MO in a. inversion a as [|? ? HX _]. apply HX.
      * exists y, c. split; [exact SO|]. split; [exact YC|]. split; [exact LB|]. intros a. apply AL in a. inversion a as [|? ? HX _]. destruct HX.
    + exact U.
  - destruct LG as (-> & LG). apply bind_inv in E1. destruct E1 as ((z', l) & EM & E1). injection E1 as <- <-.
    destruct (mark_hist al mo H z z' l U EM) as (U' & SH & M & _).
    destruct (BUSY l (o_m0de o) z' eq_refl (fun _ => eq_refl) SH U' eq_refl LG) as (A1 & A2 & A3 & A4). cbn [recovers]. auto.
  - destruct LG as (-> & LG). apply bind_inv in E1. destruct E1 as ((z', l) & EM & E1). injection E1 as <- <-.
    destruct (trial_hist al mo H b z z' l U EM) as (U' & SH & SC).
    destruct (BUSY l (z_m0de z) z' eq_refl (proj1 (proj2 U)) SH U' eq_refl LG) as (A1 & A2 & A3 & A4). cbn [recovers]. auto.
  - destruct LG as (-> & LG). apply bind_inv in E1. destruct E1 as (z' & EM & E1). injection E1 as <- <-.
    eapply QUIET; [reflexivity|exact LG|]. destruct U as (ZI & _).
    pose proof (unmark_safe dv true fuel n m z ZI) as US. apply (safe_ok _ _ _ _ US EM).
Qed.

(** ** Smooth trials *)
Definition hotz (am : answer) (z : state) (c : cache) : Prop :=
  zi true z /\ z_first z = Some false /\ h_have c = true /\ h_hot c = HLive (a_w am) (a_com am) /\ h_bad c = false /\
  exists y, z_sol z = Some (SBqpd y) /\ y_cache y = Some c.
Definition bump_of (z : state) (c : cache) : Z := bump (z_reinit z) (Z.to_nat (h_piv c - h_next c)) (h_next c) (h_piv c).
Definition begins (am : answer) (z : state) (c : cache) (t : tqp) (k : call) (next : Z) : Prop :=
  exists w g, k = mkCall t (h_kmax c) (h_mlp c) (qp_lo t (the_box gl gu z)) (qp_up t (the_box gl gu z)) w g (z_m0de z) /\
    (((h_next c < h_piv c)%Z /\ w = a_w am /\ g = a_com am /\ next = bump_of z c) \/
     ((h_piv c <= h_next c)%Z /\ w = h_w c /\ next = h_next c)).
Lemma trial_start am z z' l c : hotz am z c -> trial bqpd oth gl gu fuel z = Ok (z', l) ->
  exists k q t, z_tqp z = Some t /\ l = (k, bqpd k) :: q /\ exists next, begins am z c t k next /\
    (smooth (bqpd k) -> q = [] /\ exists c', hotz am z' c' /\ h_w c' = a_w (bqpd k) /\
       h_piv c' = (h_piv c + pivots (bqpd k))%Z /\ h_next c' = next /\ z_m0de z' = z_m0de z /\ z_reinit z' = z_reinit z /\
       z_tqp z' = z_tqp z /\ h_kmax c' = h_kmax c /\ h_mlp c' = h_mlp c).
Proof.
  intros (I & FI & HV & HH & HB & y & SO & YC) E.
  pose proof (trial_safe bqpd Hb dv oth true gl gu fuel n m Ho Hg z I) as TS.
  pose proof (safe_ok _ _ _ _ TS E) as (I' & TT & _).
  destruct I as (XL & XU & X & BF & t & first & T & QP & FI0 & y0 & SO0 & (F & c0 & YC0 & C & TC & M & UF) & _).
  assert (y0 = y) by congruence. subst y0. assert (c0 = c) by congruence. subst c0.
  unfold trial in E. rewrite SO, T, FI in E.
  apply bind_inv in E. destruct E as ((((r, y'), g'), l') & E1 & E). injection E as Ez El. subst l'.
  unfold ReOptimizeTNLP in E1. rewrite YC in E1. set (c1 := upd_bounds c _ _ true (z_m0de z)) in E1.
  destruct (callOptimizer_inv _ _ _ _ _ _ _ _ _ _ E1) as (s & EO & YC2 & GE & LE & RS & _).
  assert (CC : cinv (s_c (mkS c1 (y_fill y) (z_com z) []))) by exact C.
  destruct (optimize_eq bqpd Hb _ _ _ _ _ CC F (fun _ => ltac:(discriminate)) EO) as (s1 & md & q & ES & LS & MD & LG & SMO).
  assert (I1 : sinv (set_common (mkS c1 (y_fill y) (z_com z) []))) by (apply set_common_inv; exact C).
  destruct (start_eq bqpd _ _ _ I1 ES) as (_ & LG1 & PV1 & BD1 & HV1 & HT1 & CASES).
  destruct LS as (_ & (A1 & A2 & A3 & A4 & A5) & _).
  cbn [set_common s_c s_log c1 upd_bounds h_use h_bad h_have h_hot h_piv h_next h_m0de h_w h_t h_kmax h_mlp h_bl h_bu] in *.
  rewrite LG1 in LG. cbn [app] in LG. rewrite TC in *.
  destruct CASES as [([Q | Q] & _) | (_ & _ & MM & UU & CASES)]; [discriminate|congruence|].
  assert (MDE : md = z_m0de z) by congruence.
  exists (callof s1 md), q, t. split; [exact T|]. split; [rewrite LE; exact LG|]. exists (h_next (s_c s1)). split.
  - exists (h_w (s_c s1)), (s_com s1). split; [unfold callof; congruence|].
    destruct CASES as [(_ & LT & HL & NX) | ([V | GE'] & W & G & NX)].
    + left. split; [exact LT|]. rewrite HH in HL. injection HL as -> ->. auto.
    + congruence.
    + right. auto.
  - intros SA. specialize (SMO SA). rewrite SMO in *. unfold after1 in *. cbn [s_c s_log upd_flags upd_w] in *. rewrite LG1 in *. cbn [app] in *.
    injection LG as <-. split; [reflexivity|]. eexists. split.
    { split; [exact I'|]. rewrite <- Ez. cbn. split; [destruct (is_optimal _); reflexivity|].
      split; [|split; [|split; [|exists y'; split; [reflexivity|exact YC2]]]]; cbn; congruence. }
    cbn [h_w h_piv h_next h_kmax h_mlp]. split; [reflexivity|]. split; [rewrite PV1; reflexivity|]. split; [reflexivity|].
    split; [rewrite <- Ez; reflexivity|]. split; [rewrite <- Ez; reflexivity|]. split; [exact TT|auto].
Qed.
Lemma trial_smooth am z z' l c : hotz am z c -> trial bqpd oth gl gu fuel z = Ok (z', l) -> Forall smooth (map snd l) ->
  exists k a c', l = [(k, a)] /\ k_m0de k = z_m0de z /\ a = bqpd k /\ hotz am z' c' /\ h_w c' = a_w a /\
    h_piv c' = (h_piv c + pivots a)%Z /\ z_m0de z' = z_m0de z /\ z_reinit z' = z_reinit z /\
    (((h_next c < h_piv c)%Z /\ k_w k = a_w am /\ k_com k = a_com am /\ h_next c' = bump_of z c) \/
     ((h_piv c <= h_next c)%Z /\ k_w k = h_w c /\ h_next c' = h_next c)) /\
    z_tqp z' = z_tqp z /\ h_kmax c' = h_kmax c /\ h_mlp c' = h_mlp c.
Proof.
  intros HZ E SM. destruct (trial_start am z z' l c HZ E) as (k & q & t & T & LQ & next & (w & g & KE & CS) & SMO).
  assert (SA : smooth (bqpd k)) by (rewrite LQ in SM; inversion SM; assumption).
  destruct (SMO SA) as (-> & c' & HZ' & A1 & A2 & A3 & A4 & A5 & A6 & A7 & A8).
  exists k, (bqpd k), c'. split; [exact LQ|]. split; [rewrite KE; reflexivity|]. split; [reflexivity|]. split; [exact HZ'|].
  split; [exact A1|]. split; [exact A2|]. split; [exact A4|]. split; [exact A5|]. split; [|auto].
  rewrite A3, KE. cbn [k_w k_com]. destruct CS as [(B1 & B2 & B3 & B4) | (B1 & B2 & B3)]; [left|right]; auto.
Qed.
(** Between the mark and the trials nothing but bounds and the COMMON blocks change. *)
Lemma trying_step am p z z1 e c : hotz am z c -> z_m0de z = o_m0de o -> z_reinit z = o_reinit o ->
  trying n p -> same_options o p -> step bqpd oth qp_of true o gl gu fuel p z = Ok (z1, e) ->
  (e = EOther /\ hotz am z1 c /\ z_m0de z1 = o_m0de o /\ z_reinit z1 = o_reinit o /\ z_tqp z1 = z_tqp z) \/
  (exists l, e = ETrial l z1 /\ trial bqpd oth gl gu fuel z = Ok (z1, l)).
Proof.
  intros (I & FI & HV & HH & HB & SOL) M R TR SO E. destruct p as [xl xu|x du obj r g|g md re| | |]; cbn [trying] in TR; try tauto; cbn [step] in E.
  - injection E as <- <-. left. split; [reflexivity|]. split; [|auto]. destruct TR as (T1 & T2). destruct I as (_ & _ & X & REST).
    split; [split; [exact T1|split; [exact T2|split; [exact X|exact REST]]]|]. auto 8.
  - injection E as <- <-. left. split; [reflexivity|]. cbn. destruct SO as (S1 & S2). split; [|auto]. split; [exact I|]. auto 8.
  - apply bind_inv in E. destruct E as ((z', l) & E1 & E). injection E as <- <-. right. exists l. auto.
Qed.
Lemma run_trying am ps : forall z c, hotz am z c -> z_m0de z = o_m0de o -> z_reinit z = o_reinit o ->
  Forall (trying n) ps -> Forall (same_options o) ps -> forall zs es,
  run bqpd oth qp_of true o gl gu fuel ps z = Ok (zs, es) -> Forall smooth (answers es) ->
  (o_reinit o <= 0)%Z -> (h_next c < h_piv c)%Z ->
  exists c', hotz am zs c' /\ z_m0de zs = o_m0de o /\ z_reinit zs = o_reinit o /\ (h_next c' < h_piv c')%Z /\
    z_tqp zs = z_tqp z /\ h_kmax c' = h_kmax c /\ h_mlp c' = h_mlp c.
Proof.
  induction ps as [|p ps IH]; intros z c HZ M R TR SO zs es E SM RZ LT.
  { cbn in E. injection E as <- <-. exists c. auto 10. }
  cbn [run] in E. apply bind_inv in E. destruct E as ((z1, e) & E1 & E).
  apply bind_inv in E. destruct E as ((z2, es1) & E2 & E). injection E as <- <-.
  inversion TR as [|? ? T1 T2]. inversion SO as [|? ? S1 S2]. subst.
  unfold answers in SM. cbn [map] in SM. rewrite concat_cons, map_app in SM. apply Forall_app in SM. destruct SM as (SM1 & SM2).
  destruct (trying_step am p z z1 e c HZ M R T1 S1 E1) as [(-> & HZ1 & M1 & R1 & T0) | (l & -> & ET)].
  - rewrite <- T0. eapply IH; eauto.
  - destruct (trial_smooth am z z1 l c HZ ET SM1) as (k & a & c' & _ & _ & AE & HZ' & _ & PV & M' & R' & CASES & T0 & KM & ML).
    rewrite <- T0, <- KM, <- ML. eapply IH; [exact HZ'|congruence|congruence|exact T2|exact S2|exact E2|exact SM2|exact RZ|].
    destruct CASES as [(_ & _ & _ & NX) | (GE & _)]; [|lia]. unfold bump_of in NX. rewrite bump_zero in NX by lia.
    assert (0 <= pivots a)%Z; [|lia]. unfold pivots. rewrite AE. destruct (Hb k) as (_ & _ & _ & (p0 & -> & P0) & _). exact P0.
Qed.
Lemma pivots_nonneg k : (0 <= pivots (bqpd k))%Z.
Proof. unfold pivots. destruct (Hb k) as (_ & _ & _ & (p0 & -> & P0) & _). exact P0. Qed.
Lemma run_near am ps : forall z c H P0 d, hotz am z c -> z_m0de z = o_m0de o -> z_reinit z = o_reinit o ->
  Forall (trying n) ps -> Forall (same_options o) ps -> forall zs es,
  run bqpd oth qp_of true o gl gu fuel ps z = Ok (zs, es) -> Forall smooth (answers es) ->
  (0 <= o_reinit o)%Z ->
  drift am H (h_w c) d -> (d <= h_piv c - P0)%Z -> (h_next c <= P0 + o_reinit o)%Z -> near (o_reinit o) am H es.
Proof.
  induction ps as [|p ps IH]; intros z c H P0 d HZ M R TR SO zs es E SM RZ DR D1 D2.
  { cbn in E. injection E as <- <-. exact Logic.I. }
  cbn [run] in E. apply bind_inv in E. destruct E as ((z1, e) & E1 & E).
  apply bind_inv in E. destruct E as ((z2, es1) & E2 & E). injection E as <- <-.
  inversion TR as [|? ? T1 T2]. inversion SO as [|? ? S1 S2]. subst.
  unfold answers in SM. cbn [map] in SM. rewrite concat_cons, map_app in SM. apply Forall_app in SM. destruct SM as (SM1 & SM2).
  destruct (trying_step am p z z1 e c HZ M R T1 S1 E1) as [(-> & HZ1 & M1 & R1 & T0) | (l & -> & ET)].
  - cbn [near]. eapply IH; eauto.
  - destruct (trial_smooth am z z1 l c HZ ET SM1) as (k & a & c' & -> & _ & AE & HZ' & HW & PV & M' & R' & CASES & _).
    cbn [near]. pose proof (pivots_nonneg k) as PN. rewrite <- AE in PN.
    unfold bump_of in CASES. destruct CASES as [(LT & KW & KC & NX) | (GE & KW & NX)].
    + split.
      * exists k, a. split; [reflexivity|]. exists 0%Z. split; [rewrite KW; apply drift_marked|exact RZ].
      * eapply IH with (c := c') (P0 := h_piv c) (d := (0 + pivots a)%Z); [exact HZ'|congruence|congruence|exact T2|exact S2|exact E2|exact SM2|exact RZ| |lia|].
        -- rewrite HW. apply drift_next. rewrite KW. apply drift_marked.
        -- destruct (Z_lt_le_dec 0 (o_reinit o)) as [RP | RN].
           ++ pose proof (bump_le (o_reinit o) (Z.to_nat (h_piv c - h_next c)) (h_next c) (h_piv c) RP). rewrite R in NX. lia.
           ++ rewrite R, bump_zero in NX by lia. lia.
    + split.
      * exists k, a. split; [reflexivity|]. exists d. split; [rewrite KW; exact DR|lia].
      * eapply IH with (c := c') (P0 := P0) (d := (d + pivots a)%Z); [exact HZ'|congruence|congruence|exact T2|exact S2|exact E2|exact SM2|exact RZ| |lia|lia].
        rewrite HW. apply drift_next. rewrite KW. exact DR.
Qed.

(** After a mark whose QP was solved. *)
Lemma mark_hotz z z' l q k a k1 a1 q1 : zi false z -> mark bqpd qp_of true o gl gu fuel z = Ok (z', l) ->
  l = q ++ [(k, a)] -> l = (k1, a1) :: q1 -> a_ifail a = 0%Z ->
  z_m0de z' = o_m0de o /\ z_reinit z' = o_reinit o /\ exists c, hotz a z' c /\ h_w c = a_w a /\ h_next c = o_reinit o /\ h_piv c = pivots a1.
Proof.
  intros I E LQ LQ1 Z0. destruct (mark_hist True True [] z z' l I E) as (U & _ & M & R & OPT).
  destruct (OPT q k a LQ Z0) as (FI & y & c & k2 & a2 & q2 & SO & YC & HV & HH & HW & HB & HN & LQ2 & HP).
  split; [exact M|]. split; [exact R|]. exists c. split; [|split; [exact HW|split; [exact HN|congruence]]].
  split; [apply U|]. split; [exact FI|]. split; [exact HV|]. split; [exact HH|]. split; [exact HB|]. eauto.
Qed.
End B.

(** ** Requests *)
Section Req.
Variable bqpd : call -> answer.
Hypothesis Hb : honest bqpd.
Variables (md re : Z) (fuel n m : nat).
Definition rinv (y : bsol) (cur : option tqp) : Prop :=
  0 < y_fill y /\
  match y_cache y with
  | None => cur = None
  | Some c => cinv c /\ h_m0de c <> None /\ h_use c = false /\ h_bad c = false /\ cur = Some (h_t c) /\ qp_ok n m (h_t c)
  end.
Lemma solve_rinv c y g t b r y' g' l : qp_ok n m t -> box_for n m b -> h_t c = t -> cinv c -> 0 < y_fill y ->
  (h_use c = true -> h_m0de c = Some md) -> h_bad c = false -> h_bl c = qp_lo t b -> h_bu c = qp_up t b ->
  callOptimizer bqpd md re fuel c y g = Ok (r, y', g', l) -> lost l = false ->
  rinv y' (Some t) /\ Forall (fun ka => posed b t (fst ka)) l.
Proof.
  intros QP BX T C F U BD BL BU E LO.
  assert (U' : h_use c = true -> h_m0de c <> None) by (intros X; rewrite U by exact X; discriminate).
  pose proof (callOptimizer_safe bqpd Hb True md re fuel c y g n m t QP T C F U' (or_introl Logic.I)) as SF.
  pose proof (safe_ok _ _ _ _ SF E) as (_ & GD & F' & _ & _ & _ & c' & k & a & YC & C' & SM & GI & KK & M' & UU & _).
  destruct (callOptimizer_hist bqpd Hb False [] md re fuel c y g n m t r y' g' l QP T C F U) as (_ & (c2 & YC2 & (LB & _) & U1 & _) & _).
  { tauto. } { tauto. } { exact E. }
  assert (c2 = c') by congruence. subst c2. rewrite LO in LB.
  assert (T' : h_t c' = t) by (destruct SM as (-> & _); exact T).
  split.
  - split; [exact F'|]. rewrite YC. split; [exact C'|]. split; [exact M'|]. split; [destruct (h_use c); auto|].
    split; [exact LB|]. rewrite T'. auto.
  - eapply Forall_impl; [|exact GD]. intros ka (G1 & _ & _ & G4 & G5 & _). eapply posed_box; eauto; congruence.
Qed.
Lemma requests_obeyed rs : forall y g cur ls, rinv y cur -> Forall (request_ok n m) rs ->
  (y_cache y = None -> match rs with RAgain _ :: _ => False | _ => True end) ->
  requests bqpd md re fuel rs y g = Ok ls -> Forall (fun l => lost l = false) ls -> obeyed cur rs ls.
Proof.
  induction rs as [|rq rs IH]; intros y g cur ls (F & Y) RO NF E LO.
  { cbn in E. injection E as <-. exact Logic.I. }
  inversion RO as [|? ? R1 R2]. subst. destruct rq as [t b | b]; cbn [requests] in E.
  - apply bind_inv in E. destruct E as ((((r, y'), g'), l) & E1 & E). apply bind_inv in E. destruct E as (ls' & E2 & E).
    injection E as <-. inversion LO as [|? ? LO1 LO2]. subst. destruct R1 as (QP & BX). cbn [obeyed].
    assert (ST : rinv y' (Some t) /\ Forall (fun ka => posed b t (fst ka)) l).
    { unfold OptimizeTNLP in E1.
      assert (NEW : forall g0, (do c' <- new_cache (y_kmax y) (y_mlp y) (y_fill y) t b; callOptimizer bqpd md re fuel c' y g0) = Ok (r, y', g', l) ->
                rinv y' (Some t) /\ Forall (fun ka => posed b t (fst ka)) l).
      { intros g0 E0. apply bind_inv in E0. destruct E0 as (c' & EN & E0).
        pose proof (new_cache_fields _ _ _ _ _ _ EN) as (N1 & N2 & N3 & N4 & N5).
        pose proof (new_cache_safe True n m (y_kmax y) (y_mlp y) (y_fill y) t b QP F) as NS.
        pose proof (safe_ok _ _ _ _ NS EN) as (NC & _ & BL & BU & _).
        eapply solve_rinv; [exact QP|exact BX|exact N1|exact NC|exact F|congruence|exact N4|exact BL|exact BU|exact E0|exact LO1]. }
      destruct (y_cache y) as [c|] eqn:YC.
      - destruct Y as (C & M & U & B & _). rewrite U in E1. apply bind_inv in E1. destruct E1 as (c' & EN & E1).
        apply bind_inv in E1. destruct E1 as (d & _ & E1). apply (NEW (init_com g)). rewrite EN. exact E1.
      - apply (NEW (init_com g)). exact E1. }
    destruct ST as (RI & PO). split; [exact PO|]. eapply IH; [exact RI|exact R2| |exact E2|exact LO2].
    intros YN. destruct RI as (_ & RI). rewrite YN in RI. discriminate RI.
  - apply bind_inv in E. destruct E as ((((r, y'), g'), l) & E1 & E). apply bind_inv in E. destruct E as (ls' & E2 & E).
    injection E as <-. inversion LO as [|? ? LO1 LO2]. subst. cbn [obeyed request_ok] in *.
    unfold ReOptimizeTNLP in E1. destruct (y_cache y) as [c|] eqn:YC; [|destruct (NF eq_refl)].
    destruct Y as (C & M & U & B & CU & QP).
    edestruct solve_rinv as (RI & PO); [exact QP|exact R1| | | | | | | |exact E1|exact LO1|]; try reflexivity; try assumption.
    split; [exists (h_t c); auto|]. rewrite CU. eapply IH; [exact RI|exact R2| |exact E2|exact LO2].
    intros YN. destruct RI as (_ & RI). rewrite YN in RI. discriminate RI.
Qed.
End Req.

(** ** The node afterwards *)
Section After.
Variable bqpd : call -> answer.
Hypothesis Hb : honest bqpd.
Variable oth : tqp -> box -> bool -> Itf_Model.rstatus * list Q * Q * list Q.
Variable qp_of : list Q -> list Q -> tqp.
Variables (filter : bool) (o : opts) (gl gu : list ext) (fuel n m : nat).
Hypothesis Ho : oth_ok oth.
Hypothesis Hq : forall x du, length x = n -> qp_ok n m (qp_of x du).
Hypothesis Hg : length gl = m /\ length gu = m.
Hypothesis Hf : 0 < o_fill o.
Lemma run_app ps1 : forall ps2 z, run bqpd oth qp_of filter o gl gu fuel (ps1 ++ ps2) z =
  (do ' (z1, e1) <- run bqpd oth qp_of filter o gl gu fuel ps1 z; do ' (z2, e2) <- run bqpd oth qp_of filter o gl gu fuel ps2 z1; Ok (z2, e1 ++ e2)).
Proof.
  induction ps1 as [|p ps1 IH]; intros ps2 z; cbn [app run].
  - cbn [bind]. destruct (run _ _ _ _ _ _ _ _ ps2 z) as [[z2 e2]| | | | | | | ]; reflexivity.
  - destruct (step _ _ _ _ _ _ _ _ p z) as [[z1 e]| | | | | | | ]; cbn [bind]; try reflexivity. rewrite IH.
    destruct (run _ _ _ _ _ _ _ _ ps1 z1) as [[z2 es]| | | | | | | ]; cbn [bind]; try reflexivity.
    destruct (run _ _ _ _ _ _ _ _ ps2 z2) as [[z3 es']| | | | | | | ]; reflexivity.
Qed.
Lemma trying_before ps : forall z zs es, zinv True filter fuel n m true z -> Forall (trying n) ps ->
  run bqpd oth qp_of filter o gl gu fuel ps z = Ok (zs, es) ->
  zinv True filter fuel n m true zs /\ z_before zs = z_before z.
Proof.
  induction ps as [|p ps IH]; intros z zs es I TR E.
  { cbn in E. injection E as <- <-. auto. }
  cbn [run] in E. apply bind_inv in E. destruct E as ((z1, e) & E1 & E).
  apply bind_inv in E. destruct E as ((z2, es1) & E2 & E). injection E as <- <-. inversion TR as [|? ? T1 T2]. subst.
  assert (S1 : zinv True filter fuel n m true z1 /\ z_before z1 = z_before z).
  { destruct p as [xl xu|x du obj r g|g md re| | |]; cbn [trying] in T1; try tauto; cbn [step] in E1.
    - injection E1 as <- <-. destruct I as (A & B & C & D). destruct T1 as (L1 & L2). split; [|reflexivity].
      split; [exact L1|]. split; [exact L2|]. split; [exact C|exact D].
    - injection E1 as <- <-. auto.
    - apply bind_inv in E1. destruct E1 as ((z', l) & ET & E1). injection E1 as <- <-.
      pose proof (trial_safe bqpd Hb True oth filter gl gu fuel n m Ho Hg z I) as TS.
      pose proof (safe_ok _ _ _ _ TS ET) as (I' & _ & _ & _ & _ & BF). auto. }
  destruct S1 as (I1 & B1). destruct (IH _ _ _ I1 T2 E2) as (I2 & B2). split; [exact I2|congruence].
Qed.
Lemma node_after ps z zs es : zinv True filter fuel n m false z -> Forall (trying n) ps ->
  run bqpd oth qp_of filter o gl gu fuel (Mark :: ps ++ [SetBounds (z_xl z) (z_xu z); Unmark]) z = Ok (zs, es) ->
  z_xl zs = z_xl z /\ z_xu zs = z_xu z /\ z_status zs = z_status z.
Proof.
  intros I TR E. cbn [run step] in E. apply bind_inv in E. destruct E as ((z1, e) & E1 & E).
  apply bind_inv in E1. destruct E1 as ((z', l) & EM & E1). injection E1 as <- <-.
  apply bind_inv in E. destruct E as ((z2, es1) & E2 & E). injection E as <- <-.
  pose proof (mark_safe bqpd Hb True qp_of filter o gl gu fuel n m Hq Hg Hf (fun _ _ _ => or_introl Logic.I) z I) as MS.
  pose proof (safe_ok _ _ _ _ MS EM) as (I' & _ & _ & _ & _ & BF & _).
  rewrite run_app in E2. apply bind_inv in E2. destruct E2 as ((z3, es3) & E3 & E2).
  destruct (trying_before _ _ _ _ I' TR E3) as (I3 & B3).
  cbn [run step bind] in E2. apply bind_inv in E2. destruct E2 as ((z4, es4) & E4 & E2). injection E2 as <- <-.
  apply bind_inv in E4. destruct E4 as ((z5, es5) & E5 & E4). injection E4 as <- <-.
  apply bind_inv in E5. destruct E5 as ((z6, e6) & E6 & E5). injection E5 as <- <-.
  apply bind_inv in E6. destruct E6 as (z7 & E7 & E6). injection E6 as <- <-.
  unfold unmark in E7. apply bind_inv in E7. destruct E7 as (d & _ & E7). cbn [z_before] in E7.
  rewrite B3, BF in E7. injection E7 as <-. cbn. auto.
Qed.
End After.
