(** Where the solves start from. *)
From Verif Require Import Base Arr Hot_Model Hot_Spec Hot_Proofs Hot_Proofs2.
From Verif Require Itf_Model Nls_Model.
#[local] Open Scope Q_scope.

Definition callof (s : st) (md : Z) : call :=
  mkCall (h_t (s_c s)) (h_kmax (s_c s)) (h_mlp (s_c s)) (h_bl (s_c s)) (h_bu (s_c s)) (h_w (s_c s)) (s_com s) md.
(** What the counters and the hot start are. *)
Definition kept (c c' : cache) : Prop := h_piv c' = h_piv c /\ h_next c' = h_next c /\ h_bad c' = h_bad c /\ h_use c' = h_use c.
Lemma kept_refl c : kept c c.
Proof. repeat split. Qed.
Lemma kept_trans a b c : kept a b -> kept b c -> kept a c.
Proof. unfold kept. intuition congruence. Qed.
Lemma coherent_app l1 : forall H l2, coherent H (l1 ++ l2) <-> coherent H l1 /\ coherent (H ++ l1) l2.
Proof.
  induction l1 as [|[k a] l1 IH]; intros H l2; cbn [app coherent].
  - rewrite app_nil_r. tauto.
  - rewrite IH, <- app_assoc. cbn [app]. tauto.
Qed.

Section B.
Variable bqpd : call -> answer.
Hypothesis Hb : honest bqpd.
Variables (sm0de reinit : Z).
Let dv := True.

Lemma call_eq s s' : call_bqpd bqpd s = Ok s' ->
  exists md, h_m0de (s_c s) = Some md /\ let a := bqpd (callof s md) in
    s' = mkS (upd_w (s_c s) (a_w a) (Some md) (a_ifail a)) (s_fill s) (a_com a) (s_log s ++ [(callof s md, a)]).
Proof.
  unfold call_bqpd. destruct (h_m0de (s_c s)) as [md|]; [|discriminate]. intros H. injection H as <-. exists md. auto.
Qed.
Lemma bind_inv {A B} (a : outcome A) (f : A -> outcome B) y : bind a f = Ok y -> exists x, a = Ok x /\ f x = Ok y.
Proof. destruct a; cbn; try discriminate. eauto. Qed.
Lemma cold_eq s s' : sinv s -> cold s = Ok s' ->
  s_com s' = s_com s /\ s_fill s' = s_fill s /\ s_log s' = s_log s /\ h_m0de (s_c s') = Some 0%Z /\
  w_x (h_w (s_c s')) = repeat (Some 0) (t_n (h_t (s_c s))) /\ kept (s_c s) (s_c s') /\
  h_have (s_c s') = h_have (s_c s) /\ h_hot (s_c s') = h_hot (s_c s) /\ leads bqpd s s'.
Proof.
  intros I E. destruct (cold_ok bqpd s I) as (s1 & E1 & L & _). assert (s1 = s') by congruence. subst s1.
  unfold cold in E. pose proof I as ((W & _) & _). destruct W as (W1 & _).
  rewrite copyN_ok in E by (rewrite ?repeat_length; auto). cbn [bind] in E. injection E as <-. cbn.
  repeat (split; [reflexivity|]). split; [repeat split|]. auto.
Qed.

(** A solve whose first answer is smooth is one call. *)
Definition after1 (s1 : st) (md : Z) : st :=
  let a := bqpd (callof s1 md) in let c := s_c s1 in
  mkS (upd_flags (upd_w c (a_w a) (Some md) (a_ifail a)) (h_use c) (h_bad c) (h_next c) (h_piv c + pivots a))
      (s_fill s1) (a_com a) (s_log s1 ++ [(callof s1 md, a)]).
Lemma first_eq s s' : sinv s -> first_call bqpd s = Ok s' -> exists md, h_m0de (s_c s) = Some md /\ s' = after1 s md.
Proof.
  intros I E. unfold first_call in E. apply bind_inv in E. destruct E as (s1 & E1 & E).
  apply call_eq in E1. destruct E1 as (md & M & ->). cbn [s_c upd_w h_w] in E. exists md. split; [exact M|].
  unfold after1, pivots. destruct (w_info (a_w (bqpd (callof s md)))) as [p|]; [|discriminate]. injection E as <-. reflexivity.
Qed.
Lemma smooth_rest fuel s : h_ifail (s_c s) <> 7%Z -> h_ifail (s_c s) <> 8%Z ->
  retry_hot bqpd reinit s = Ok s /\ retry_cold bqpd sm0de s = Ok s /\ growing bqpd fuel s = Ok s /\ Z.eqb (h_ifail (s_c s)) 8 = false.
Proof.
  intros N7 N8. unfold retry_hot, retry_cold.
  assert (E7 : Z.eqb (h_ifail (s_c s)) 7 = false) by (apply Z.eqb_neq; exact N7).
  assert (E8 : Z.eqb (h_ifail (s_c s)) 8 = false) by (apply Z.eqb_neq; exact N8).
  unfold is. cbn [existsb]. rewrite E7, E8. cbn [orb andb]. rewrite andb_false_r. cbn [andb].
  split; [reflexivity|]. split; [reflexivity|]. split; [|reflexivity]. destruct fuel; cbn [growing]; rewrite E7; reflexivity.
Qed.
Lemma optimize_eq fuel s s' : cinv (s_c s) -> 0 < s_fill s -> (h_use (s_c s) = true -> h_m0de (s_c s) <> None) ->
  optimize bqpd sm0de reinit fuel s = Ok s' ->
  exists s1 md r, start reinit (set_common s) = Ok s1 /\ leads bqpd (set_common s) s1 /\ h_m0de (s_c s1) = Some md /\
    s_log s' = s_log s1 ++ (callof s1 md, bqpd (callof s1 md)) :: r /\
    (smooth (bqpd (callof s1 md)) -> s' = after1 s1 md).
Proof.
  intros C F M E. unfold optimize in E. pose proof (set_common_inv s C) as I0.
  apply bind_inv in E. destruct E as (s1 & E1 & E).
  pose proof (start_leads bqpd reinit dv _ I0 M) as ST. pose proof (safe_ok _ _ _ _ ST E1) as (L1 & F1 & M1 & U1).
  apply bind_inv in E. destruct E as (s2 & E2 & E).
  pose proof (first_call_leads bqpd Hb dv s1 (proj1 L1) M1) as FL.
  rewrite F1 in FL. specialize (FL F). pose proof (safe_ok _ _ _ _ FL E2) as (L2 & F2 & P2 & C2 & U2).
  destruct (first_eq _ _ (proj1 L1) E2) as (md & MD & S2).
  apply bind_inv in E. destruct E as (s3 & E3 & E).
  pose proof (retry_hot_leads bqpd Hb reinit dv _ P2 C2) as R3. pose proof (safe_ok _ _ _ _ R3 E3) as (L3 & F3 & P3 & C3 & U3).
  apply bind_inv in E. destruct E as (s4 & E4 & E).
  pose proof (retry_cold_leads bqpd Hb sm0de dv _ P3 C3) as R4. pose proof (safe_ok _ _ _ _ R4 E4) as (L4 & F4 & P4 & C4 & U4).
  apply bind_inv in E. destruct E as (s5 & E5 & E).
  pose proof (growing_leads bqpd Hb dv fuel _ P4 C4 (or_introl Logic.I)) as R5. pose proof (safe_ok _ _ _ _ R5 E5) as (L5 & _).
  destruct L3 as (_ & _ & l3 & G3 & _). destruct L4 as (_ & _ & l4 & G4 & _). destruct L5 as (_ & _ & l5 & G5 & _).
  exists s1, md, (l3 ++ l4 ++ l5). split; [exact E1|]. split; [exact L1|]. split; [exact MD|]. split.
  - assert (SL : s_log s' = s_log s5) by (injection E as <-; destruct (Z.eqb _ 8); reflexivity).
    rewrite SL, G5, G4, G3, S2. unfold after1. cbn [s_log]. rewrite <- !app_assoc. reflexivity.
  - intros SM. destruct (smooth_rest fuel s2) as (Q3 & Q4 & Q5 & Q6).
    { rewrite S2. apply SM. } { rewrite S2. apply SM. }
    assert (X3 : s3 = s2) by congruence. subst s3. assert (X4 : s4 = s2) by congruence. subst s4.
    assert (X5 : s5 = s2) by congruence. subst s5. rewrite Q6 in E. congruence.
Qed.

(** The start, by cases. *)
Lemma restore_same c hc g : ginv c hc -> ginv c g -> restore hc g = hc.
Proof.
  intros (A1 & A2 & A3 & A4 & A5 & A6) (B1 & B2 & B3 & B4 & B5 & B6). unfold restore. destruct hc; cbn in *. f_equal; congruence.
Qed.
Lemma start_eq s s1 : sinv s -> start reinit s = Ok s1 ->
  s_fill s1 = s_fill s /\ s_log s1 = s_log s /\ h_piv (s_c s1) = h_piv (s_c s) /\ h_bad (s_c s1) = false /\
  h_have (s_c s1) = h_have (s_c s) /\ h_hot (s_c s1) = h_hot (s_c s) /\
  (((h_use (s_c s) = false \/ h_bad (s_c s) = true) /\ h_m0de (s_c s1) = Some 0%Z /\
      w_x (h_w (s_c s1)) = repeat (Some 0) (t_n (h_t (s_c s))) /\ h_next (s_c s1) = h_next (s_c s) /\ h_use (s_c s1) = h_use (s_c s)) \/
   (h_use (s_c s) = true /\ h_bad (s_c s) = false /\ h_m0de (s_c s1) = h_m0de (s_c s) /\ h_use (s_c s1) = false /\
    ((h_have (s_c s) = true /\ (h_next (s_c s) < h_piv (s_c s))%Z /\ h_hot (s_c s) = HLive (h_w (s_c s1)) (s_com s1) /\
       h_next (s_c s1) = bump reinit (Z.to_nat (h_piv (s_c s) - h_next (s_c s))) (h_next (s_c s)) (h_piv (s_c s))) \/
     ((h_have (s_c s) = false \/ (h_piv (s_c s) <= h_next (s_c s))%Z) /\ h_w (s_c s1) = h_w (s_c s) /\ s_com s1 = s_com s /\
       h_next (s_c s1) = h_next (s_c s))))).
Proof.
  intros I E. unfold start in E. destruct (h_use (s_c s)) eqn:U; [destruct (h_bad (s_c s)) eqn:Bd|]; cbn [andb negb] in E.
  - apply bind_inv in E. destruct E as (s2 & E2 & E). destruct (cold_eq _ _ I E2) as (G & F & L & M & X & (K1 & K2 & K3 & K4) & HV & HH & _).
    injection E as <-. cbn. rewrite K1, K2, K4, HV, HH. repeat (split; [auto; reflexivity|]). left. auto 8.
  - destruct (h_have (s_c s) && _)%bool eqn:HV.
    + apply andb_true_iff in HV. destruct HV as (HV & LT). apply Z.ltb_lt in LT.
      set (s0 := with_c s _) in E. assert (L0 : leads bqpd s s0) by (apply sinv_flags; eauto).
      apply bind_inv in E. destruct E as (s2 & E2 & E).
      destruct (from_hot_ok bqpd s0 (proj1 L0)) as (s2' & w & hc & HH & E2' & L2 & F2 & W2 & C2 & M2 & U2 & B2 & V2 & H2 & P2 & N2 & G2); [exact HV|].
      assert (s2' = s2) by congruence. subst s2'. injection E as <-. cbn [with_c s_c s_com s_fill s_log upd_flags h_piv h_bad h_have h_hot h_m0de h_use h_next h_w].
      cbn [s0 with_c s_c s_com s_fill s_log upd_flags h_piv h_bad h_have h_hot h_m0de h_use h_next h_w] in *.
      rewrite F2, G2, P2, B2, V2, H2, M2, U2, N2, HV. repeat (split; [reflexivity|]). right.
      repeat (split; [reflexivity|]). left. split; [reflexivity|]. split; [exact LT|]. split; [|reflexivity].
      rewrite HH, W2, C2. f_equal. symmetry. destruct I as (CI & GI). destruct CI as (_ & _ & _ & _ & _ & HI). unfold hinv in HI.
      rewrite HV, HH in HI. destruct HI as (_ & GH & _). eapply restore_same; eauto.
    + injection E as <-. cbn. repeat (split; [reflexivity|]). right. repeat (split; [reflexivity|]). right.
      split; [|auto]. apply andb_false_iff in HV. destruct HV as [HV | HV]; [left; exact HV|right; apply Z.ltb_ge in HV; exact HV].
  - apply bind_inv in E. destruct E as (s2 & E2 & E). destruct (cold_eq _ _ I E2) as (G & F & L & M & X & (K1 & K2 & K3 & K4) & HV & HH & _).
    injection E as <-. cbn. rewrite K1, K2, K4, HV, HH. repeat (split; [auto; reflexivity|]). left. auto 8.
Qed.
Lemma bump_le f : forall next piv, (0 < reinit)%Z -> (bump reinit f next piv <= Z.max next (piv + reinit - 1))%Z.
Proof.
  induction f as [|f IH]; intros next piv R; cbn [bump]; [lia|].
  destruct (Z.ltb_spec 0 reinit); [|lia]. destruct (Z.ltb_spec next piv); cbn [andb]; [|lia].
  specialize (IH (next + reinit)%Z piv R). lia.
Qed.
Lemma bump_zero f next piv : (reinit <= 0)%Z -> bump reinit f next piv = next.
Proof. intros R. destruct f; cbn [bump]; [reflexivity|]. destruct (Z.ltb_spec 0 reinit); [lia|reflexivity]. Qed.

(** ** What the calls continue *)
Definition src (H : list (call * answer)) (w : work) (g : com) : Prop := exists k a, In (k, a) H /\ w = a_w a /\ g = a_com a.
Definition hotsrc (H : list (call * answer)) (c : cache) : Prop :=
  h_have c = true -> exists w g, h_hot c = HLive w g /\ src H w g.
Definition mode_ok (md : Z) (ka : call * answer) : Prop := k_m0de (fst ka) = 0%Z \/ k_m0de (fst ka) = md.
Lemma src_more H H' w g : src H w g -> src (H ++ H') w g.
Proof. intros (k & a & I & E). exists k, a. split; [apply in_or_app; left; exact I|exact E]. Qed.
Lemma hotsrc_more H H' c : hotsrc H c -> hotsrc (H ++ H') c.
Proof. intros X V. destruct (X V) as (w & g & E & R). exists w, g. split; [exact E|apply src_more, R]. Qed.
Section J.
Variable al : Prop.
Variable H : list (call * answer).
Variable md : Z.
Definition J (s : st) : Prop :=
  (h_m0de (s_c s) = Some 0%Z \/ h_m0de (s_c s) = Some md) /\ Forall (mode_ok md) (s_log s) /\
  (al -> coherent H (s_log s) /\ hotsrc (H ++ s_log s) (s_c s)).
Lemma call_J s s' : J s -> (al -> h_m0de (s_c s) = Some 0%Z \/ src (H ++ s_log s) (h_w (s_c s)) (s_com s)) ->
  call_bqpd bqpd s = Ok s' ->
  J s' /\ kept (s_c s) (s_c s') /\ h_m0de (s_c s') = h_m0de (s_c s) /\
  exists k a, s_log s' = s_log s ++ [(k, a)] /\ h_m0de (s_c s) = Some (k_m0de k) /\ h_ifail (s_c s') = a_ifail a.
Proof.
  intros (M & FM & A) S E. apply call_eq in E. destruct E as (md' & M' & ->). cbn zeta.
  split; [|split; [repeat split|split; [cbn; congruence|eexists _, _; split; [reflexivity|cbn; auto]]]].
  split; [cbn; rewrite <- M'; exact M|]. split.
  - cbn. apply Forall_app. split; [exact FM|]. constructor; [|constructor]. unfold mode_ok. cbn.
    rewrite M' in M. destruct M as [M | M]; injection M as M; auto.
  - intros a. destruct (A a) as (CO & HS). cbn [s_log s_c]. split.
    + apply coherent_app. split; [exact CO|]. cbn. split; [|exact Logic.I]. intros NZ.
      destruct (S a) as [Z0 | (k & a0 & I & W & G)]; [congruence|]. exists k, a0. split; [exact I|]. split; [exact W|exact G].
    + rewrite app_assoc. apply hotsrc_more. exact HS.
Qed.
Lemma cold_J s s' : J s -> cold s = Ok s' -> J s' /\ kept (s_c s) (s_c s') /\ h_m0de (s_c s') = Some 0%Z /\ s_log s' = s_log s.
Proof.
  intros (M & FM & A) E. unfold cold in E. apply bind_inv in E. destruct E as (x & _ & E). injection E as <-.
  split; [|repeat split]. split; [left; reflexivity|]. split; [exact FM|]. exact A.
Qed.
Lemma from_hot_J s s' : J s -> sinv s -> h_have (s_c s) = true -> from_hot s = Ok s' ->
  J s' /\ kept (s_c s) (s_c s') /\ (al -> src (H ++ s_log s') (h_w (s_c s')) (s_com s')).
Proof.
  intros (M & FM & A) I HV E.
  destruct (from_hot_ok bqpd s I HV) as (s1 & w & hc & HH & E1 & L & F & W & C & M1 & U & Bd & V & HH1 & P & N & G).
  assert (s1 = s') by congruence. subst s1. rewrite G.
  split; [|split; [repeat split; assumption|]].
  - split; [rewrite M1; exact M|]. rewrite G. split; [exact FM|]. intros a. destruct (A a) as (CO & HS). split; [exact CO|].
    intros _. destruct (HS HV) as (w0 & g0 & E0 & R). exists w0, g0. split; [congruence|exact R].
  - intros a. destruct (A a) as (CO & HS). destruct (HS HV) as (w0 & g0 & E0 & R). rewrite HH in E0. injection E0 as <- <-.
    rewrite W, C. rewrite (restore_same (s_c s)); [exact R| |apply I].
    destruct I as (CI & _). destruct CI as (_ & _ & _ & _ & _ & HI). unfold hinv in HI. rewrite HV, HH in HI. apply HI.
Qed.
Lemma unmark_J s c : J s -> unmark_cache (s_c s) = Ok c -> J (with_c s c) /\ kept (s_c s) c.
Proof.
  intros (M & FM & A) E. unfold unmark_cache in E. destruct (h_hot (s_c s)); try discriminate; injection E as <-.
  - split; [|repeat split]. split; [exact M|]. split; [exact FM|]. intros a. destruct (A a) as (CO & _). split; [exact CO|]. intros V. discriminate V.
  - split; [|repeat split]. split; [exact M|]. split; [exact FM|]. intros a. destruct (A a) as (CO & _). split; [exact CO|]. intros V. discriminate V.
Qed.
(** The last call of a failed solve was from scratch. *)
Definition Lst (s : st) : Prop :=
  h_ifail (s_c s) = 8%Z -> exists l k a, s_log s = l ++ [(k, a)] /\ k_m0de k = 0%Z.
Lemma grow_J s s' : J s -> grow bqpd s = Ok s' -> J s' /\ kept (s_c s) (s_c s') /\ Lst s'.
Proof.
  intros Js E. unfold grow in E. apply bind_inv in E. destruct E as (c & Ec & E).
  assert (Q1 : J (with_c s c) /\ kept (s_c s) c).
  { destruct (h_have (s_c s)); [apply unmark_J; assumption|]. injection Ec as <-. split; [|apply kept_refl]. exact Js. }
  destruct Q1 as (Jc & Kc).
  apply bind_inv in E. destruct E as (fl & _ & E). apply bind_inv in E. destruct E as (lw & _ & E).
  apply bind_inv in E. destruct E as (ws & _ & E). apply bind_inv in E. destruct E as (s1 & E1 & E).
  apply cold_J in E1; [|exact Jc]. destruct E1 as (J1 & K1 & M1 & L1). cbn [s_c s_log] in K1, L1.
  destruct (call_J _ _ J1 (fun _ => or_introl M1) E) as (J2 & K2 & M2 & k & a & L2 & MK & _).
  split; [exact J2|]. split.
  - eapply kept_trans; [exact Kc|]. eapply kept_trans; [|exact K2]. exact K1.
  - intros _. exists (s_log s1), k, a. split; [exact L2|]. congruence.
Qed.
Lemma growing_J fuel : forall s s', J s -> Lst s -> growing bqpd fuel s = Ok s' -> J s' /\ kept (s_c s) (s_c s') /\ Lst s'.
Proof.
  induction fuel as [|f IH]; intros s s' Js Ls E; cbn [growing] in E.
  - destruct (Z.eqb _ 7); [discriminate|]. injection E as <-. split; [exact Js|]. split; [apply kept_refl|exact Ls].
  - destruct (Z.eqb _ 7).
    + apply bind_inv in E. destruct E as (s1 & E1 & E). destruct (grow_J _ _ Js E1) as (J1 & K1 & L1).
      destruct (IH _ _ J1 L1 E) as (J2 & K2 & L2). split; [exact J2|]. split; [eapply kept_trans; eauto|exact L2].
    + injection E as <-. split; [exact Js|]. split; [apply kept_refl|exact Ls].
Qed.
Lemma retry_hot_J s s' : J s -> sinv s -> retry_hot bqpd reinit s = Ok s' -> J s' /\ kept (s_c s) (s_c s').
Proof.
  intros Js I E. unfold retry_hot in E. destruct (_ && _)%bool eqn:B.
  - rewrite !andb_true_iff in B. destruct B as (((_ & HV) & _) & _).
    apply bind_inv in E. destruct E as (s1 & E1 & E). destruct (from_hot_J _ _ Js I HV E1) as (J1 & K1 & S1).
    destruct (call_J _ _ J1 (fun a => or_intror (S1 a)) E) as (J2 & K2 & _). split; [exact J2|eapply kept_trans; eauto].
  - injection E as <-. split; [exact Js|apply kept_refl].
Qed.
Lemma retry_cold_J s s' : J s -> retry_cold bqpd sm0de s = Ok s' -> J s' /\ kept (s_c s) (s_c s') /\ (sm0de = 6%Z -> Lst s').
Proof.
  intros Js E. unfold retry_cold in E. destruct (_ && _)%bool eqn:B.
  - apply bind_inv in E. destruct E as (s1 & E1 & E). destruct (cold_J _ _ Js E1) as (J1 & K1 & M1 & L1).
    destruct (call_J _ _ J1 (fun _ => or_introl M1) E) as (J2 & K2 & M2 & k & a & L2 & MK & _).
    split; [exact J2|]. split; [eapply kept_trans; eauto|]. intros _ _. exists (s_log s1), k, a. split; [exact L2|congruence].
  - injection E as <-. split; [exact Js|]. split; [apply kept_refl|]. intros S6 I8. rewrite S6 in B.
    rewrite I8 in B. discriminate B.
Qed.
Lemma growing_J0 fuel : forall s s', J s -> growing bqpd fuel s = Ok s' -> J s' /\ kept (s_c s) (s_c s').
Proof.
  induction fuel as [|f IH]; intros s s' Js E; cbn [growing] in E.
  - destruct (Z.eqb _ 7); [discriminate|]. injection E as <-. split; [exact Js|apply kept_refl].
  - destruct (Z.eqb _ 7).
    + apply bind_inv in E. destruct E as (s1 & E1 & E). destruct (grow_J _ _ Js E1) as (J1 & K1 & L1).
      destruct (IH _ _ J1 E) as (J2 & K2). split; [exact J2|eapply kept_trans; eauto].
    + injection E as <-. split; [exact Js|apply kept_refl].
Qed.
(** One solve. *)
Lemma optimize_hist fuel s s' : cinv (s_c s) -> 0 < s_fill s -> (h_use (s_c s) = true -> h_m0de (s_c s) = Some md) ->
  s_log s = [] ->
  (al -> h_use (s_c s) = true -> src H (h_w (s_c s)) (s_com (set_common s))) -> (al -> hotsrc H (s_c s)) ->
  optimize bqpd sm0de reinit fuel s = Ok s' ->
  J s' /\ (sm0de = 6%Z -> Lst s') /\
  h_bad (s_c s') = Z.eqb (h_ifail (s_c s')) 8 /\
  (h_use (s_c s) = true -> h_bad (s_c s) = false -> h_use (s_c s') = false) /\
  exists k a r, s_log s' = (k, a) :: r /\ h_piv (s_c s') = (h_piv (s_c s) + pivots a)%Z /\
    (h_use (s_c s) = false \/ h_bad (s_c s) = true -> scratch k /\ h_use (s_c s') = h_use (s_c s) /\ h_next (s_c s') = h_next (s_c s)).
Proof.
  intros C F M0 LG SW SH E.
  assert (M : h_use (s_c s) = true -> h_m0de (s_c s) <> None) by (intros U; rewrite M0 by exact U; discriminate).
  unfold optimize in E. pose proof (set_common_inv s C) as I0.
  apply bind_inv in E. destruct E as (s1 & E1 & E).
  pose proof (start_leads bqpd reinit dv _ I0 M) as ST. pose proof (safe_ok _ _ _ _ ST E1) as (L1 & F1 & M1 & U1).
  destruct (start_eq _ _ I0 E1) as (_ & LG1 & PV1 & BD1 & HV1 & HT1 & CASES).
  cbn [set_common s_c s_log s_fill] in *. rewrite LG in LG1.
  assert (JS : (h_m0de (s_c s1) = Some 0%Z \/ h_m0de (s_c s1) = Some md) /\
               (al -> hotsrc H (s_c s1)) /\ (al -> h_m0de (s_c s1) = Some 0%Z \/ src H (h_w (s_c s1)) (s_com s1))).
  { split; [|split].
    - destruct CASES as [(_ & Q & _) | (U & _ & Q & _)]; [left; exact Q|right; rewrite Q; auto].
    - intros a V. rewrite HT1. apply SH; [exact a|congruence].
    - intros a. destruct CASES as [(_ & Q & _) | (U & _ & Q & _ & [(V & _ & HH & _) | (_ & W & G & _)])].
      + left; exact Q.
      + right. destruct (SH a V) as (w & g & E0 & R). rewrite HH in E0. injection E0 as -> ->. exact R.
      + right. rewrite W, G. apply SW; assumption. }
  destruct JS as (JM & JH & JW).
  assert (J1 : J s1).
  { split; [exact JM|]. rewrite LG1. split; [constructor|]. intros a. split; [exact Logic.I|]. rewrite app_nil_r. auto. }
  apply bind_inv in E. destruct E as (s2 & E2 & E).
  pose proof (first_call_leads bqpd Hb dv s1 (proj1 L1) M1) as FL.
  rewrite F1 in FL. specialize (FL F). pose proof (safe_ok _ _ _ _ FL E2) as (L2 & F2 & P2 & C2 & U2).
  destruct (first_eq _ _ (proj1 L1) E2) as (md' & MD & S2).
  assert (J2 : J s2).
  { unfold first_call in E2. apply bind_inv in E2. destruct E2 as (s0 & E0 & E2).
    apply call_J in E0; [|exact J1|]. 2: { intros a. rewrite LG1, app_nil_r. auto. }
    destruct E0 as (J0 & _). destruct (w_info (h_w (s_c s0))); [|discriminate]. injection E2 as <-. exact J0. }
  apply bind_inv in E. destruct E as (s3 & E3 & E).
  pose proof (retry_hot_leads bqpd Hb reinit dv _ P2 C2) as R3. pose proof (safe_ok _ _ _ _ R3 E3) as (L3 & F3 & P3 & C3 & U3).
  destruct (retry_hot_J _ _ J2 (proj1 P2) E3) as (J3 & K3).
  apply bind_inv in E. destruct E as (s4 & E4 & E).
  pose proof (retry_cold_leads bqpd Hb sm0de dv _ P3 C3) as R4. pose proof (safe_ok _ _ _ _ R4 E4) as (L4 & F4 & P4 & C4 & U4).
  destruct (retry_cold_J _ _ J3 E4) as (J4 & K4 & LS4).
  apply bind_inv in E. destruct E as (s5 & E5 & E).
  pose proof (growing_leads bqpd Hb dv fuel _ P4 C4 (or_introl Logic.I)) as R5. pose proof (safe_ok _ _ _ _ R5 E5) as (L5 & _).
  destruct (growing_J0 _ _ _ J4 E5) as (J5 & K5).
  assert (LS5 : sm0de = 6%Z -> Lst s5) by (intros S6; destruct (growing_J fuel _ _ J4 (LS4 S6) E5) as (_ & _ & X); exact X).
  destruct L3 as (_ & _ & l3 & G3 & _). destruct L4 as (_ & _ & l4 & G4 & _). destruct L5 as (_ & _ & l5 & G5 & _).
  assert (K25 : kept (s_c s2) (s_c s5)) by (eapply kept_trans; [exact K3|]; eapply kept_trans; [exact K4|exact K5]).
  destruct K25 as (KP & KN & KB & KU).
  assert (LOG : s_log s5 = (callof s1 md', bqpd (callof s1 md')) :: l3 ++ l4 ++ l5).
  { rewrite G5, G4, G3, S2. unfold after1. cbn [s_log]. rewrite LG1, <- !app_assoc. reflexivity. }
  assert (FIN : s_log s' = s_log s5 /\ h_m0de (s_c s') = h_m0de (s_c s5) /\ h_ifail (s_c s') = h_ifail (s_c s5) /\
            h_have (s_c s') = h_have (s_c s5) /\ h_hot (s_c s') = h_hot (s_c s5) /\
            h_piv (s_c s') = h_piv (s_c s5) /\ h_next (s_c s') = h_next (s_c s5) /\ h_use (s_c s') = h_use (s_c s5) /\
            h_bad (s_c s') = if Z.eqb (h_ifail (s_c s5)) 8 then true else h_bad (s_c s5)).
  { injection E as <-. destruct (Z.eqb (h_ifail (s_c s5)) 8); cbn; auto 10. }
  destruct FIN as (N1 & N2 & N3 & N4 & N5 & N6 & N7 & N8 & N9).
  assert (B2 : h_bad (s_c s2) = false) by (rewrite S2; exact BD1).
  split; [|split; [|split; [|split]]].
  - destruct J5 as (A1 & A2 & A3). split; [rewrite N2; exact A1|]. rewrite N1. split; [exact A2|]. intros a.
    destruct (A3 a) as (A4 & A5). split; [exact A4|]. intros V. rewrite N5. apply A5. congruence.
  - intros S6. specialize (LS5 S6). unfold Lst in *. rewrite N1, N3. exact LS5.
  - rewrite N9, N3. destruct (Z.eqb _ 8); [reflexivity|]. congruence.
  - intros UT BF. rewrite N8, KU, U2. destruct CASES as [([Q | Q] & _) | (_ & _ & _ & Q & _)]; congruence.
  - eexists _, _, _. split; [rewrite N1; exact LOG|]. split.
    + rewrite N6, KP, S2. cbn. rewrite PV1. reflexivity.
    + intros CD. destruct CASES as [(_ & Q1 & Q2 & Q3 & Q4) | (Q1 & Q2 & _)]; [|destruct CD; congruence].
      split; [|split].
      * split; [cbn; congruence|]. cbn [callof k_w k_t]. rewrite Q2. destruct L1 as (_ & (TE & _) & _). cbn in TE. rewrite TE. reflexivity.
      * rewrite N8, KU, U2. exact Q4.
      * rewrite N7, KN, S2. exact Q3.
Qed.
End J.
End B.
