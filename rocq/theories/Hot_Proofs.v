(** Invariants of the QP solver's cache: memory, the posed QP, the Hessian. *)
From Verif Require Import Base Arr Hot_Model Hot_Spec.
From Verif Require Itf_Model Nls_Model.
#[local] Open Scope Q_scope.

(** What can be said of all results but an exception and, when [dv] allows it, an endless loop. *)
Definition safe (dv : Prop) {A} (o : outcome A) (P : A -> Prop) : Prop :=
  match o with Ok a => P a | Thrown => True | Diverges => dv | _ => False end.
Lemma safe_bind dv {A B} (a : outcome A) (f : A -> outcome B) (P : A -> Prop) (R : B -> Prop) :
  safe dv a P -> (forall x, P x -> safe dv (f x) R) -> safe dv (bind a f) R.
Proof. destruct a; cbn; intros H K; auto. Qed.
Lemma safe_imp dv {A} (o : outcome A) (P R : A -> Prop) : (forall x, P x -> R x) -> safe dv o P -> safe dv o R.
Proof. destruct o; cbn; auto. Qed.
Lemma safe_ok dv {A} (o : outcome A) (P : A -> Prop) x : safe dv o P -> o = Ok x -> P x.
Proof. intros H ->. exact H. Qed.
Lemma safe_eq dv {A} (o : outcome A) (P : A -> Prop) : safe dv o P -> safe dv o (fun x => o = Ok x /\ P x).
Proof. destruct o; cbn; auto. Qed.

Lemma copy_of_ok {A} (a : arr A) n : length a = n -> copy_of a n = Ok a.
Proof. intros L. unfold copy_of. rewrite L, Nat.ltb_irrefl, <- L, firstn_all. reflexivity. Qed.
Lemma copyN_ok {A} (src dst : arr A) n : length src = n -> length dst = n -> copyN src n dst = Ok src.
Proof.
  intros L M. unfold copyN. rewrite L, M, Nat.ltb_irrefl. cbn [orb].
  rewrite <- L at 1. rewrite firstn_all, <- M, skipn_all, app_nil_r. reflexivity.
Qed.
Lemma copyN_part {A} (src dst : arr A) n : (n <= length src)%nat -> (n <= length dst)%nat ->
  copyN src n dst = Ok (firstn n src ++ skipn n dst).
Proof.
  intros L M. unfold copyN. apply Nat.ltb_ge in L, M. rewrite L, M. reflexivity.
Qed.

(** ** Invariants *)
Definition winv (t : tqp) (mlp lw ll : nat) (w : work) : Prop :=
  length (w_x w) = t_n t /\ length (w_g w) = t_n t /\ length (w_r w) = (t_n t + t_m t)%nat /\
  length (w_w w) = (t_n t + t_m t)%nat /\ length (w_e w) = (t_n t + t_m t)%nat /\ length (w_ls w) = (t_n t + t_m t)%nat /\
  length (w_alp w) = mlp /\ length (w_lp w) = mlp /\ length (w_ws w) = lw /\ length (w_lws w) = ll /\
  firstn (length (t_hv t)) (w_ws w) = map Some (t_hv t) /\ firstn (length (t_hla t)) (w_lws w) = map Some (t_hla t).
Definition ginv (c : cache) (g : com) : Prop :=
  c_kk g = h_kk c /\ c_ll g = h_ll c /\ c_mxws g = h_mxws c /\ c_mxlws g = h_mxlws c /\ c_scalec g = (0, 0)%Z /\ c_phl g = 1%Z.
Definition hinv (c : cache) : Prop :=
  match h_have c, h_hot c with
  | true, HLive s hc => winv (h_t c) (h_mlp c) (Z.to_nat (h_mxws c)) (Z.to_nat (h_mxlws c)) s /\ ginv c hc /\ (0 <= c_kkk hc)%Z
  | true, _ => False
  | false, HLive _ _ => False
  | false, _ => True
  end.
Definition cinv (c : cache) : Prop :=
  winv (h_t c) (h_mlp c) (Z.to_nat (h_mxws c)) (Z.to_nat (h_mxlws c)) (h_w c) /\
  (0 <= h_mxws c)%Z /\ (0 <= h_mxlws c)%Z /\
  h_kk c = Z.of_nat (length (t_hv (h_t c))) /\ h_ll c = Z.of_nat (length (t_hv (h_t c)) + t_n (h_t c) + 2) /\
  hinv c.
Definition sinv (s : st) : Prop := cinv (s_c s) /\ ginv (s_c s) (s_com s).

Section B.
Variable bqpd : call -> answer.
Hypothesis Hb : honest bqpd.
Variables (sm0de reinit : Z).
Variable dv : Prop.

(** The calls made with a cache. *)
Definition good (c : cache) (ka : call * answer) : Prop :=
  let k := fst ka in
  k_t k = h_t c /\ k_kmax k = h_kmax c /\ k_mlp k = h_mlp c /\ k_bl k = h_bl c /\ k_bu k = h_bu c /\ in_place k /\ snd ka = bqpd k.
Definition same (c c' : cache) : Prop :=
  h_t c' = h_t c /\ h_kmax c' = h_kmax c /\ h_mlp c' = h_mlp c /\ h_bl c' = h_bl c /\ h_bu c' = h_bu c.
Definition leads (s s' : st) : Prop :=
  sinv s' /\ same (s_c s) (s_c s') /\ exists l, s_log s' = s_log s ++ l /\ Forall (good (s_c s)) l.
Lemma same_refl c : same c c.
Proof. repeat split. Qed.
Lemma same_trans a b c : same a b -> same b c -> same a c.
Proof. unfold same. intuition congruence. Qed.
Lemma good_same c c' ka : same c c' -> good c' ka -> good c ka.
Proof. unfold same, good. cbn zeta. intuition congruence. Qed.
Lemma leads_refl s : sinv s -> leads s s.
Proof. intros I. split; [exact I|]. split; [apply same_refl|]. exists []. rewrite app_nil_r. split; [reflexivity|constructor]. Qed.
Lemma leads_trans a b c : leads a b -> leads b c -> leads a c.
Proof.
  intros (I & SM & l & L & F) (I' & SM' & l' & L' & F'). split; [exact I'|]. split; [eapply same_trans; eauto|].
  exists (l ++ l'). rewrite L', L, app_assoc. split; [reflexivity|].
  apply Forall_app. split; [exact F|]. eapply Forall_impl; [|exact F']. intros ka. apply good_same, SM.
Qed.
(** Steps that make no call. *)
Lemma leads_quiet s s' : sinv s' -> same (s_c s) (s_c s') -> s_log s' = s_log s -> leads s s'.
Proof. intros I SM L. split; [exact I|]. split; [exact SM|]. exists []. rewrite app_nil_r. split; [exact L|constructor]. Qed.

Lemma same_sizes_winv t mlp lw ll w w' :
  winv t mlp lw ll w -> same_sizes w' w ->
  firstn (length (t_hv t)) (w_ws w') = firstn (length (t_hv t)) (w_ws w) ->
  firstn (length (t_hla t)) (w_lws w') = firstn (length (t_hla t)) (w_lws w) -> winv t mlp lw ll w'.
Proof. unfold winv, same_sizes. intuition congruence. Qed.

Lemma in_place_of c g md : cinv c -> ginv c g ->
  in_place (mkCall (h_t c) (h_kmax c) (h_mlp c) (h_bl c) (h_bu c) (h_w c) g md).
Proof.
  intros (W & M0 & M1 & K & L & _) (G1 & G2 & G3 & G4 & _). unfold in_place. cbn [k_w k_t k_com].
  destruct W as (_ & _ & _ & _ & _ & _ & _ & _ & W1 & W2 & W3 & W4).
  split; [exact W3|]. split; [exact W4|]. rewrite W1, W2, !Z2Nat.id by assumption. intuition congruence.
Qed.
(** The state is the one left by the last call. *)
Definition tracks (s : st) : Prop :=
  exists l k a, s_log s = l ++ [(k, a)] /\ h_w (s_c s) = a_w a /\ h_ifail (s_c s) = a_ifail a /\ s_com s = a_com a.
Definition called (s : st) : Prop :=
  written (w_x (h_w (s_c s))) /\ w_f (h_w (s_c s)) <> None /\ (exists p, w_info (h_w (s_c s)) = Some p /\ (0 <= p)%Z) /\ tracks s.
Lemma call_bqpd_leads s : sinv s -> h_m0de (s_c s) <> None ->
  safe dv (call_bqpd bqpd s) (fun s' => leads s s' /\ s_fill s' = s_fill s /\ called s' /\ (0 <= c_kkk (s_com s'))%Z /\
     h_m0de (s_c s') <> None /\ h_use (s_c s') = h_use (s_c s)).
Proof.
  intros (C & G) M. unfold call_bqpd. destruct (h_m0de (s_c s)) as [md|] eqn:E; [|congruence]. cbn [safe].
  set (c := s_c s) in *. set (k := mkCall _ _ _ _ _ _ _ _).
  pose proof (Hb k) as H. unfold honest_answer in H. subst k. cbn [k_w k_com k_t] in H.
  destruct H as (Z1 & X & F & P & S1 & S2 & KK & G1 & G2 & G3 & G4 & G5 & G6).
  pose proof (in_place_of c (s_com s) md C G) as IP.
  destruct C as (W & M0 & M1 & K & L & H).
  destruct G as (E1 & E2 & E3 & E4 & E5 & E6).
  split; [|cbn; split; [reflexivity|split; [|repeat split; auto; congruence]]].
  2: { unfold called, tracks. cbn. split; [exact X|]. split; [exact F|]. split; [exact P|].
       eexists _, _, _. split; [reflexivity|]. repeat split. }
  split; [|split].
  - split.
    + unfold cinv. cbn. split; [eapply same_sizes_winv; eauto|]. split; [exact M0|]. split; [exact M1|].
      split; [exact K|]. split; [exact L|]. exact H.
    + unfold ginv. cbn. rewrite G1, G2, G3, G4, G5, G6. repeat split; assumption.
  - repeat split.
  - eexists. split; [reflexivity|]. constructor; [|constructor]. unfold good. cbn [fst snd k_t k_kmax k_mlp k_bl k_bu].
    repeat (split; [reflexivity|]). split; [exact IP|reflexivity].
Qed.
Lemma cold_ok s : sinv s -> exists s', cold s = Ok s' /\ leads s s' /\ s_fill s' = s_fill s /\ s_com s' = s_com s /\
  h_m0de (s_c s') = Some 0%Z /\ w_x (h_w (s_c s')) = repeat (Some 0) (t_n (h_t (s_c s))) /\
  h_use (s_c s') = h_use (s_c s) /\ h_have (s_c s') = h_have (s_c s) /\ h_bad (s_c s') = h_bad (s_c s) /\ s_log s' = s_log s.
Proof.
  intros (C & G). unfold cold. set (c := s_c s) in *. destruct C as (W & M0 & M1 & K & L & H).
  pose proof W as (W1 & W2 & W3 & W4 & W5 & W6 & W7 & W8 & W9 & W10 & W11 & W12).
  rewrite copyN_ok by (rewrite ?repeat_length; auto). cbn [bind].
  eexists. split; [reflexivity|]. split; [|cbn; repeat split; auto].
  apply leads_quiet; [|repeat split|reflexivity]. split.
  - unfold cinv. cbn. split; [|repeat split; assumption].
    unfold winv. cbn. rewrite repeat_length. repeat split; assumption.
  - exact G.
Qed.
Lemma from_hot_ok s : sinv s -> h_have (s_c s) = true ->
  exists s' w hc, h_hot (s_c s) = HLive w hc /\ from_hot s = Ok s' /\ leads s s' /\ s_fill s' = s_fill s /\
    h_w (s_c s') = w /\ s_com s' = restore hc (s_com s) /\ h_m0de (s_c s') = h_m0de (s_c s) /\
    h_use (s_c s') = h_use (s_c s) /\ h_bad (s_c s') = h_bad (s_c s) /\ h_have (s_c s') = true /\
    h_hot (s_c s') = h_hot (s_c s) /\ h_piv (s_c s') = h_piv (s_c s) /\ h_next (s_c s') = h_next (s_c s) /\ s_log s' = s_log s.
Proof.
  intros (C & G) HV. unfold from_hot, copyFromHotStart. set (c := s_c s) in *.
  destruct C as (W & M0 & M1 & K & L & H). pose proof H as H0. unfold hinv in H. rewrite HV in H.
  destruct (h_hot c) as [|w hc|] eqn:HH; try tauto. destruct H as (HW & HG & HK).
  pose proof W as (W1 & W2 & W3 & W4 & W5 & W6 & W7 & W8 & W9 & W10 & W11 & W12).
  pose proof HW as (V1 & V2 & V3 & V4 & V5 & V6 & V7 & V8 & V9 & V10 & V11 & V12).
  rewrite !copyN_ok by assumption. cbn [bind].
  eexists _, w, hc. split; [reflexivity|]. split; [reflexivity|]. cbn [s_c s_com s_fill s_log upd_w h_w h_m0de h_use h_bad h_have h_hot h_piv h_next].
  split; [|destruct w; repeat split; auto].
  apply leads_quiet; [|repeat split|reflexivity]. split.
  - unfold cinv. cbn. split; [destruct w; exact HW|]. repeat (split; [assumption|]). exact H0.
  - destruct HG as (A1 & A2 & A3 & A4 & A5 & A6). destruct G as (B1 & B2 & B3 & B4 & B5 & B6).
    unfold ginv. cbn. repeat split; assumption.
Qed.
Lemma unmark_ok c : cinv c -> h_have c = true -> exists c', unmark_cache c = Ok c' /\ cinv c' /\ same c c' /\ h_have c' = false /\
  h_w c' = h_w c /\ h_kk c' = h_kk c /\ h_m0de c' = h_m0de c /\ h_mxws c' = h_mxws c /\ h_mxlws c' = h_mxlws c /\ h_ll c' = h_ll c /\ h_use c' = h_use c.
Proof.
  intros (W & M0 & M1 & K & L & H) HV. unfold unmark_cache. unfold hinv in H. rewrite HV in H.
  destruct (h_hot c) as [|w hc|] eqn:HH; try tauto. eexists. split; [reflexivity|].
  split; [|repeat split]. unfold cinv. cbn. split; [exact W|]. repeat (split; [assumption|]). exact Logic.I.
Qed.
Lemma to_int_safe q : 0 <= q -> safe dv (to_int q) (fun z => (0 <= z <= int_max)%Z).
Proof.
  intros Q0. unfold to_int. cbn zeta. destruct (Z.ltb_spec int_max (Qfloor q)); cbn; [exact Logic.I|].
  split; [|lia]. change 0%Z with (Qfloor (inject_Z 0)). apply Qfloor_resp_le. exact Q0.
Qed.
Lemma new_size_safe z : safe dv (new_size z) (fun k => k = Z.to_nat z /\ (0 <= z)%Z).
Proof.
  unfold new_size. destruct (Z.ltb_spec z 0); cbn [orb]; [exact Logic.I|].
  destruct (Z.ltb int_max z); cbn; [exact Logic.I|]. auto.
Qed.
Lemma fill_nonneg fill k : 0 < fill -> 0 <= fill * inject_Z (Z.of_nat k).
Proof.
  intros F. apply Qmult_le_0_compat; [lra|]. change 0 with (inject_Z 0). rewrite <- Zle_Qle. lia.
Qed.
Definition pre_grow (s : st) : Prop := sinv s /\ 0 < s_fill s /\ (0 <= c_kkk (s_com s))%Z /\ h_m0de (s_c s) <> None.
Lemma grow_leads s : pre_grow s ->
  safe dv (grow bqpd s) (fun s' => leads s s' /\ pre_grow s' /\ called s' /\ s_fill s' = s_fill s * 2 /\ h_use (s_c s') = h_use (s_c s)).
Proof.
  intros ((C & G) & F & KK & MD). unfold grow.
  assert (U : exists c', (if h_have (s_c s) then unmark_cache (s_c s) else Ok (s_c s)) = Ok c' /\ cinv c' /\ same (s_c s) c' /\ h_have c' = false /\
    h_w c' = h_w (s_c s) /\ h_kk c' = h_kk (s_c s) /\ h_mxlws c' = h_mxlws (s_c s) /\ h_ll c' = h_ll (s_c s) /\ h_use c' = h_use (s_c s)).
  { destruct (h_have (s_c s)) eqn:HV.
    - destruct (unmark_ok _ C HV) as (c' & E & C' & SM & HV' & HW & K & _ & _ & L1 & L2 & L3). exists c'. auto 12.
    - exists (s_c s). split; [reflexivity|]. split; [exact C|]. split; [apply same_refl|]. auto 12. }
  destruct U as (c' & -> & C' & SM & HV' & HW & KE & LE & L2 & UE). cbn [bind].
  eapply safe_bind; [apply to_int_safe, fill_nonneg; lra|]. intros fl (F0 & F1).
  eapply safe_bind; [apply new_size_safe|]. intros lw (-> & MX).
  destruct C' as (W & M0 & M1 & K & L & H).
  pose proof W as (W1 & W2 & W3 & W4 & W5 & W6 & W7 & W8 & W9 & W10 & W11 & W12).
  set (mx := (h_kk c' + c_kkk (s_com s) + Z.of_nat (5 * t_n (h_t c')) + fl)%Z) in *.
  assert (KL : (length (t_hv (h_t c')) <= length (w_ws (h_w c')))%nat).
  { apply (f_equal (@List.length _)) in W11. rewrite firstn_length, map_length in W11. lia. }
  assert (KX : (Z.to_nat (h_kk c') <= Z.to_nat mx)%nat) by (subst mx; lia).
  rewrite copyN_part; [|rewrite K, Nat2Z.id; exact KL|rewrite repeat_length; exact KX].
  cbn [bind].
  set (s1 := mkS _ _ _ _).
  assert (I1 : sinv s1).
  { subst s1. split.
    - unfold cinv. cbn. split; [|split; [exact MX|split; [exact M1|split; [exact K|split; [exact L|]]]]].
      + unfold winv. cbn. rewrite K, Nat2Z.id. rewrite K, Nat2Z.id in KX.
        repeat (split; [assumption|]). split.
        { rewrite app_length, firstn_length, skipn_length, repeat_length. lia. }
        split; [assumption|]. split; [|assumption].
        rewrite firstn_app, firstn_length, Nat.min_l by exact KL. rewrite Nat.sub_diag, firstn_O, app_nil_r.
        rewrite firstn_firstn, Nat.min_id. exact W11.
      + unfold hinv in *. cbn. rewrite HV' in *. destruct (h_hot c'); auto.
    - destruct G as (G1 & G2 & G3 & G4 & G5 & G6). unfold ginv. cbn.
      rewrite G1, G2, G4, G5, G6, KE, LE, L2. repeat split; reflexivity. }
  destruct (cold_ok s1 I1) as (s2 & -> & LD & FE & CE & M2 & X2 & U2 & _ & _ & LG). cbn [bind].
  eapply safe_imp; [|apply call_bqpd_leads; [apply LD|congruence]].
  intros s3 (LD3 & F3 & WC & K3 & M3 & U3).
  assert (LL : leads s s3).
  { eapply leads_trans; [|exact LD3]. destruct LD as (I2 & SM2 & _).
    apply leads_quiet; [exact I2| |rewrite LG; reflexivity].
    eapply same_trans; [|exact SM2]. subst s1. cbn [s_c]. eapply same_trans; [exact SM|]. repeat split. }
  split; [exact LL|]. split.
  - split; [apply LL|]. rewrite F3, FE. subst s1. cbn [s_fill]. split; [lra|]. split; [exact K3|exact M3].
  - split; [exact WC|]. split; [rewrite F3, FE; reflexivity|]. rewrite U3, U2. subst s1. cbn. exact UE.
Qed.
(** The workspace asked for is an int. *)
Lemma grow_range s s' : grow bqpd s = Ok s' -> ~ inject_Z int_max + 1 <= s_fill s * 2 * inject_Z (Z.of_nat (amax (h_t (s_c s)))).
Proof.
  intros E H. unfold grow in E. apply bind_ok in E. destruct E as (c & CE & E).
  assert (T : h_t c = h_t (s_c s)).
  { destruct (h_have (s_c s)); [|congruence]. unfold unmark_cache in CE.
    destruct (h_hot (s_c s)); try discriminate; injection CE as <-; reflexivity. }
  apply bind_ok in E. destruct E as (fl & E & _). rewrite T in E. unfold to_int in E. cbn zeta in E.
  revert E. destruct (Z.ltb_spec int_max (Qfloor (s_fill s * 2 * inject_Z (Z.of_nat (amax (h_t (s_c s))))))) as [L|L]; [discriminate|].
  intros _. assert (G : (int_max + 1 <= Qfloor (s_fill s * 2 * inject_Z (Z.of_nat (amax (h_t (s_c s))))))%Z); [|lia].
  rewrite <- (Qfloor_Z (int_max + 1)). apply Qfloor_resp_le. rewrite inject_Z_plus. exact H.
Qed.
Lemma growing_leads fuel : forall s, pre_grow s -> called s ->
  dv \/ ((1 <= fuel)%nat /\ (1 <= amax (h_t (s_c s)))%nat /\ inject_Z int_max + 1 <= s_fill s * inject_Z (2 ^ Z.of_nat fuel)) ->
  safe dv (growing bqpd fuel s) (fun s' => leads s s' /\ pre_grow s' /\ called s' /\ (exists k, s_fill s' == s_fill s * inject_Z (2 ^ Z.of_nat k)) /\
     h_ifail (s_c s') <> 7%Z /\ h_use (s_c s') = h_use (s_c s)).
Proof.
  assert (K0 : forall s, pre_grow s -> called s -> h_ifail (s_c s) <> 7%Z -> leads s s /\ pre_grow s /\ called s /\
     (exists k, s_fill s == s_fill s * inject_Z (2 ^ Z.of_nat k)) /\ h_ifail (s_c s) <> 7%Z /\ h_use (s_c s) = h_use (s_c s)).
  { intros s P C E. split; [apply leads_refl, P|]. split; [exact P|]. split; [exact C|].
    split; [exists O; change (inject_Z (2 ^ Z.of_nat 0)) with 1; ring|]. auto. }
  induction fuel as [|f IH]; intros s P C D; cbn [growing];
    destruct (Z.eqb_spec (h_ifail (s_c s)) 7) as [E|E]; cbn [safe]; [|apply K0; assumption| |apply K0; assumption].
  - destruct D as [D | (D & _)]; [exact D|lia].
  - eapply safe_bind; [apply safe_eq, grow_leads, P|]. intros s1 (GE & L1 & P1 & C1 & F1 & U1).
    eapply safe_imp; [|apply IH; [assumption|assumption|]].
    + intros s2 (L2 & P2 & C2 & (k & F2) & I2 & U2).
      split; [eapply leads_trans; eauto|]. split; [exact P2|]. split; [exact C2|]. split; [|split; [exact I2|congruence]].
      exists (S k). rewrite F2, F1, Nat2Z.inj_succ, Z.pow_succ_r by lia. rewrite inject_Z_mult. change (inject_Z 2) with 2. ring.
    + destruct D as [D | (_ & D1 & D2)]; [left; exact D|right].
      rewrite Nat2Z.inj_succ, Z.pow_succ_r, inject_Z_mult in D2 by lia. change (inject_Z 2) with 2 in D2.
      assert (T1 : h_t (s_c s1) = h_t (s_c s)) by apply L1. rewrite T1, F1.
      split; [|split; [exact D1|lra]].
      destruct f as [|f]; [exfalso|lia]. change (inject_Z (2 ^ Z.of_nat 0)) with 1 in D2.
      apply (grow_range _ _ GE). apply Qle_trans with (s_fill s * 2); [lra|].
      rewrite <- (Qmult_1_r (s_fill s * 2)) at 1. apply Qmult_le_l; [destruct P as (_ & F & _); lra|].
      change 1 with (inject_Z 1). rewrite <- Zle_Qle. lia.
Qed.
Lemma sinv_flags s c' : sinv s -> (exists u b n p, c' = upd_flags (s_c s) u b n p) -> leads s (with_c s c').
Proof. intros (C & G) (u & b & n & p & ->). apply leads_quiet; [|repeat split|reflexivity]. split; [exact C|exact G]. Qed.
Lemma start_leads s : sinv s -> (h_use (s_c s) = true -> h_m0de (s_c s) <> None) ->
  safe dv (start reinit s) (fun s' => leads s s' /\ s_fill s' = s_fill s /\ h_m0de (s_c s') <> None /\ (h_use (s_c s) = false -> h_use (s_c s') = false)).
Proof.
  intros I M. unfold start. destruct (h_use (s_c s)) eqn:U; cbn [andb].
  - destruct (negb (h_bad (s_c s))).
    + set (s1 := with_c s _). assert (L1 : leads s s1) by (apply sinv_flags; eauto).
      destruct (h_have (s_c s) && _)%bool eqn:HV.
      * apply andb_true_iff in HV. destruct HV as (HV & _).
        destruct (from_hot_ok s1 (proj1 L1)) as (s2 & w & hc & HH & -> & L2 & F2 & _ & _ & M2 & _); [exact HV|]. cbn [bind safe].
        split; [eapply leads_trans; [exact L1|eapply leads_trans; [exact L2|apply sinv_flags; [apply L2|eauto]]]|].
        cbn. split; [rewrite F2; reflexivity|]. rewrite M2. split; [apply M; reflexivity|discriminate].
      * cbn. split; [exact L1|]. split; [reflexivity|]. split; [auto|discriminate].
    + destruct (cold_ok s I) as (s1 & -> & L1 & F1 & C1 & M1 & _). cbn [bind safe].
      split; [eapply leads_trans; [exact L1|apply sinv_flags; [apply L1|eauto]]|]. cbn. split; [exact F1|]. split; [congruence|discriminate].
  - destruct (cold_ok s I) as (s1 & -> & L1 & F1 & C1 & M1 & _ & U1 & _). cbn [bind safe].
    split; [eapply leads_trans; [exact L1|apply sinv_flags; [apply L1|eauto]]|]. cbn. split; [exact F1|]. split; congruence.
Qed.
Lemma first_call_leads s : sinv s -> h_m0de (s_c s) <> None -> 0 < s_fill s ->
  safe dv (first_call bqpd s) (fun s' => leads s s' /\ s_fill s' = s_fill s /\ pre_grow s' /\ called s' /\ h_use (s_c s') = h_use (s_c s)).
Proof.
  intros I M F. unfold first_call. eapply safe_bind; [apply call_bqpd_leads; assumption|].
  intros s1 (L1 & F1 & (X1 & W1 & (p & P1 & P0) & T1) & K1 & M1 & U1). rewrite P1. cbn [safe].
  assert (L2 : leads s1 (with_c s1 (upd_flags (s_c s1) (h_use (s_c s1)) (h_bad (s_c s1)) (h_next (s_c s1)) (h_piv (s_c s1) + p))))
    by (apply sinv_flags; [apply L1|eauto 6]).
  split; [eapply leads_trans; eauto|]. split; [exact F1|]. split.
  - split; [apply L2|]. cbn. rewrite F1. auto.
  - split; [|exact U1]. split; [exact X1|]. split; [exact W1|]. split; [exists p; auto|exact T1].
Qed.
Lemma retry_hot_leads s : pre_grow s -> called s ->
  safe dv (retry_hot bqpd reinit s) (fun s' => leads s s' /\ s_fill s' = s_fill s /\ pre_grow s' /\ called s' /\ h_use (s_c s') = h_use (s_c s)).
Proof.
  intros P C. unfold retry_hot. destruct (_ && _)%bool eqn:E.
  - rewrite !andb_true_iff in E. destruct E as (((_ & HV) & _) & _).
    destruct (from_hot_ok s (proj1 P) HV) as (s1 & w & hc & HH & -> & L1 & F1 & W1 & C1 & M1 & U1 & _). cbn [bind].
    eapply safe_imp; [|apply call_bqpd_leads; [apply L1|rewrite M1; apply P]].
    intros s2 (L2 & F2 & C2 & K2 & M2 & U2).
    split; [eapply leads_trans; eauto|]. split; [congruence|]. split; [|split; [exact C2|congruence]].
    split; [apply L2|]. rewrite F2, F1. split; [apply P|auto].
  - cbn. split; [apply leads_refl, P|]. auto.
Qed.
Lemma retry_cold_leads s : pre_grow s -> called s ->
  safe dv (retry_cold bqpd sm0de s) (fun s' => leads s s' /\ s_fill s' = s_fill s /\ pre_grow s' /\ called s' /\ h_use (s_c s') = h_use (s_c s)).
Proof.
  intros P C. unfold retry_cold. destruct (_ && _)%bool eqn:E.
  - destruct (cold_ok s (proj1 P)) as (s1 & -> & L1 & F1 & C1 & M1 & _ & U1 & _). cbn [bind].
    eapply safe_imp; [|apply call_bqpd_leads; [apply L1|congruence]].
    intros s2 (L2 & F2 & C2 & K2 & M2 & U2).
    split; [eapply leads_trans; eauto|]. split; [congruence|]. split; [|split; [exact C2|congruence]].
    split; [apply L2|]. rewrite F2, F1. split; [apply P|auto].
  - cbn. split; [apply leads_refl, P|]. auto.
Qed.
Lemma set_common_inv s : cinv (s_c s) -> sinv (set_common s).
Proof. intros C. split; [exact C|]. repeat split. Qed.
(** One solve. *)
Lemma optimize_leads fuel s : cinv (s_c s) -> 0 < s_fill s -> (h_use (s_c s) = true -> h_m0de (s_c s) <> None) ->
  dv \/ ((1 <= fuel)%nat /\ (1 <= amax (h_t (s_c s)))%nat /\ inject_Z int_max + 1 <= s_fill s * inject_Z (2 ^ Z.of_nat fuel)) ->
  safe dv (optimize bqpd sm0de reinit fuel s) (fun s' =>
    cinv (s_c s') /\ same (s_c s) (s_c s') /\ (exists l, s_log s' = s_log s ++ l /\ Forall (good (s_c s)) l) /\
    ginv (s_c s') (s_com s') /\ (0 <= c_kkk (s_com s'))%Z /\
    called s' /\ h_m0de (s_c s') <> None /\ (exists k, s_fill s' == s_fill s * inject_Z (2 ^ Z.of_nat k)) /\ 0 < s_fill s' /\
    (h_use (s_c s) = false -> h_use (s_c s') = false)).
Proof.
  intros C F M D. unfold optimize.
  pose proof (set_common_inv s C) as I0.
  eapply safe_bind; [apply start_leads; [exact I0|exact M]|]. intros s1 (L1 & F1 & M1 & U1).
  eapply safe_bind; [apply first_call_leads; [apply L1|exact M1|rewrite F1; exact F]|]. intros s2 (L2 & F2 & P2 & C2 & U2).
  eapply safe_bind; [apply retry_hot_leads; assumption|]. intros s3 (L3 & F3 & P3 & C3 & U3).
  eapply safe_bind; [apply retry_cold_leads; assumption|]. intros s4 (L4 & F4 & P4 & C4 & U4).
  eapply safe_bind; [apply growing_leads; [assumption|assumption|]|].
  { destruct D as [D | (D1 & D2 & D3)]; [left; exact D|right].
    assert (TE : h_t (s_c s4) = h_t (s_c s)).
    { pose proof (proj1 (proj1 (proj2 L1))). pose proof (proj1 (proj1 (proj2 L2))). pose proof (proj1 (proj1 (proj2 L3))).
      pose proof (proj1 (proj1 (proj2 L4))). cbn [set_common s_c] in *. congruence. }
    rewrite TE, F4, F3, F2, F1. auto. }
  intros s5 (L5 & P5 & C5 & (k & F5) & I5 & U5).
  cbn [safe].
  set (s6 := if Z.eqb (h_ifail (s_c s5)) 8 then with_c s5 (upd_flags (s_c s5) (h_use (s_c s5)) true (h_next (s_c s5)) (h_piv (s_c s5))) else s5).
  assert (Q6 : leads s5 s6 /\ called s6 /\ h_m0de (s_c s6) = h_m0de (s_c s5) /\ s_fill s6 = s_fill s5 /\ s_com s6 = s_com s5 /\ h_use (s_c s6) = h_use (s_c s5)).
  { subst s6. destruct (Z.eqb _ 8).
    - split; [apply sinv_flags; [apply L5|eauto]|]. cbn. split; [exact C5|auto].
    - split; [apply leads_refl, L5|auto]. }
  destruct Q6 as (L6 & C6 & M6 & F6 & G6 & U6).
  assert (L : leads (set_common s) s6) by (exact (leads_trans _ _ _ L1 (leads_trans _ _ _ L2 (leads_trans _ _ _ L3 (leads_trans _ _ _ L4 (leads_trans _ _ _ L5 L6)))))).
  destruct L as ((J1 & J2) & SM & l & LL & FF).
  split; [exact J1|]. split; [exact SM|]. split; [exists l; split; [exact LL|exact FF]|].
  split; [exact J2|]. split; [rewrite G6; apply P5|].
  split; [exact C6|]. split; [rewrite M6; apply P5|]. rewrite F6.
  split; [exists k; rewrite F5, F4, F3, F2, F1; reflexivity|]. split; [apply P5|].
  intros U. rewrite U6, U5, U4, U3, U2. apply U1. exact U.
Qed.
End B.
