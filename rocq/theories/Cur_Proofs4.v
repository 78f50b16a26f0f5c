From Verif Require Import Base Arr Nlp Cur_Model Cur_Spec Cur_Proofs Cur_Proofs2 Cur_Proofs3.
#[local] Open Scope Q_scope.

Lemma structure_agree a b xl xu gl gu ax ag : e_n a = e_n b -> e_m a = e_m b -> e_jst a = e_jst b ->
  structure a xl xu gl gu ax ag = structure b xl xu gl gu ax ag.
Proof. intros E1 E2 E3. unfold structure. rewrite E1, E2, E3. reflexivity. Qed.
Lemma values_agree a b s : e_jv a = e_jv b -> e_jst a = e_jst b -> values a s = values b s.
Proof. intros E1 E2. unfold values. rewrite E1, E2. reflexivity. Qed.
(** Same call but for the flag on the point. *)
Definition same_call (a b : call) : Prop :=
  k_x a = k_x b /\ k_xl a = k_xl b /\ k_xu a = k_xu b /\ k_gl a = k_gl b /\ k_gu a = k_gu b /\
  k_zL a = k_zL b /\ k_zU a = k_zU b /\ k_lam a = k_lam b /\ k_d a = k_d b.
Lemma curv_active_det a b d ng e1 e2 r1 s1 r2 s2 : same_call a b -> agree e1 e2 ->
  curv_active a d ng e1 = Ok (r1, s1) -> curv_active b d ng e2 = Ok (r2, s2) ->
  s1 = s2 /\ agree r1 r2 /\ e_hv r1 = e_hv e1 /\ e_hv r2 = e_hv e2 /\ e_jv r1 = e_jv e1.
Proof.
  intros (C1 & C2 & C3 & C4 & C5 & C6 & C7 & C8 & C9) (A0 & A1 & A2 & A3 & A4 & A5 & A6) H1 H2. unfold curv_active in *.
  rewrite C2, C3, C4, C5, C6, C7, C8, A5, A3, A2 in H1.
  apply bind_ok in H1 as (ax & E1 & H1). apply bind_ok in H2 as (ax' & E1' & H2). rewrite E1 in E1'. injection E1' as <-.
  apply bind_ok in H1 as (jd & E2 & H1). apply bind_ok in H2 as (jd' & E2' & H2). rewrite E2 in E2'. injection E2' as <-.
  apply bind_ok in H1 as (ag & E3 & H1). apply bind_ok in H2 as (ag' & E3' & H2). rewrite E3 in E3'. injection E3' as <-.
  apply bind_ok in H1 as (s & E4 & H1). apply bind_ok in H2 as (s' & E4' & H2).
  rewrite (structure_agree e1 e2) in E4 by assumption. rewrite E4 in E4'. injection E4' as <-.
  apply bind_ok in H1 as (v & E5 & H1). apply bind_ok in H2 as (v' & E5' & H2).
  rewrite (values_agree e1 e2) in E5 by assumption. rewrite E5 in E5'. injection E5' as <-.
  injection H1 as <- <-. injection H2 as <- <-.
  split; [reflexivity|]. split; [unfold agree; cbn; repeat split; congruence|]. repeat split; cbn; congruence.
Qed.
Lemma hess_step P c e u hv u' : (k_newx c = true \/ e_hv e = Some (hess_of P c)) ->
  (if (k_newx c || match e_hv e with None => true | _ => false end)%bool
   then call_h P false (k_x c) (k_newx c) (k_lam c) false u
   else match e_hv e with Some hv => Ok (hv, u) | None => NullDeref end) = Ok (hv, u') -> hv = hess_of P c.
Proof.
  intros HC H. destruct (k_newx c) eqn:N; cbn [orb] in H.
  - unfold call_h, told in H. cbn [negb orb bind] in H. injection H as <- _. reflexivity.
  - destruct HC as [C|C]; [discriminate|]. rewrite C in H. injection H as <- _. reflexivity.
Qed.
Lemma rest_det P ls a b e1 e2 u1 u2 o1 r1 v1 o2 r2 v2 : same_call a b -> agree e1 e2 ->
  (k_newx a = true \/ e_hv e1 = Some (hess_of P a)) -> (k_newx b = true \/ e_hv e2 = Some (hess_of P b)) ->
  curv_rest P false ls a e1 u1 = Ok (o1, r1, v1) -> curv_rest P false ls b e2 u2 = Ok (o2, r2, v2) -> o1 = o2.
Proof.
  intros SC AG HC1 HC2 H1 H2. unfold curv_rest in *.
  pose proof SC as (C1 & C2 & C3 & C4 & C5 & C6 & C7 & C8 & C9).
  pose proof AG as (A0 & A1 & A2 & A3 & A4 & A5 & A6).
  rewrite A6, C9 in H1. destruct (e_eq e2) as [sv|]; [|discriminate].
  apply bind_ok in H1 as (o & E1 & H1). apply bind_ok in H2 as (o' & E1' & H2). rewrite E1 in E1'. injection E1' as <-.
  destruct o as [d|]; [|congruence].
  apply bind_ok in H1 as ([f1 s1] & E2 & H1). apply bind_ok in H2 as ([f2 s2] & E2' & H2).
  destruct (curv_active_det a b d _ e1 e2 f1 s1 f2 s2 SC AG E2 E2') as (<- & AG' & V1 & V2 & J1).
  pose proof AG' as (B0 & B1 & B2 & B3 & B4 & B5 & B6).
  apply bind_ok in H1 as (o & E3 & H1). apply bind_ok in H2 as (o' & E3' & H2). rewrite E3 in E3'. injection E3' as <-.
  destruct o as [pd|]; [|congruence].
  rewrite B5, B3, B2 in H1.
  apply bind_ok in H1 as (t & E4 & H1). apply bind_ok in H2 as (t' & E4' & H2). rewrite E4 in E4'. injection E4' as <-.
  apply bind_ok in H1 as (w & E5 & H1). apply bind_ok in H2 as (w' & E5' & H2). rewrite E5 in E5'. injection E5' as <-.
  destruct (Qltb trash_tol w); [congruence|].
  apply bind_ok in H1 as ([hv uu] & E6 & H1). apply bind_ok in H2 as ([hv' uu'] & E6' & H2).
  apply hess_step in E6; [|rewrite V1; exact HC1]. apply hess_step in E6'; [|rewrite V2; exact HC2].
  assert (hess_of P a = hess_of P b) as HH by (unfold hess_of; rewrite C1, C8; reflexivity).
  subst hv hv'. rewrite HH in H1. cbv zeta in H1, H2. cbn [e_hst] in H1, H2. rewrite B4 in H1.
  apply bind_ok in H1 as (q & E7 & H1). apply bind_ok in H2 as (q' & E7' & H2). rewrite E7 in E7'. injection E7' as <-.
  congruence.
Qed.

(** ** Warm estimators *)
Definition warm (P : nlp) (c : call) (e : est) : Prop :=
  e_init e = true /\ est_ok P e /\ e_jv e = Some (p_jv P (k_x c)) /\
  exists s v, structure e (k_xl c) (k_xu c) (k_gl c) (k_gu c) [] [] = Ok s /\ values e s = Ok v /\ e_eq e = Some (s, v).
Lemma warm_agree P c a b : warm P c a -> agree a b -> warm P c b.
Proof.
  intros (W1 & W2 & W3 & s & v & W4 & W5 & W6) (A0 & A1 & A2 & A3 & A4 & A5 & A6).
  split; [congruence|]. split. { intros _. destruct (W2 W1) as (? & ? & ? & ?). repeat split; congruence. }
  split; [congruence|]. exists s, v. rewrite <- (structure_agree a b), <- (values_agree a b) by assumption.
  split; [assumption|]. split; [assumption|congruence].
Qed.
Lemma warm_call P a b e : same_call a b -> warm P a e -> warm P b e.
Proof. intros (C1 & C2 & C3 & C4 & C5 & _) W. unfold warm in *. rewrite C1, C2, C3, C4, C5 in W. exact W. Qed.
Lemma warm_unique P c a b : warm P c a -> warm P c b -> agree a b.
Proof.
  intros (W1 & W2 & W3 & s & v & W4 & W5 & W6) (X1 & X2 & X3 & s' & v' & X4 & X5 & X6).
  destruct (W2 W1) as (P1 & P2 & P3 & P4). destruct (X2 X1) as (Q1 & Q2 & Q3 & Q4).
  rewrite (structure_agree a b) in W4 by congruence. rewrite W4 in X4. injection X4 as <-.
  rewrite (values_agree a b) in W5 by congruence. rewrite W5 in X5. injection X5 as <-.
  unfold agree. repeat split; congruence.
Qed.
Lemma warm_is_sv P c e : nlp_ok P -> call_ok P c -> warm P c e ->
  exists sv FE GE, e_eq e = Some sv /\ is_sv (zero0 P) (p_jv P (k_x c)) FE GE sv /\
    is_free (p_n P) (k_xl c) (k_xu c) [] FE /\ is_fix (p_m P) (k_gl c) (k_gu c) [] GE.
Proof.
  intros OK CO (W1 & W2 & W3 & s & v & W4 & W5 & W6). destruct (W2 W1) as (P1 & P2 & P3 & P4).
  destruct CO as [Cx Cxl Cxu Cgl Cgu CzL CzU Clam Cd].
  pose proof (jst_wf P OK) as JW. 
  destruct (structure_ok e (k_xl c) (k_xu c) (k_gl c) (k_gu c) [] []) as (s' & FX & GX & Es & IF & IG & Hs); try lia.
  { constructor. } { constructor. } { rewrite P1, P2, P3. exact JW. }
  rewrite W4 in Es. injection Es as <-. rewrite P1 in IF. rewrite P2 in IG.
  destruct (values_ok e (p_jv P (k_x c)) FX GX s W3) as (v' & Ev & Sv).
  { rewrite P3. unfold zero0. rewrite map_length. apply (ok_jv P OK), Cx. }
  { destruct IF as [-> _]. destruct IG as [-> _]. rewrite P3. exact JW. }
  { exact Hs. }
  rewrite W5 in Ev. injection Ev as <-. rewrite P3 in Sv.
  exists (s, v), FX, GX. repeat split; try assumption; try apply Sv; try apply IF; try apply IG.
Qed.
Lemma start_warm P c e u : nlp_ok P -> call_ok P c -> est_ok P e -> k_newx c = true ->
  exists e1 u1, curv_start P c e u = Ok (e1, u1) /\ warm P c e1.
Proof.
  intros OK CO EO N. unfold curv_start. rewrite N.
  set (e0 := if e_init e then e else e_initialize P).
  assert (E0 : e_init e0 = true /\ est_ok P e0).
  { unfold e0. destruct (e_init e) eqn:I; [split; assumption|]. split; [reflexivity|]. intros _. repeat split. }
  clearbody e0. destruct E0 as [I0 O0]. destruct (O0 I0) as (P1 & P2 & P3 & P4).
  unfold call_jac, told. cbn [bind].
  destruct CO as [Cx Cxl Cxu Cgl Cgu CzL CzU Clam Cd].
  pose proof (jst_wf P OK) as JW.
  set (e1 := mkE (e_init e0) (e_n e0) (e_m e0) (e_jst e0) (e_hst e0) (Some (p_jv P (k_x c))) (e_hv e0) (e_ax e0) (e_ag e0) (e_eq e0) (e_all e0)).
  destruct (structure_ok e1 (k_xl c) (k_xu c) (k_gl c) (k_gu c) [] []) as (s & FX & GX & Es & IF & IG & Hs); cbn [e_n e_m e_jst e1] in *; try lia.
  { constructor. } { constructor. } { rewrite P1, P2, P3. exact JW. }
  rewrite Es. cbn [bind].
  destruct (values_ok e1 (p_jv P (k_x c)) FX GX s eq_refl) as (v & Ev & Sv); cbn [e_jst e1].
  { rewrite P3. unfold zero0. rewrite map_length. apply (ok_jv P OK), Cx. }
  { destruct IF as [-> _]. destruct IG as [-> _]. rewrite P1, P2, P3. exact JW. }
  { exact Hs. }
  rewrite Ev. cbn [bind]. eexists _, _. split; [reflexivity|].
  split; [exact I0|]. split; [intros _; cbn; repeat split; assumption|]. split; [reflexivity|].
  exists s, v. split; [rewrite <- Es; apply structure_agree; reflexivity|].
  split; [rewrite <- Ev; apply values_agree; reflexivity|reflexivity].
Qed.

(** ** One call of the estimator *)
(** [ready]: what the estimator keeps is of the point of the call, unless it is told of a new one. *)
Definition ready (P : nlp) (c : call) (e : est) : Prop :=
  est_ok P e /\ (k_newx c = true \/ (warm P c e /\ e_hv e = Some (hess_of P c))).
Lemma curvature_ok P ls c e u : nlp_ok P -> call_ok P c -> sized ls -> (0 < p_m P)%nat -> ready P c e ->
  exists o e' u', curvature P false ls c e u = Ok (o, e', u') /\ warm P c e' /\
  forall pd g q, o = Some (pd, g, q) ->
    g = 0 /\ e_hv e' = Some (hess_of P c) /\ q == form P (k_x c) (k_lam c) pd /\
    exists sv FE GE d FX GX, is_sv (zero0 P) (p_jv P (k_x c)) FE GE sv /\
      is_free (p_n P) (k_xl c) (k_xu c) [] FE /\ is_fix (p_m P) (k_gl c) (k_gu c) [] GE /\
      good P ls c sv FE GE d pd FX GX /\ accepted P c pd GX.
Proof.
  intros OK CO SZ MP [EO RD]. unfold curvature.
  assert (S : exists e1 u1, curv_start P c e u = Ok (e1, u1) /\ warm P c e1 /\ (k_newx c = true \/ e_hv e1 = Some (hess_of P c))).
  { destruct (k_newx c) eqn:N.
    - destruct (start_warm P c e u OK CO EO N) as (e1 & u1 & E & W). exists e1, u1. auto.
    - destruct RD as [C|[W H]]; [discriminate|]. exists e, u. unfold curv_start. rewrite N. destruct W as [I W]. rewrite I.
      split; [reflexivity|]. split; [split; assumption|right; exact H]. }
  destruct S as (e1 & u1 & E & W & HC). rewrite E. cbn [bind].
  destruct (warm_is_sv P c e1 OK CO W) as (sv & FE & GE & EE & SV & IF & IG).
  destruct W as (W1 & W2 & W3 & W4).
  destruct (rest_ok P ls c e1 u1 sv FE GE OK CO SZ W1 W2 W3 EE SV IF IG HC MP) as (o & e' & u' & ER & AG & D).
  exists o, e', u'. split; [exact ER|]. split.
  { eapply warm_agree; [|exact AG]. split; [exact W1|]. split; [exact W2|]. split; assumption. }
  intros pd g q Ho. destruct (D pd g q Ho) as (D1 & D2 & D3 & d & FX & GX & D4 & D5).
  split; [exact D1|]. split; [exact D2|]. split; [exact D3|].
  exists sv, FE, GE, d, FX, GX. auto.
Qed.
Lemma curvature_det P ls a b e1 e2 u1 u2 o1 r1 v1 o2 r2 v2 :
  nlp_ok P -> call_ok P a -> call_ok P b -> same_call a b -> ready P a e1 -> ready P b e2 ->
  curvature P false ls a e1 u1 = Ok (o1, r1, v1) -> curvature P false ls b e2 u2 = Ok (o2, r2, v2) -> o1 = o2.
Proof.
  intros OK CA CB SC [EO1 R1] [EO2 R2] H1 H2. unfold curvature in *.
  assert (X : forall c e u o r v, call_ok P c -> est_ok P e -> (k_newx c = true \/ (warm P c e /\ e_hv e = Some (hess_of P c))) ->
     (do ' (e, u) <- curv_start P c e u; curv_rest P false ls c e u) = Ok (o, r, v) ->
     exists e' u', curv_rest P false ls c e' u' = Ok (o, r, v) /\ warm P c e' /\ (k_newx c = true \/ e_hv e' = Some (hess_of P c))).
  { intros c e u o r v CO EO R H. destruct (k_newx c) eqn:N.
    - destruct (start_warm P c e u OK CO EO N) as (e' & u' & E & W). rewrite E in H. cbn [bind] in H. exists e', u'. auto.
    - destruct R as [C|[W Hh]]; [discriminate|]. unfold curv_start in H. rewrite N in H. destruct W as [I W]. rewrite I in H.
      cbn [bind] in H. exists e, u. split; [exact H|]. split; [split; assumption|right; exact Hh]. }
  destruct (X a e1 u1 _ _ _ CA EO1 R1 H1) as (f1 & w1 & G1 & W1 & K1).
  destruct (X b e2 u2 _ _ _ CB EO2 R2 H2) as (f2 & w2 & G2 & W2 & K2).
  eapply (rest_det P ls a b f1 f2); try eassumption.
  apply (warm_unique P b); [|exact W2]. eapply warm_call; eassumption.
Qed.
