From Verif Require Import Base Arr Nlp LinObj_Spec LinObj_Proofs FP_Model FP_Spec.
#[local] Open Scope Q_scope.

Lemma cutoff_below c : fp_cutoff c < c.
Proof. unfold fp_cutoff. qcase; [|qcase]; lra. Qed.

Lemma rd_ok (x : list Q) i : (i < length x)%nat -> rd i x = Ok (at_ x i).
Proof.
  intros L. unfold rd, at_. destruct (nth_error x i) eqn:E.
  - erewrite nth_error_nth by exact E. reflexivity.
  - apply nth_error_None in E. lia.
Qed.
Lemma rd_all_ok x inds : Forall (fun i => (i < length x)%nat) inds ->
  rd_all inds x = Ok (map (at_ x) inds).
Proof.
  induction 1 as [|i l H F IH]; cbn [rd_all]; [reflexivity|].
  rewrite rd_ok by exact H. rewrite IH. reflexivity.
Qed.
Lemma l2_spec x inds vals : l2_sum (map (at_ x) inds) vals == sq_dist inds vals x.
Proof.
  unfold sq_dist. revert vals; induction inds as [|i l IH]; intros [|v vals]; simpl; try reflexivity.
  rewrite IH. reflexivity.
Qed.
Lemma l1_spec x inds vals : l1_sum (map (at_ x) inds) vals == lin_dist inds vals x.
Proof.
  unfold lin_dist. revert vals; induction inds as [|i l IH]; intros [|v vals]; simpl; try reflexivity.
  rewrite IH. reflexivity.
Qed.
Lemma lin_abs x inds vals : Forall (fun v => v == 0 \/ v == 1) vals ->
  Forall (fun i => 0 <= at_ x i <= 1) inds ->
  lin_dist inds vals x == abs_dist inds vals x.
Proof.
  intros FV FI. unfold lin_dist, abs_dist. apply qsum_ext. intros [i v] HI. cbn [fst snd].
  pose proof (in_combine_l _ _ _ _ HI) as H1. pose proof (in_combine_r _ _ _ _ HI) as H2.
  rewrite Forall_forall in FV, FI. apply FV in H2. apply FI in H1.
  qcase; destruct H2 as [H2|H2]; try lra.
  - rewrite Qabs_pos by lra. rewrite H2. ring.
  - rewrite Qabs_neg by lra. rewrite H2. ring.
Qed.

Section S.
Variables (P : nlp) (F : fp).
Hypotheses (OK : nlp_ok P) (FO : fp_ok P F).

Lemma inds_lt (x : list Q) : length x = p_n P -> Forall (fun i => (i < length x)%nat) (f_inds F).
Proof. intros ->. apply FO. Qed.
Lemma dist_ok x : length x = p_n P -> exists d, dist_to_point F x = Ok d /\ d == fdist F x.
Proof.
  intros L. unfold dist_to_point, count_ok, fdist. destruct FO as (LV & _ & N).
  rewrite LV, Nat.eqb_refl, rd_all_ok by (apply inds_lt, L). cbn [bind].
  destruct N as [N|N]; rewrite N; simpl; eexists; (split; [reflexivity|]); [apply l1_spec|apply l2_spec].
Qed.
Lemma eval_f_ok x : length x = p_n P -> exists o, fp_eval_f P F x = Ok o /\ o == fobj P F x.
Proof.
  intros L. unfold fp_eval_f, fobj, wt, dw. destruct (f_use F).
  - destruct (dist_ok x L) as (d & -> & E). cbn [bind]. eexists. split; [reflexivity|]. rewrite E. ring.
  - eexists. split; [reflexivity|]. ring.
Qed.

Lemma ladd_ok i v l : (i < length l)%nat -> exists l', ladd i v l = Ok l' /\ length l' = length l /\
  forall h, dot l' h == dot l h + (if Nat.ltb i (length h) then v * at_ h i else 0).
Proof.
  revert i; induction l as [|c l IH]; intros i L; simpl in L; [lia|]. destruct i as [|i]; cbn [ladd].
  - eexists. split; [reflexivity|]. split; [reflexivity|]. intros [|y h]; unfold dot, at_; simpl; ring.
  - destruct (IH i) as (l' & -> & LL & E); [lia|]. cbn [bind]. eexists. split; [reflexivity|].
    split; [simpl; congruence|]. intros [|y h]; unfold dot, at_; simpl; [ring|].
    specialize (E h). unfold dot, at_ in E. rewrite E.
    change (Nat.ltb (S i) (S (length h))) with (Nat.ltb i (length h)). destruct (Nat.ltb i (length h)); ring.
Qed.

Lemma dot_scale l w h : dot (map (fun v => v * w) l) h == w * dot l h.
Proof.
  revert h; induction l as [|a l IH]; intros [|b h]; unfold dot in *; simpl; try ring.
  rewrite IH. ring.
Qed.
Lemma at_ladds x h i : length x = length h -> at_ (ladds x h) i == at_ x i + at_ h i.
Proof.
  unfold at_, ladds. revert h i; induction x as [|a x IH]; intros [|b h] i L; simpl in *; try discriminate.
  - destruct i; ring.
  - destruct i; [reflexivity|]. apply IH. lia.
Qed.
Lemma sq_expand x h inds vals : length x = length h -> length vals = length inds ->
  sq_dist inds vals (ladds x h) - sq_dist inds vals x ==
  qsum (map (fun p => 2 * (at_ x (fst p) - snd p) * at_ h (fst p)) (combine inds vals)) +
  qsum (map (fun i => at_ h i * at_ h i) inds).
Proof.
  intros L. unfold sq_dist. revert vals; induction inds as [|i l IH]; intros [|v vals] LV; simpl in *; try discriminate.
  - ring.
  - rewrite at_ladds by exact L.
    assert (E := IH vals ltac:(lia)).
    set (A := qsum (map _ (combine l vals))) in E at 1. 
    match type of E with ?a - ?b == ?c + ?d => 
      assert (E' : a == b + c + d) by (rewrite <- Qplus_assoc, <- E; ring) end.
    unfold A in *. rewrite E'. ring.
Qed.
Lemma lin_expand x h inds vals : length x = length h -> length vals = length inds ->
  lin_dist inds vals (ladds x h) - lin_dist inds vals x ==
  qsum (map (fun p => (if Qle_bool (snd p) (1 # 10) then 1 else -(1)) * at_ h (fst p)) (combine inds vals)).
Proof.
  intros L. unfold lin_dist. revert vals; induction inds as [|i l IH]; intros [|v vals] LV; simpl in *; try discriminate.
  - ring.
  - assert (E := IH vals ltac:(lia)).
    match type of E with ?a - ?b == ?c => assert (E' : a == b + c) by (rewrite <- E; ring) end.
    rewrite E'. destruct (Qle_bool v (1 # 10)); rewrite at_ladds by exact L; ring.
Qed.

Lemma grad_l2_ok x : length x = p_n P -> forall inds vals g,
  Forall (fun i => (i < p_n P)%nat) inds -> length vals = length inds -> length g = p_n P ->
  exists g', grad_l2 F x inds vals g = Ok g' /\ length g' = p_n P /\
  forall h, length h = p_n P -> dot g' h == dot g h + f_scale F * f_lam F *
     qsum (map (fun p => 2 * (at_ x (fst p) - snd p) * at_ h (fst p)) (combine inds vals)).
Proof.
  intros L. induction inds as [|i l IH]; intros [|v vals] g FI LV Lg; simpl in LV; try discriminate; cbn [grad_l2].
  - exists g. split; [reflexivity|]. split; [exact Lg|]. intros h _. simpl. ring.
  - inversion FI; subst. rewrite rd_ok by lia. cbn [bind].
    destruct (ladd_ok i (f_scale F * 2 * f_lam F * (at_ x i - v)) g) as (g' & -> & Lg' & E); [lia|]. cbn [bind].
    destruct (IH vals g') as (g2 & E2 & L2 & D2); [assumption|lia|congruence|].
    exists g2. split; [exact E2|]. split; [exact L2|]. intros h Lh. rewrite D2 by exact Lh. rewrite E.
    destruct (Nat.ltb_spec i (length h)); [|lia]. simpl. ring.
Qed.
Lemma grad_l1_ok : forall inds vals g,
  Forall (fun i => (i < p_n P)%nat) inds -> length vals = length inds -> length g = p_n P ->
  exists g', grad_l1 F inds vals g = Ok g' /\ length g' = p_n P /\
  forall h, length h = p_n P -> dot g' h == dot g h + f_scale F * f_lam F *
     qsum (map (fun p => (if Qle_bool (snd p) (1 # 10) then 1 else -(1)) * at_ h (fst p)) (combine inds vals)).
Proof.
  induction inds as [|i l IH]; intros [|v vals] g FI LV Lg; simpl in LV; try discriminate; cbn [grad_l1].
  - exists g. split; [reflexivity|]. split; [exact Lg|]. intros h _. simpl. ring.
  - inversion FI; subst.
    destruct (ladd_ok i (if Qle_bool v (1 # 10) then f_scale F * f_lam F else - (f_scale F * f_lam F)) g)
      as (g' & -> & Lg' & E); [lia|]. cbn [bind].
    destruct (IH vals g') as (g2 & E2 & L2 & D2); [assumption|lia|congruence|].
    exists g2. split; [exact E2|]. split; [exact L2|]. intros h Lh. rewrite D2 by exact Lh. rewrite E.
    destruct (Nat.ltb_spec i (length h)); [|lia]. simpl. destruct (Qle_bool v (1 # 10)); ring.
Qed.
Lemma gradient_ok x : length x = p_n P ->
  exists g, fp_eval_grad_f P F x = Ok g /\ length g = p_n P /\
  forall h, length h = p_n P ->
    fobj P F (ladds x h) - fobj P F x - dot g h ==
    wt F * (p_f P (ladds x h) - p_f P x - dot (p_gf P x) h) + dw F * sq_part F h.
Proof.
  intros L. unfold fp_eval_grad_f, fobj, wt, dw, fdist, sq_part. pose proof (ok_gf P OK x L) as Lg.
  destruct FO as (LV & FI & N). destruct (f_use F).
  - destruct N as [N|N]; rewrite N; simpl Nat.eqb; cbv iota.
    + destruct (grad_l1_ok (f_inds F) (f_vals F) (map (fun v => v * ((1 - f_lam F) * f_sig F)) (p_gf P x)) FI LV)
        as (g & E & LG & D); [rewrite map_length; exact Lg|]. exists g. split; [exact E|]. split; [exact LG|].
      intros h Lh. rewrite D by exact Lh. rewrite dot_scale.
      pose proof (lin_expand x h (f_inds F) (f_vals F) ltac:(congruence) LV) as X. rewrite <- X. ring.
    + destruct (grad_l2_ok x L (f_inds F) (f_vals F) (map (fun v => v * ((1 - f_lam F) * f_sig F)) (p_gf P x)) FI LV)
        as (g & E & LG & D); [rewrite map_length; exact Lg|]. exists g. split; [exact E|]. split; [exact LG|].
      intros h Lh. rewrite D by exact Lh. rewrite dot_scale.
      pose proof (sq_expand x h (f_inds F) (f_vals F) ltac:(congruence) LV) as X.
      match type of X with ?a - ?b == ?c + ?d => assert (X' : a == b + c + d) by (rewrite <- Qplus_assoc, <- X; ring) end.
      rewrite X'. ring.
  - exists (p_gf P x). split; [reflexivity|]. split; [exact Lg|]. intros. ring.
Qed.

(** Extra rows. *)
Lemma lb_value_ok x : length x = p_n P -> exists v, lb_value F x = Ok v /\ v == lin_dist (f_inds F) (f_vals F) x.
Proof.
  intros L. unfold lb_value. destruct FO as (LV & _ & _). rewrite LV, firstn_all.
  rewrite rd_all_ok by (apply inds_lt, L). cbn [bind]. eexists. split; [reflexivity|]. apply l1_spec.
Qed.
Lemma fp_m_rows : fp_m P F = (p_m P + length (xrows F))%nat.
Proof. unfold fp_m, xrows. destruct (f_cut F), (f_lb F); simpl; lia. Qed.

Lemma blit_aset1 {A} (l : list A) v m : length l = m ->
  (do a <- ablit 0 l (fresh (m + 1)); aset (m + 1 - 1) v a) = Ok (map Some (l ++ [v])).
Proof. intros L. replace (m + 1 - 1)%nat with m by lia. apply blit_then_last, L. Qed.
Lemma blit_aset2 {A} (l : list A) v w m : length l = m ->
  (do a <- ablit 0 l (fresh (m + 2)); do b <- aset (m + 2 - 2) v a; aset (m + 2 - 1) w b)
  = Ok (map Some (l ++ [v; w])).
Proof.
  intros L. rewrite fresh_app, ablit0_app by (rewrite fresh_length; congruence). cbn [bind].
  replace (m + 2 - 2)%nat with (length (@map A _ Some l)) by (rewrite map_length; lia).
  change (@fresh A 2) with [@None A; None]. rewrite aset_app. cbn [bind].
  replace (map Some l ++ [Some v; None]) with ((map Some l ++ [Some v]) ++ [None]) by (rewrite <- app_assoc; reflexivity).
  replace (m + 2 - 1)%nat with (length (@map A _ Some l ++ [Some v])) by (rewrite app_length, map_length; simpl; lia).
  rewrite aset_app, <- app_assoc, map_app. reflexivity.
Qed.
Lemma blit_all {A} (l : list A) m : length l = m -> ablit 0 l (fresh m) = Ok (map Some l).
Proof. intros <-. apply ablit_fresh. Qed.

Lemma fbounds_ok : fp_bounds P F (fresh (fp_m P F)) (fresh (fp_m P F)) =
  Ok (map Some (p_gl P ++ map (fun _ => MInf) (xrows F)), map Some (p_gu P ++ map (xub F) (xrows F))).
Proof.
  unfold fp_bounds, fp_m, xrows. destruct (f_cut F), (f_lb F); cbn [andb app map xub].
  - pose proof (blit_aset2 (p_gl P) MInf MInf _ (ok_gl P OK)) as H1.
    pose proof (blit_aset2 (p_gu P) (f_cutoff F) (f_rhs F) _ (ok_gu P OK)) as H2.
    apply bind_ok in H1. destruct H1 as (a & -> & H1). apply bind_ok in H1. destruct H1 as (a' & E1 & H1).
    apply bind_ok in H2. destruct H2 as (b & -> & H2). apply bind_ok in H2. destruct H2 as (b' & E2 & H2).
    cbn [bind]. rewrite E1. cbn [bind]. rewrite E2. cbn [bind]. rewrite H1. cbn [bind]. rewrite H2. reflexivity.
  - pose proof (blit_aset1 (p_gl P) MInf _ (ok_gl P OK)) as H1.
    pose proof (blit_aset1 (p_gu P) (f_cutoff F) _ (ok_gu P OK)) as H2.
    apply bind_ok in H1. destruct H1 as (a & -> & H1). apply bind_ok in H2. destruct H2 as (b & -> & H2).
    cbn [bind]. rewrite H1. cbn [bind]. rewrite H2. reflexivity.
  - pose proof (blit_aset1 (p_gl P) MInf _ (ok_gl P OK)) as H1.
    pose proof (blit_aset1 (p_gu P) (f_rhs F) _ (ok_gu P OK)) as H2.
    apply bind_ok in H1. destruct H1 as (a & -> & H1). apply bind_ok in H2. destruct H2 as (b & -> & H2).
    cbn [bind]. rewrite H1. cbn [bind]. rewrite H2. reflexivity.
  - rewrite (blit_all _ _ (ok_gl P OK)), (blit_all _ _ (ok_gu P OK)). cbn [bind].
    rewrite !app_nil_r. reflexivity.
Qed.
Lemma feval_g_ok x : length x = p_n P ->
  exists es, fp_eval_g P F x (fresh (fp_m P F)) = Ok (map Some (p_g P x ++ es)) /\
    Forall2 (fun v r => v == xval P F x r) es (xrows F).
Proof.
  intros L. unfold fp_eval_g, fp_m, xrows.
  destruct (eval_f_ok x L) as (o & EO & VO). destruct (lb_value_ok x L) as (b & EB & VB).
  pose proof (ok_g P OK x L) as Lg.
  destruct (f_cut F), (f_lb F); cbn [andb app].
  - exists [o; b]. split; [|repeat constructor; assumption].
    pose proof (blit_aset2 (p_g P x) o b _ Lg) as H. apply bind_ok in H. destruct H as (a & -> & H).
    cbn [bind]. rewrite EO. cbn [bind]. apply bind_ok in H. destruct H as (a' & -> & H). cbn [bind]. rewrite EB. exact H.
  - exists [o]. split; [|repeat constructor; assumption].
    pose proof (blit_aset1 (p_g P x) o _ Lg) as H. apply bind_ok in H. destruct H as (a & -> & H).
    cbn [bind]. rewrite EO. exact H.
  - exists [b]. split; [|repeat constructor; assumption].
    pose proof (blit_aset1 (p_g P x) b _ Lg) as H. apply bind_ok in H. destruct H as (a & -> & H).
    cbn [bind]. rewrite EB. exact H.
  - exists []. split; [|constructor]. rewrite (blit_all _ _ Lg), app_nil_r. reflexivity.
Qed.
Lemma aset_blit1 {A} (l : list A) v m : length l = m ->
  (do a <- aset (m + 1 - 1) v (fresh (m + 1)); ablit 0 l a) = Ok (map Some (l ++ [v])).
Proof. intros L. replace (m + 1 - 1)%nat with m by lia. apply last_then_blit, L. Qed.
Lemma aset_blit2 {A} (l : list A) v w m : length l = m ->
  (do a <- aset (m + 2 - 1) v (fresh (m + 2)); do b <- aset (m + 2 - 1 - 1) w a; ablit 0 l b)
  = Ok (map Some (l ++ [w; v])).
Proof.
  intros L. rewrite fresh_app. change (@fresh A 2) with [@None A; None].
  replace (fresh m ++ [None; None]) with ((@fresh A m ++ [None]) ++ [None]) by (rewrite <- app_assoc; reflexivity).
  replace (m + 2 - 1)%nat with (length (@fresh A m ++ [None])) by (rewrite app_length, fresh_length; simpl; lia).
  rewrite aset_app. cbn [bind]. rewrite <- app_assoc. cbn [app].
  replace (length (@fresh A m ++ [None]) - 1)%nat with (length (@fresh A m)) by (rewrite app_length; simpl; lia).
  rewrite aset_app. cbn [bind]. rewrite ablit0_app by (rewrite fresh_length; congruence).
  rewrite map_app. reflexivity.
Qed.
Lemma flin_ok : f_cut F && f_lb F = false ->
  fp_lin P F (fresh (fp_m P F)) = Ok (map Some (p_lin P ++ map xlin (xrows F))).
Proof.
  intros NB. unfold fp_lin, fp_m, xrows. pose proof (ok_lin P OK) as L.
  destruct (f_cut F), (f_lb F); try discriminate; cbn [andb app map xlin].
  - pose proof (aset_blit1 (p_lin P) false _ L) as H. apply bind_ok in H. destruct H as (a & -> & H).
    cbn [bind]. rewrite firstn_all2 by lia. exact H.
  - cbn [bind]. pose proof (aset_blit1 (p_lin P) true _ L) as H. apply bind_ok in H. destruct H as (a & -> & H).
    cbn [bind]. rewrite firstn_all2 by lia. exact H.
  - cbn [bind]. rewrite firstn_all2 by lia. rewrite app_nil_r. apply blit_all, L.
Qed.
Lemma flin_both : f_cut F = true -> f_lb F = true ->
  fp_lin P F (fresh (fp_m P F)) = Ok (map Some (p_lin P ++ [xlin XLb; xlin XCut])).
Proof.
  intros C B. unfold fp_lin, fp_m. rewrite C, B. cbn [andb]. pose proof (ok_lin P OK) as L.
  pose proof (aset_blit2 (p_lin P) false true _ L) as H.
  apply bind_ok in H. destruct H as (a & -> & H). cbn [bind].
  apply bind_ok in H. destruct H as (b & -> & H). cbn [bind]. rewrite firstn_all2 by lia. exact H.
Qed.
Lemma fstart_ok : fp_start_lambda P F (fresh (fp_m P F)) = Ok (map Some (p_l0 P ++ map (fun _ => 0) (xrows F))).
Proof.
  unfold fp_start_lambda, fp_m, xrows. pose proof (ok_l0 P OK) as L.
  destruct (f_cut F), (f_lb F); cbn [andb app map].
  - pose proof (aset_blit2 (p_l0 P) 0 0 _ L) as H.
    apply bind_ok in H. destruct H as (a & -> & H). cbn [bind].
    apply bind_ok in H. destruct H as (b & -> & H). cbn [bind]. rewrite firstn_all2 by lia. exact H.
  - pose proof (aset_blit1 (p_l0 P) 0 _ L) as H. apply bind_ok in H. destruct H as (a & -> & H).
    cbn [bind]. rewrite firstn_all2 by lia. exact H.
  - cbn [bind]. pose proof (aset_blit1 (p_l0 P) 0 _ L) as H. apply bind_ok in H. destruct H as (a & -> & H).
    cbn [bind]. rewrite firstn_all2 by lia. exact H.
  - cbn [bind]. rewrite firstn_all2 by lia. rewrite app_nil_r. apply blit_all, L.
Qed.
End S.
