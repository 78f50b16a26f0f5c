From Verif Require Import Base Arr Nlp FP_Model Dup_Model Dup_Spec Dup_Proofs Dup_Proofs2.
#[local] Open Scope Q_scope.

Section S.
Variable U : nat -> nlp.
Lemma app_at {A} (l : list A) x : nth_error (l ++ [x]) (length l) = Some x.
Proof. rewrite nth_error_app2, Nat.sub_diag by lia. reflexivity. Qed.
(** * Copies *)
Lemma copy_ok s i x u : wf s -> at_ s i x -> i_user x = Some u -> exists s' y p q,
  exec U (Copy i) s = Ok s' /\ at_ s' (length (s_ifs s)) y /\ at_ s' i x /\ see U s' x = see U s x /\
  i_user y = i_user x /\ i_lin y = None /\ i_sbs y = i_sbs x /\ i_mode y = i_mode x /\ i_pat y = None /\ i_done y = i_done x /\
  posed s x = Ok (mkPose (q_user q) (q_lo q) (q_up q) (match i_opt x with Some (TFp _) => Some p | _ => None end)) /\
  posed s' y = Ok (mkPose (q_user q) (q_lo q) (q_up q) (if i_mode x then Some p else None)) /\
  bounds s' y = bounds s x /\ point U s' y = point U s x /\ linearized s' y = posed s' y.
Proof.
  intros W H E. destruct (trio s i x u W H E) as (k & f & p & q & E1 & E2 & E3 & E4 & E5 & E6 & E7).
  assert (EX : exists s', exec U (Copy i) s = Ok s').
  { cbn [exec]. unfold copy. rewrite (rd_ok _ _ _ H). cbn [bind]. rewrite E. unfold deref. rewrite E1, E2, (rd_ok _ _ _ E4), (rd_ok _ _ _ E3). cbn. eauto. }
  destruct EX as (s' & EX). exists s'.
  destruct (others_see U (Copy i) s s' i x W EX H) as (O1 & O2 & _ & _); [discriminate|].
  cbn [exec] in EX. unfold copy in EX. rewrite (rd_ok _ _ _ H) in EX. cbn [bind] in EX. rewrite E in EX. unfold deref in EX. rewrite E1, E2, (rd_ok _ _ _ E4), (rd_ok _ _ _ E3) in EX.
  cbn [bind snd] in EX. injection EX as <-.
  match goal with |- context [wifs (_ ++ [?z]) _] => exists z end. exists p, q.
  split. { cbn [exec]. unfold copy. rewrite (rd_ok _ _ _ H). cbn [bind]. rewrite E. unfold deref. rewrite E1, E2, (rd_ok _ _ _ E4), (rd_ok _ _ _ E3). reflexivity. }
  split; [unfold at_; cbn; apply app_at|]. split; [exact O1|]. split; [exact O2|]. do 6 (split; [cbn; auto|]). split; [exact E6|].
  split; [|split; [|split]].
  - unfold posed. cbn [i_opt]. destruct (i_mode x); cbn [wifs wfps wprobs s_probs s_fps].
    + rewrite (rd_ok _ _ _ (app_at _ _)). cbn [bind fst]. rewrite (rd_ok _ _ _ (app_at _ _)). reflexivity.
    + rewrite (rd_ok _ _ _ (app_at _ _)). reflexivity.
  - unfold bounds, deref. cbn [i_prob wifs wfps wprobs s_probs]. rewrite (rd_ok _ _ _ (app_at _ _)). rewrite E1, (rd_ok _ _ _ E4). reflexivity.
  - unfold point, deref. cbn [i_prob i_done wifs wfps wprobs s_probs]. rewrite (rd_ok _ _ _ (app_at _ _)). rewrite E1, (rd_ok _ _ _ E4). reflexivity.
  - reflexivity.
Qed.
Lemma copy_none s i x : at_ s i x -> i_user x = None -> exec U (Copy i) s = Thrown.
Proof. intros H E. cbn. unfold copy. rewrite (rd_ok _ _ _ H). cbn. rewrite E. reflexivity. Qed.

(** * Assignment *)
Lemma assign_ok s i j x y u s' : at_ s i x -> at_ s j y -> i <> j -> i_user y = Some u -> exec U (Assign i j) s = Ok s' -> exists x',
  at_ s' i x' /\ i_user x' = Some u /\ posed s' x' = Ok (original U u) /\ bounds s' x' = Ok (p_xl (U u), p_xu (U u)) /\
  point U s' x' = Ok (if i_done y then [] else p_x0 (U u)) /\ i_lin x' = i_lin x /\ i_mode x' = i_mode x /\ i_nonlin x' = i_nonlin x /\ i_sbs x' = i_sbs y.
Proof.
  intros H Hy N E EX. cbn [exec] in EX. unfold assign in EX. rewrite (rd_ok _ _ _ H), (rd_ok _ _ _ Hy) in EX. cbn [bind] in EX.
  destruct (Nat.eqb_spec i j) as [C|_]; [contradiction|]. rewrite E in EX. inv_bind EX. injection EX as <-.
  eexists. split; [unfold at_; cbn; apply upd_same; eapply nth_len; exact H|]. cbn [i_user i_lin i_mode i_nonlin i_sbs]. split; [reflexivity|].
  unfold posed, bounds, point, deref. cbn [i_opt i_prob i_done put wifs wfps wprobs s_probs]. rewrite !(rd_ok _ _ _ (app_at _ _)). cbn. repeat split.
Qed.
Lemma assign_outcome s i j x y u : at_ s i x -> at_ s j y -> i <> j -> i_user y = Some u -> i_pat y = None -> i_types y = None ->
  (i_nnz y = 0%nat -> exists s', exec U (Assign i j) s = Ok s') /\ (i_nnz y <> 0%nat -> exec U (Assign i j) s = Thrown).
Proof.
  intros H Hy N E P T. cbn [exec]. unfold assign. rewrite (rd_ok _ _ _ H), (rd_ok _ _ _ Hy). cbn [bind].
  destruct (Nat.eqb_spec i j) as [C|_]; [contradiction|]. rewrite E, P, T. cbn [bind]. split; intros Z.
  - rewrite Z. cbn. eauto.
  - destruct (Nat.ltb_spec 0 (i_nnz y)) as [L|L]; [reflexivity|lia].
Qed.

(** * New problems *)
Lemma setModel_ok s i x u : at_ s i x -> exists s' y, exec U (SetModel i u) s = Ok s' /\ at_ s' i y /\ i_user y = Some u /\ i_mode y = i_mode x /\
  i_lin y = i_lin x /\ i_pat y = i_pat x /\ i_types y = i_types x /\ i_nonlin y = i_nonlin x /\
  posed s' y = Ok (mkPose u (p_xl (U u)) (p_xu (U u)) (if i_mode x then Some fp0 else None)) /\
  bounds s' y = Ok (p_xl (U u), p_xu (U u)) /\ point U s' y = Ok (if i_done x then [] else p_x0 (U u)).
Proof.
  intros H. cbn [exec]. unfold setModel. rewrite (rd_ok _ _ _ H). cbn [bind]. eexists. eexists. split; [reflexivity|].
  split; [unfold at_; cbn; apply upd_same; eapply nth_len; exact H|]. do 6 (split; [reflexivity|]).
  unfold posed, bounds, point, deref. cbn [i_opt i_prob i_done put wifs wfps wprobs s_probs s_fps].
  destruct (i_mode x); rewrite ?(rd_ok _ _ _ (app_at _ _)); cbn [bind fst snd]; rewrite ?(rd_ok _ _ _ (app_at _ _)); cbn; repeat split.
Qed.
Lemma use_ok s i x u0 u : wf s -> at_ s i x -> i_user x = Some u0 -> exists s' y, exec U (Use i u) s = Ok s' /\ at_ s' i y /\ i_user y = Some u0 /\ i_mode y = i_mode x /\
  i_lin y = i_lin x /\ i_pat y = i_pat x /\ i_types y = i_types x /\ i_nonlin y = i_nonlin x /\
  posed s' y = Ok (original U u) /\
  bounds s' y = Ok (p_xl (U u), p_xu (U u)) /\ point U s' y = Ok (if i_done x then [] else p_x0 (U u)).
Proof.
  intros W H E. destruct (trio s i x u0 W H E) as (k & f & p & q & E1 & E2 & E3 & E4 & E5 & E6 & E7).
  cbn [exec]. unfold use. rewrite (rd_ok _ _ _ H). cbn [bind]. rewrite E2, (rd_ok _ _ _ E3). cbn [bind]. eexists. eexists. split; [reflexivity|].
  split; [unfold at_; cbn; apply upd_same; eapply nth_len; exact H|]. do 6 (split; [assumption || reflexivity|]).
  unfold posed, bounds, point, deref. cbn [i_opt i_prob i_done put wifs wfps wprobs s_probs s_fps].
  rewrite !(rd_ok _ _ _ (app_at _ _)); cbn; repeat split.
Qed.
(** The linearizer's problem is not touched by a new problem. *)
Lemma lin_new s i x u s' y l k q : at_ s i x -> i_lin x = Some l -> nth_error (s_lins s) l = Some k -> nth_error (s_probs s) k = Some q ->
  exec U (SetModel i u) s = Ok s' \/ exec U (Use i u) s = Ok s' -> at_ s' i y -> linearized s' y = linearized s x.
Proof.
  intros H E1 E2 E3 EX Hy. assert (L : (k < length (s_probs s))%nat) by (eapply nth_len; exact E3). pose proof (nth_len _ _ _ H) as Li.
  destruct EX as [EX|EX]; cbn [exec] in EX.
  - unfold setModel in EX. rewrite (rd_ok _ _ _ H) in EX. cbn [bind] in EX. injection EX as <-.
    unfold at_ in Hy. cbn in Hy. rewrite upd_same in Hy by exact Li. injection Hy as <-. unfold linearized. cbn [i_lin put wifs wfps wprobs s_lins s_probs].
    rewrite E1, (rd_ok _ _ _ E2). cbn [bind]. unfold rd. rewrite nth_error_app1 by exact L. reflexivity.
  - unfold use in EX. rewrite (rd_ok _ _ _ H) in EX. cbn [bind] in EX. destruct (i_fp x); [|discriminate EX]. inv_bind EX. injection EX as <-.
    unfold at_ in Hy. cbn in Hy. rewrite upd_same in Hy by exact Li. injection Hy as <-. unfold linearized. cbn [i_lin put wifs wfps wprobs s_lins s_probs].
    rewrite E1, (rd_ok _ _ _ E2). cbn [bind]. unfold rd. rewrite nth_error_app1 by exact L. reflexivity.
Qed.

(** * The Jacobian arrays *)
Lemma extra_rows p : extra p = false <-> rows_extra p = 0%nat.
Proof. unfold extra, rows_extra. destruct (o_fp p) as [f|]; [|tauto]. destruct (f_cut f), (f_lb f); cbn; split; intros; auto; lia || discriminate. Qed.
Lemma rows_of_extra p : rows_of U p = (p_m (U (o_user p)) + rows_extra p)%nat.
Proof. reflexivity. Qed.
Lemma no_extra p : users_ok U -> extra p = false -> pattern U p = jac_of U (o_user p) /\ linearity U p (p_m (U (o_user p))) = Ok (p_lin (U (o_user p))).
Proof.
  intros HU E. unfold pattern, linearity, jac_of, extra in *. rewrite <- (ok_lin _ (HU (o_user p))), firstn_all.
  destruct (o_fp p) as [f|]; [|auto]. apply orb_false_iff in E. destruct E as [-> ->]. cbn [app length]. rewrite app_nil_r. split; [reflexivity|]. rewrite Nat.sub_0_r, firstn_all. cbn. rewrite app_nil_r. reflexivity.
Qed.
Lemma lin_extra p : users_ok U -> linearity U p (p_m (U (o_user p))) =
  if Nat.ltb (p_m (U (o_user p))) (rows_extra p) then OutOfBounds
  else Ok (firstn (p_m (U (o_user p)) - rows_extra p) (p_lin (U (o_user p))) ++
           match o_fp p with Some f => rev ((if f_cut f then [false] else []) ++ (if f_lb f then [true] else [])) | None => [] end).
Proof.
  intros HU. unfold linearity, rows_extra. rewrite <- (ok_lin _ (HU (o_user p))). destruct (o_fp p) as [f|].
  - rewrite firstn_all. destruct (f_cut f), (f_lb f); cbn [app length b2n Nat.add]; reflexivity.
  - cbn. rewrite Nat.sub_0_r, firstn_all, app_nil_r. reflexivity.
Qed.
Lemma lin_extra_len p t : users_ok U -> linearity U p (p_m (U (o_user p))) = Ok t -> length t = p_m (U (o_user p)).
Proof.
  intros HU. rewrite (lin_extra p HU). destruct (Nat.ltb_spec (p_m (U (o_user p))) (rows_extra p)) as [C|C]; [discriminate|]. intros H. injection H as <-.
  rewrite app_length, firstn_length_le by (rewrite (ok_lin _ (HU (o_user p))); lia). unfold rows_extra in *.
  destruct (o_fp p) as [f|]; [|cbn; lia]. rewrite rev_length, app_length. destruct (f_cut f), (f_lb f); cbn [b2n length] in *; lia.
Qed.
Lemma jac_rows u : users_ok U -> existsb (fun rc => Nat.leb (p_m (U u)) (fst rc)) (jac_of U u) = false.
Proof.
  intros HU. pose proof (ok_jst _ (HU u)) as F. unfold jac_of. induction F as [|[r c] l Hr F IH]; [reflexivity|]. cbn [map existsb fst snd] in *.
  rewrite IH, orb_false_r. apply Nat.leb_gt. lia.
Qed.
Lemma posed_user s i x p u : wf s -> at_ s i x -> i_user x = Some u -> posed s x = Ok p -> exists q, deref (i_prob x) (s_probs s) = Ok q /\ q_user q = o_user p.
Proof.
  intros W H E P. destruct (trio s i x u W H E) as (k & f & pp & q & E1 & E2 & E3 & E4 & E5 & E6 & E7). rewrite E6 in P. injection P as <-.
  exists q. unfold deref. rewrite E1. split; [apply rd_ok; exact E4|reflexivity].
Qed.
(** Arrays that are those of the user's problem [u]. *)
Definition jac_ok (u : nat) (x : ifc) : Prop :=
  i_pat x = None \/ (i_pat x = Some (jac_of U u) /\ i_types x = Some (p_lin (U u)) /\ (length (filter negb (p_lin (U u))) <= i_nonlin x)%nat).
Lemma pattern_len p : (length (jac_of U (o_user p)) <= length (pattern U p))%nat.
Proof. unfold pattern. destruct (o_fp p) as [f|]; [|apply Nat.le_refl]. rewrite app_length. unfold jac_of. lia. Qed.
Definition with_jac (x : ifc) (u : nat) : ifc :=
  mkIfc (i_user x) (i_prob x) (i_fp x) (i_opt x) (i_mode x) (i_lin x) (i_sbs x) (length (jac_of U u)) (Some (jac_of U u)) (Some (p_lin (U u)))
        (i_nonlin x + length (filter negb (p_lin (U u)))) (i_done x) (i_rep x).
Lemma initJac_extra s i x p u : users_ok U -> wf s -> at_ s i x -> i_user x = Some u -> posed s x = Ok p ->
  (extra p = false -> initJac U i s = Ok (put i (with_jac x (o_user p)) s)) /\
  ((p_m (U (o_user p)) < rows_extra p)%nat -> initJac U i s = OutOfBounds) /\
  (initJac U i s = OutOfBounds \/ exists t n c, initJac U i s = Ok (put i (mkIfc (i_user x) (i_prob x) (i_fp x) (i_opt x) (i_mode x) (i_lin x) (i_sbs x) n (Some (pattern U p)) (Some t) c (i_done x) (i_rep x)) s) /\
     length t = p_m (U (o_user p)) /\ (rows_extra p <= p_m (U (o_user p)))%nat).
Proof.
  intros HU W H E P. destruct (posed_user s i x p u W H E P) as (q & D & Q). rewrite (initJac_ok U i s x H), P. cbn [bind]. rewrite D. cbn [bind]. rewrite Q. split; [|split].
  - intros X. destruct (no_extra p HU X) as [-> ->]. reflexivity.
  - intros X. rewrite (lin_extra p HU). apply Nat.ltb_lt in X. rewrite X. reflexivity.
  - destruct (linearity U p (p_m (U (o_user p)))) as [t| | | | | | |] eqn:T; pose proof T as T'; rewrite (lin_extra p HU) in T; destruct (Nat.ltb_spec (p_m (U (o_user p))) (rows_extra p)); try discriminate T; [|left; reflexivity].
    right. exists t, (length (pattern U p)), (i_nonlin x + length (filter negb t))%nat. split; [reflexivity|]. split; [eapply lin_extra_len; eassumption|lia].
Qed.
Lemma cuts_ok s i x p u : users_ok U -> wf s -> at_ s i x -> i_user x = Some u -> i_lin x = None -> posed s x = Ok p -> jac_ok (o_user p) x ->
  (extra p = false -> exists s', outerApproximation U i s = Ok (mkCd (pattern U p) (p_lin (U (o_user p))), s')) /\
  (extra p = true -> outerApproximation U i s = OutOfBounds).
Proof.
  intros HU W H E L P J. unfold outerApproximation. rewrite (rd_ok _ _ _ H). cbn [bind]. rewrite L, P. cbn [bind].
  pose proof (ok_lin _ (HU (o_user p))) as Ll. destruct (initJac_extra s i x p u HU W H E P) as (I1 & I2 & I3).
  split; intros X.
  - destruct (no_extra p HU X) as [Np _]. assert (R : rows_of U p = p_m (U (o_user p))) by (rewrite rows_of_extra; apply extra_rows in X; lia).
    assert (G : forall y s1, rd i (s_ifs s1) = Ok y -> i_pat y = Some (jac_of U (o_user p)) -> i_types y = Some (p_lin (U (o_user p))) -> (length (filter negb (p_lin (U (o_user p)))) <= i_nonlin y)%nat ->
      exists s', (do y0 <- rd i (s_ifs s1); match i_pat y0, i_types y0 with
        | Some J0, Some t => let nnz := length (pattern U p) in if Nat.ltb (length J0) nnz then OutOfBounds else if Nat.ltb (length t) (rows_of U p) then OutOfBounds else
            let t' := firstn (rows_of U p) t in if Nat.ltb (i_nonlin y0 + 1) (length (filter negb t')) then OutOfBounds else
            if existsb (fun rc => Nat.leb (rows_of U p) (fst rc)) (firstn nnz J0) then OutOfBounds else Ok (mkCd (firstn nnz J0) t', s1)
        | _, _ => NullDeref end) = Ok (mkCd (pattern U p) (p_lin (U (o_user p))), s')).
    { intros y s1 A B C D. rewrite A. cbn [bind]. rewrite B, C, R, Np. cbv zeta. rewrite Nat.ltb_irrefl. rewrite (proj2 (Nat.ltb_ge _ _)) by lia.
      assert (FL : firstn (p_m (U (o_user p))) (p_lin (U (o_user p))) = p_lin (U (o_user p))) by (rewrite <- Ll; apply firstn_all).
      rewrite FL. rewrite (proj2 (Nat.ltb_ge _ _)) by lia. rewrite firstn_all, (jac_rows _ HU). eauto. }
    destruct J as [J|(J1 & J2 & J3)].
    + rewrite J, (I1 X). cbn [bind]. eapply G; [eapply at_put; exact H|reflexivity|reflexivity|]. cbn. lia.
    + rewrite J1. cbn [bind]. eapply G; [apply rd_ok; exact H|exact J1|exact J2|exact J3].
  - assert (R : (p_m (U (o_user p)) < rows_of U p)%nat).
    { rewrite rows_of_extra. destruct (rows_extra p) eqn:Z; [apply extra_rows in Z; congruence|lia]. }
    destruct J as [J|(J1 & J2 & J3)].
    + rewrite J. destruct I3 as [->|(t & n & c & -> & T1 & T2)]; [reflexivity|]. cbn [bind]. rewrite (at_put i x s _ H). cbn [bind i_pat i_types i_nonlin]. cbv zeta.
      rewrite Nat.ltb_irrefl. rewrite (proj2 (Nat.ltb_lt _ _)) by lia. reflexivity.
    + rewrite J1. cbn [bind]. rewrite (rd_ok _ _ _ H). cbn [bind]. rewrite J1, J2. cbv zeta. destruct (Nat.ltb _ _); [reflexivity|]. rewrite (proj2 (Nat.ltb_lt _ _)) by lia. reflexivity.
Qed.
Lemma relax_ok s i x p u : users_ok U -> wf s -> at_ s i x -> i_user x = Some u -> i_lin x = None -> posed s x = Ok p ->
  (extra p = false -> exists s', linearRelaxation U i s = Ok (mkCd (pattern U p) (p_lin (U (o_user p))), s')) /\
  (extra p = true -> linearRelaxation U i s = if Nat.ltb (p_m (U (o_user p))) (rows_extra p) then OutOfBounds else AssertFail).
Proof.
  intros HU W H E L P. unfold linearRelaxation. rewrite (rd_ok _ _ _ H). cbn [bind]. rewrite L, P. cbn [bind].
  destruct (posed_user s i x p u W H E P) as (q & D & Q). rewrite D. cbn [bind]. destruct (initJac_extra s i x p u HU W H E P) as (I1 & I2 & I3). split; intros X.
  - destruct (no_extra p HU X) as [Np _]. rewrite (I1 X). cbn [bind]. rewrite (at_put i x s _ H). cbn [bind with_jac i_pat i_types].
    rewrite Q, rows_of_extra, Np. apply extra_rows in X. rewrite X, Nat.add_0_r, Nat.eqb_refl. eauto.
  - destruct (Nat.ltb_spec (p_m (U (o_user p))) (rows_extra p)) as [C|C]; [rewrite (I2 C); reflexivity|]. 
    destruct I3 as [Z|(t & n & c & Z & T1 & T2)].
    + exfalso. rewrite (initJac_ok U i s x H), P in Z. cbn [bind] in Z. rewrite D in Z. cbn [bind] in Z. rewrite Q, (lin_extra p HU) in Z.
      apply Nat.ltb_ge in C. rewrite C in Z. discriminate Z.
    + rewrite Z. cbn [bind]. rewrite (at_put i x s _ H). cbn [bind i_pat i_types]. rewrite Q, rows_of_extra.
      destruct (rows_extra p) eqn:Zr; [apply extra_rows in Zr; congruence|]. rewrite (proj2 (Nat.eqb_neq _ _)) by lia. reflexivity.
Qed.
End S.
