From Verif Require Import Base Arr Nlp FP_Model Dup_Model Dup_Spec Dup_Proofs.
#[local] Open Scope Q_scope.
Ltac inv_bind H := match type of H with (bind _ _ = Ok _) => let q := fresh "v" in let A := fresh "A" in apply bind_ok in H; destruct H as (q & A & H); try apply rd_some in A; inv_bind H | _ => idtac end.
Lemma rd_ok {A} i (l : list A) x : nth_error l i = Some x -> rd i l = Ok x.
Proof. apply rd_some. Qed.

Section S.
Variable U : nat -> nlp.
(** * Views of the other interfaces *)
Lemma see_keep s s' x y : grow s s' -> touch s x s' -> wfi s y -> (forall k, owns s y k -> ~ owns s x k) -> (forall f, fpo y f -> ~ fpo x f) ->
  see U s' y = see U s y /\ (forall k, i_prob y = Some k -> nth_error (s_probs s') k = nth_error (s_probs s) k).
Proof.
  intros G T W H1 H2. destruct (keep s s' x y G T W H1 H2) as (K1 & K2 & K3 & K4).
  assert (P : posed s' y = posed s y).
  { unfold posed. destruct (i_opt y) as [[k|f]|] eqn:E; [| |reflexivity].
    - unfold rd. rewrite (K1 k); [reflexivity|]. right; left. exact E.
    - unfold rd. rewrite (K2 f) by (right; exact E). destruct (nth_error (s_fps s) f) as [g|] eqn:Eg; [|reflexivity].
      cbn [bind]. rewrite (K1 (fst g)); [reflexivity|]. right; right; left. exists f, g. split; [right; exact E|auto]. }
  assert (B : forall k, i_prob y = Some k -> nth_error (s_probs s') k = nth_error (s_probs s) k).
  { intros k E. apply K1. left. exact E. }
  split; [|exact B]. unfold see. f_equal; [exact P| | |].
  - unfold bounds, deref, rd. destruct (i_prob y) as [k|]; [|reflexivity]. rewrite (B k) by reflexivity. reflexivity.
  - unfold point, deref, rd. destruct (i_prob y) as [k|]; [|reflexivity]. rewrite (B k) by reflexivity. reflexivity.
  - unfold linearized. destruct (i_lin y) as [l|] eqn:E; [|exact P]. unfold rd. rewrite (K3 l) by reflexivity.
    destruct (nth_error (s_lins s) l) as [k|] eqn:El; [|reflexivity]. cbn [bind]. rewrite (K1 k); [reflexivity|]. right; right; right. exists l. auto.
Qed.
Lemma others_see o s s' j y : wf s -> exec U o s = Ok s' -> at_ s j y -> target o <> Some j ->
  at_ s' j y /\ see U s' y = see U s y /\ (forall k, i_prob y = Some k -> nth_error (s_probs s') k = nth_error (s_probs s) k) /\
  (forall f, fpo y f -> nth_error (s_fps s') f = nth_error (s_fps s) f).
Proof.
  intros W H Hy N. pose proof (exec_act U _ _ _ W H) as X. pose proof (w_if _ W _ _ Hy) as Wy. destruct (target o) as [i|].
  - destruct X as (x & x' & Hx & E & G & T & K & W'). assert (Nij : j <> i) by congruence.
    assert (S1 : forall k, owns s y k -> ~ owns s x k) by (intros k O; eapply (w_sep _ W); eauto).
    assert (S2 : forall f, fpo y f -> ~ fpo x f) by (intros f O; eapply (w_sepf _ W); eauto).
    split. { unfold at_. rewrite E. rewrite upd_other; [exact Hy|eapply nth_len; exact Hx|exact Nij]. }
    destruct (see_keep s s' x y G T Wy S1 S2) as [V1 V2]. split; [exact V1|split; [exact V2|]]. apply (keep s s' x y G T Wy S1 S2).
  - destruct X as (x' & E & G & T & K & W').
    assert (S1 : forall k, owns s y k -> ~ owns s if0 k) by (intros; apply owns0).
    assert (S2 : forall f, fpo y f -> ~ fpo if0 f) by (intros; apply fpo0).
    split. { unfold at_. rewrite E. rewrite nth_error_app1; [exact Hy|eapply nth_len; exact Hy]. }
    destruct (see_keep s s' if0 y G T Wy S1 S2) as [V1 V2]. split; [exact V1|split; [exact V2|]]. apply (keep s s' if0 y G T Wy S1 S2).
Qed.
Lemma exec_wf o s s' : wf s -> exec U o s = Ok s' -> wf s'.
Proof. intros W A. pose proof (exec_act U _ _ _ W A) as X. destruct (target o); [eapply act_wf|eapply adds_wf]; eassumption. Qed.
Lemma execs_see l : forall s s' j y, wf s -> execs U l s = Ok s' -> at_ s j y -> (forall o, In o l -> target o <> Some j) ->
  at_ s' j y /\ see U s' y = see U s y.
Proof.
  induction l as [|o l IH]; cbn; intros s s' j y W H Hy N; [injection H as <-; auto|].
  apply bind_ok in H. destruct H as (s1 & A & H).
  destruct (others_see o s s1 j y W A Hy (N o (or_introl eq_refl))) as (A1 & A2 & _ & _).
  destruct (IH s1 s' j y (exec_wf _ _ _ W A) H A1 (fun o' I => N o' (or_intror I))) as [B1 B2]. split; [exact B1|congruence].
Qed.
(** What cuts are made of depends on the view and on the interface only. *)
Lemma initJac_ok i s x : at_ s i x -> initJac U i s =
  (do p <- posed s x; do q <- deref (i_prob x) (s_probs s); do t <- linearity U p (p_m (U (q_user q)));
   Ok (put i (mkIfc (i_user x) (i_prob x) (i_fp x) (i_opt x) (i_mode x) (i_lin x) (i_sbs x) (length (pattern U p)) (Some (pattern U p)) (Some t)
               (i_nonlin x + length (filter negb t)) (i_done x) (i_rep x)) s)).
Proof. intros H. unfold initJac. rewrite (rd_ok _ _ _ H). reflexivity. Qed.
Lemma at_put i x s y : at_ s i x -> rd i (s_ifs (put i y s)) = Ok y.
Proof. intros H. apply rd_ok. cbn. apply upd_same. eapply nth_len. exact H. Qed.
Lemma cuts_keep i s s' x : at_ s i x -> at_ s' i x -> see U s' x = see U s x ->
  (forall k, i_prob x = Some k -> nth_error (s_probs s') k = nth_error (s_probs s) k) -> cuts_of U i s' = cuts_of U i s.
Proof.
  intros H H' E P. unfold see in E. injection E as E1 _ _ E2. unfold cuts_of, outerApproximation. rewrite (rd_ok _ _ _ H), (rd_ok _ _ _ H'). cbn [bind].
  destruct (i_lin x); [rewrite E2; destruct (linearized s x); reflexivity|]. rewrite E1. destruct (posed s x) as [p| | | | | | |] eqn:Ep; try reflexivity. cbn [bind].
  assert (D : deref (i_prob x) (s_probs s') = deref (i_prob x) (s_probs s)).
  { unfold deref, rd. destruct (i_prob x) as [k|]; [|reflexivity]. rewrite P by reflexivity. reflexivity. }
  destruct (i_pat x) as [J|] eqn:Ej.
  - cbn [bind]. rewrite (rd_ok _ _ _ H), (rd_ok _ _ _ H'). cbn [bind]. rewrite Ej. destruct (i_types x); [|reflexivity]. cbv zeta.
    repeat match goal with |- context [if ?b then _ else _] => destruct b; [reflexivity|] end. reflexivity.
  - rewrite (initJac_ok i s x H), (initJac_ok i s' x H'), E1, Ep, D. cbn [bind]. destruct (deref (i_prob x) (s_probs s)) as [q| | | | | | |]; try reflexivity. cbn [bind].
    destruct (linearity U p _) as [t| | | | | | |]; try reflexivity. cbn [bind]. rewrite (at_put i x s _ H), (at_put i x s' _ H'). cbn [bind i_pat i_types i_nonlin]. cbv zeta.
    repeat match goal with |- context [if ?b then _ else _] => destruct b; [reflexivity|] end. reflexivity.
Qed.
(** ** Strong branching solvers *)
Lemma sbs_keep o s s' b : exec U o s = Ok s' -> (b < length (s_sbs s))%nat -> ~ remarks o b s -> nth_error (s_sbs s') b = nth_error (s_sbs s) b /\ (length (s_sbs s) <= length (s_sbs s'))%nat.
Proof.
  intros H L N.
  assert (ST : forall k v a c, store k v a = Ok c -> s_sbs c = s_sbs a) by (intros k v a c E; apply store_but in E; apply E).
  assert (IJ : forall i a c, initJac U i a = Ok c -> s_sbs c = s_sbs a).
  { intros i a c E. unfold initJac in E. inv_bind E. injection E as <-. reflexivity. }
  assert (D : s_sbs s' = s_sbs s \/ (exists v, s_sbs s' = s_sbs s ++ v) \/ exists c v, (c < length (s_sbs s))%nat /\ c <> b /\ s_sbs s' = upd c v (s_sbs s)).
  { destruct o; cbn [exec] in H.
    - injection H as <-. auto.
    - unfold setModel in H. inv_bind H. injection H as <-. auto.
    - unfold use in H. inv_bind H. destruct (i_fp v); [|discriminate H]. inv_bind H. injection H as <-. auto.
    - unfold setColBounds in H. inv_bind H. destruct (i_prob v); [|discriminate H]. inv_bind H. injection H as <-. auto.
    - unfold switchToPump, switchTo in H. inv_bind H. destruct (i_fp v); [|discriminate H]. inv_bind H. injection H as <-. auto.
    - unfold switchToLocal, switchTo in H. inv_bind H. destruct (i_fp v); [|discriminate H]. inv_bind H. injection H as <-. auto.
    - unfold switchToOriginal in H. inv_bind H. injection H as <-. auto.
    - unfold solveFeasibility in H. inv_bind H. destruct (i_fp v); [|discriminate H]. inv_bind H. injection H as <-. left. cbn. rewrite (ST _ _ _ _ A3). reflexivity.
    - unfold solve in H. inv_bind H. destruct (i_prob v); [|discriminate H]. destruct (i_opt v); [|discriminate H]. inv_bind H. apply ST in A2.
      destruct (fst a); [|injection H as <-; left; exact A2]. destruct (others _ _ _) as [[r s2]| | | | | | |] eqn:Eo; try discriminate H. cbn [bind] in H. injection H as <-.
      apply others_but in Eo. left. cbn. rewrite <- A2. apply Eo.
    - unfold setLinearizer in H. inv_bind H. destruct (i_prob v); [|discriminate H]. injection H as <-. auto.
    - unfold setStrong in H. inv_bind H. injection H as <-. right; left. eexists. reflexivity.
    - unfold markHotStart in H. inv_bind H. destruct (i_sbs v) as [c|] eqn:E; [|injection H as <-; auto]. inv_bind H. injection H as <-.
      right; right. exists c. eexists. split; [eapply nth_len; exact A1|]. split; [|reflexivity]. intros ->. apply N. exists v. auto.
    - unfold unmarkHotStart in H. inv_bind H. destruct (i_sbs v) as [c|] eqn:E; [|injection H as <-; auto]. inv_bind H. injection H as <-.
      right; right. exists c. eexists. split; [eapply nth_len; exact A0|]. split; [|reflexivity]. intros ->. apply N. exists v. auto.
    - unfold copy in H. inv_bind H. destruct (i_user v); [|discriminate H]. inv_bind H. injection H as <-. auto.
    - unfold assign in H. inv_bind H. destruct (Nat.eqb _ _); [injection H as <-; auto|]. destruct (i_user v0); [|injection H as <-; auto].
      inv_bind H. injection H as <-. auto.
    - unfold outerApproximation in H. inv_bind H. destruct v as [c s2]. injection H as <-. inv_bind A. destruct (i_lin v).
      + inv_bind A. injection A as _ <-. auto.
      + inv_bind A. destruct (i_pat v2); [|discriminate A]. destruct (i_types v2); [|discriminate A]. cbv zeta in A.
        repeat match type of A with (if ?b then _ else _) = _ => destruct b; [discriminate A|] end. injection A as _ <-.
        left. destruct (i_pat v); [injection A2 as <-; reflexivity|]. apply (IJ _ _ _ A2).
    - unfold linearRelaxation in H. inv_bind H. destruct v as [c s2]. injection H as <-. inv_bind A. destruct (i_lin v).
      + inv_bind A. injection A as _ <-. auto.
      + inv_bind A. destruct (i_pat v3); [|discriminate A]. destruct (i_types v3); [|discriminate A]. destruct (Nat.eqb _ _); [|discriminate A]. injection A as _ <-.
        left. apply (IJ _ _ _ A3). }
  destruct D as [->|[(v & ->)|(c & v & L' & Nc & ->)]].
  - auto.
  - rewrite app_length. split; [apply nth_error_app1; exact L|lia].
  - rewrite upd_len by exact L'. split; [|lia]. apply upd_other; auto.
Qed.
Lemma sbs_execs l : forall s s' b, execs U l s = Ok s' -> (b < length (s_sbs s))%nat -> alone U b l s -> nth_error (s_sbs s') b = nth_error (s_sbs s) b.
Proof.
  induction l as [|o l IH]; cbn; intros s s' b H L N; [congruence|]. apply bind_ok in H. destruct H as (s1 & A & H). destruct N as [N1 N2].
  destruct (sbs_keep o s s1 b A L N1) as [B1 B2]. rewrite (IH s1 s' b H); [exact B1|lia|exact (N2 s1 A)].
Qed.

(** * Own views *)
Lemma trio s i x u : wf s -> at_ s i x -> i_user x = Some u -> exists k f p q,
  i_prob x = Some k /\ i_fp x = Some f /\ nth_error (s_fps s) f = Some (k, p) /\ nth_error (s_probs s) k = Some q /\
  (i_opt x = Some (TProb k) \/ i_opt x = Some (TFp f)) /\
  posed s x = Ok (mkPose (q_user q) (q_lo q) (q_up q) (match i_opt x with Some (TFp _) => Some p | _ => None end)) /\
  bounds s x = Ok (q_lo q, q_up q).
Proof.
  intros W H E. pose proof (w_if _ W _ _ H) as Wx. pose proof (w_trio _ _ Wx) as V. rewrite E in V.
  destruct (i_prob x) as [k|] eqn:Ek; [|contradiction]. destruct (i_fp x) as [f|] eqn:Ef; [|contradiction]. destruct V as [(p & V) O].
  assert (Lk : (k < length (s_probs s))%nat) by (apply (w_owns _ _ Wx); left; exact Ek).
  destruct (nth_error (s_probs s) k) as [q|] eqn:Eq; [|apply nth_error_None in Eq; lia].
  exists k, f, p, q. do 5 (split; [auto|]). split.
  - unfold posed. destruct O as [-> | ->]; cbn; [rewrite (rd_ok _ _ _ Eq)|rewrite (rd_ok _ _ _ V); cbn; rewrite (rd_ok _ _ _ Eq)]; reflexivity.
  - unfold bounds, deref. rewrite Ek, (rd_ok _ _ _ Eq). reflexivity.
Qed.
Lemma prob_user s i x k : wf s -> at_ s i x -> i_prob x = Some k -> exists u, i_user x = Some u.
Proof.
  intros W H E. pose proof (w_trio _ _ (w_if _ W _ _ H)) as V. rewrite E in V. destruct (i_user x) as [u|]; [eauto|contradiction].
Qed.
(** ** The mode and the problem posed *)
Definition in_step (x : ifc) : Prop := match i_opt x with Some (TProb _) => i_mode x = false | Some (TFp _) => i_mode x = true | None => True end.
Lemma calm_step o s s' : wf s -> exec U o s = Ok s' -> (match o with Use i _ | Assign i _ => forall x, at_ s i x -> i_mode x = false | _ => True end) ->
  (forall i x, at_ s i x -> in_step x) -> forall i x, at_ s' i x -> in_step x.
Proof.
  intros W H C I i x Hx.
  assert (PUT : forall k v y t, at_ s k v -> s_ifs t = s_ifs s -> s' = put k y t -> in_step y -> in_step x).
  { intros k v y t Hv Et -> Iy. unfold at_ in Hx. cbn in Hx. rewrite Et in Hx. assert (L : (k < length (s_ifs s))%nat) by (eapply nth_len; exact Hv).
    destruct (Nat.eq_dec i k) as [->|N]; [rewrite upd_same in Hx by exact L; congruence|]. rewrite upd_other in Hx by assumption. exact (I _ _ Hx). }
  assert (SAME : s_ifs s' = s_ifs s -> in_step x) by (intros E; unfold at_ in Hx; rewrite E in Hx; exact (I _ _ Hx)).
  assert (ST : forall k v a c, store k v a = Ok c -> s_ifs c = s_ifs a) by (intros k v a c E; apply store_but in E; apply E).
  assert (IJ : forall j, initJac U j s = Ok s' -> in_step x).
  { intros j E. unfold initJac in E. inv_bind E. injection E as <-. eapply PUT; [exact A| |reflexivity|]; [reflexivity|]. exact (I _ _ A). }
  destruct o; cbn [exec] in H.
  - injection H as <-. unfold at_ in Hx. cbn in Hx. destruct (Nat.lt_ge_cases i (length (s_ifs s))).
    + rewrite nth_error_app1 in Hx by assumption. exact (I _ _ Hx).
    + rewrite nth_error_app2 in Hx by assumption. destruct (i - length (s_ifs s))%nat as [|n]; [injection Hx as <-; exact Logic.I|destruct n; discriminate Hx].
  - unfold setModel in H. inv_bind H. injection H as <-. eapply PUT; [exact A| |reflexivity|]; [reflexivity|]. unfold in_step. cbn. destruct (i_mode v); reflexivity.
  - unfold use in H. inv_bind H. destruct (i_fp v); [|discriminate H]. inv_bind H. injection H as <-. eapply PUT; [exact A| |reflexivity|]; [reflexivity|]. exact (C _ A).
  - unfold setColBounds in H. inv_bind H. destruct (i_prob v); [|discriminate H]. inv_bind H. injection H as <-. auto.
  - unfold switchToPump, switchTo in H. inv_bind H. destruct (i_fp v); [|discriminate H]. inv_bind H. injection H as <-. eapply PUT; [exact A| |reflexivity|]; reflexivity.
  - unfold switchToLocal, switchTo in H. inv_bind H. destruct (i_fp v); [|discriminate H]. inv_bind H. injection H as <-. eapply PUT; [exact A| |reflexivity|]; reflexivity.
  - unfold switchToOriginal in H. inv_bind H. injection H as <-. eapply PUT; [exact A| |reflexivity|]; [reflexivity|]. unfold in_step. cbn. destruct (i_prob v); reflexivity || exact Logic.I.
  - unfold solveFeasibility in H. inv_bind H. destruct (i_fp v); [|discriminate H]. inv_bind H. injection H as <-. apply ST in A3. eapply PUT; [exact A|exact A3|reflexivity|]. exact (I _ _ A).
  - unfold solve in H. inv_bind H. destruct (i_prob v); [|discriminate H]. destruct (i_opt v) eqn:Eo; [|discriminate H]. inv_bind H. apply ST in A2.
    assert (R : forall p, in_step (report p v)) by (intros p; exact (I _ _ A)).
    destruct (fst a); [|injection H as <-; eapply PUT; [exact A|exact A2|reflexivity|apply R]].
    destruct (others _ _ _) as [[r s2]| | | | | | |] eqn:E; try discriminate H. cbn [bind] in H. injection H as <-. apply others_but in E.
    eapply PUT; [exact A| |reflexivity|apply R]. destruct E as (_ & _ & _ & E & _). congruence.
  - unfold setLinearizer in H. inv_bind H. destruct (i_prob v) eqn:E; [|discriminate H]. injection H as <-. eapply PUT; [exact A| |reflexivity|]; [reflexivity|]. exact (I _ _ A).
  - unfold setStrong in H. inv_bind H. injection H as <-. eapply PUT; [exact A| |reflexivity|]; [reflexivity|]. exact (I _ _ A).
  - unfold markHotStart in H. inv_bind H. destruct (i_sbs v) as [c|] eqn:E; [|injection H as <-; auto]. inv_bind H. injection H as <-. auto.
  - unfold unmarkHotStart in H. inv_bind H. destruct (i_sbs v) as [c|] eqn:E; [|injection H as <-; auto]. inv_bind H. injection H as <-. auto.
  - unfold copy in H. inv_bind H. destruct (i_user v); [|discriminate H]. inv_bind H. injection H as <-.
    unfold at_ in Hx. cbn in Hx. destruct (Nat.lt_ge_cases i (length (s_ifs s))).
    + rewrite nth_error_app1 in Hx by assumption. exact (I _ _ Hx).
    + rewrite nth_error_app2 in Hx by assumption. destruct (i - length (s_ifs s))%nat as [|k]; [injection Hx as <-|destruct k; discriminate Hx].
      unfold in_step. cbn. destruct (i_mode v); reflexivity.
  - unfold assign in H. inv_bind H. destruct (Nat.eqb _ _); [injection H as <-; auto|]. destruct (i_user v0).
    + inv_bind H. injection H as <-. eapply PUT; [exact A| |reflexivity|]; [reflexivity|]. exact (C _ A).
    + injection H as <-. eapply PUT; [exact A| |reflexivity|]; [reflexivity|]. exact (I _ _ A).
  - unfold outerApproximation in H. inv_bind H. destruct v as [c s2]. injection H as ->. inv_bind A. destruct (i_lin v).
    + inv_bind A. injection A as _ <-. auto.
    + inv_bind A. destruct (i_pat v2); [|discriminate A]. destruct (i_types v2); [|discriminate A]. cbv zeta in A.
      repeat match type of A with (if ?b then _ else _) = _ => destruct b; [discriminate A|] end. injection A as _ ->.
      destruct (i_pat v); [injection A2 as ->; auto|]. exact (IJ _ A2).
  - unfold linearRelaxation in H. inv_bind H. destruct v as [c s2]. injection H as ->. inv_bind A. destruct (i_lin v).
    + inv_bind A. injection A as _ <-. auto.
    + inv_bind A. destruct (i_pat v3); [|discriminate A]. destruct (i_types v3); [|discriminate A]. destruct (Nat.eqb _ _); [|discriminate A]. injection A as _ ->.
      exact (IJ _ A3).
Qed.
Lemma calm_in_step l : forall s s', wf s -> (forall i x, at_ s i x -> in_step x) -> calm U l s -> execs U l s = Ok s' -> forall i x, at_ s' i x -> in_step x.
Proof.
  induction l as [|o l IH]; cbn; intros s s' W I C H; [injection H as <-; exact I|]. apply bind_ok in H. destruct H as (s1 & A & H). destruct C as [C1 C2].
  exact (IH s1 s' (exec_wf _ _ _ W A) (calm_step o s s1 W A C1 I) (C2 s1 A) H).
Qed.
End S.
