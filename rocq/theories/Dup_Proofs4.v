From Verif Require Import Base Arr Nlp FP_Model Dup_Model Dup_Spec Dup_Proofs Dup_Proofs2 Dup_Proofs3.
#[local] Open Scope Q_scope.

Section S.
Variable U : nat -> nlp.
(** * What an operation leaves as it is *)
Definition keep_user (s s' : st) : Prop := forall k q, nth_error (s_probs s) k = Some q -> exists q', nth_error (s_probs s') k = Some q' /\ q_user q' = q_user q.
Lemma ku_refl s s' : s_probs s' = s_probs s -> keep_user s s'.
Proof. intros E k q H. exists q. rewrite E. auto. Qed.
Lemma ku_app s s' v : s_probs s' = s_probs s ++ v -> keep_user s s'.
Proof. intros E k q H. exists q. rewrite E, nth_error_app1; [auto|]. eapply nth_len. exact H. Qed.
Lemma ku_upd s s' k q q' : nth_error (s_probs s) k = Some q -> s_probs s' = upd k q' (s_probs s) -> q_user q' = q_user q -> keep_user s s'.
Proof.
  intros H E Eu j r Hj. rewrite E. pose proof (nth_len _ _ _ H) as L. destruct (Nat.eq_dec j k) as [->|N].
  - exists q'. rewrite upd_same by exact L. split; [reflexivity|]. congruence.
  - exists r. rewrite upd_other by assumption. auto.
Qed.
Lemma ku_trans a b c : keep_user a b -> keep_user b c -> keep_user a c.
Proof. intros A B k q H. destruct (A k q H) as (q1 & H1 & E1). destruct (B k q1 H1) as (q2 & H2 & E2). exists q2. split; [exact H2|congruence]. Qed.
Lemma ku_store k v s s' : store k v s = Ok s' -> keep_user s s'.
Proof. unfold store. intros H. inv_bind H. injection H as <-. eapply ku_upd; [exact A|reflexivity|reflexivity]. Qed.
Lemma ku_others k l : forall s r s', others k l s = Ok (r, s') -> keep_user s s'.
Proof.
  induction l as [|[e sol] l IH]; intros s r s' H; cbn in H; [injection H as <- <-; apply ku_refl; reflexivity|].
  inv_bind H. apply ku_store in A0. destruct e; [|injection H as <- <-; exact A0].
  destruct (others k l v0) as [[[p|] s2]| | | | | | |] eqn:E; try discriminate H; injection H as <- <-; eapply ku_trans; eauto.
Qed.
Definition replaces (o : op) : bool := match o with SetModel _ _ | Use _ _ | Assign _ _ => true | _ => false end.
Definition linearizes (o : op) : bool := match o with Cuts _ | Relax _ => true | _ => false end.
Definition switches (o : op) : bool := match o with ToPump _ _ _ _ _ _ | ToLocal _ _ _ _ | ToOriginal _ => true | _ => false end.
Definition solvesF (o : op) : bool := match o with SolveF _ _ _ _ _ _ _ _ => true | _ => false end.
Lemma own_step o s s' i x : exec U o s = Ok s' -> at_ s i x -> target o = Some i -> replaces o = false ->
  keep_user s s' /\ exists x', at_ s' i x' /\ i_user x' = i_user x /\ i_prob x' = i_prob x /\ i_fp x' = i_fp x /\
  (linearizes o = false -> i_pat x' = i_pat x /\ i_types x' = i_types x /\ i_nonlin x' = i_nonlin x) /\
  (switches o = false -> i_opt x' = i_opt x /\ i_mode x' = i_mode x /\ (solvesF o = false -> s_fps s' = s_fps s)).
Proof.
  intros H Hx T R. pose proof (nth_len _ _ _ Hx) as Li.
  assert (AT : forall y t, s_ifs t = s_ifs s -> at_ (put i y t) i y) by (intros y t E; unfold at_; cbn; rewrite E; apply upd_same; exact Li).
  assert (ST : forall k v a c, store k v a = Ok c -> s_ifs c = s_ifs a /\ s_fps c = s_fps a) by (intros k v a c E; apply store_but in E; destruct E as [(E1 & E2 & E3 & E4 & _) _]; auto).
  assert (IJ : forall c, initJac U i s = Ok c -> s_probs c = s_probs s /\ s_fps c = s_fps s /\ exists y, at_ c i y /\ i_user y = i_user x /\ i_prob y = i_prob x /\ i_fp y = i_fp x /\ i_opt y = i_opt x /\ i_mode y = i_mode x).
  { intros c E. unfold initJac in E. rewrite (rd_ok _ _ _ Hx) in E. cbn [bind] in E. inv_bind E. injection E as <-. split; [reflexivity|]. split; [reflexivity|]. eexists. split; [apply AT; reflexivity|]. cbn. auto. }
  destruct o; cbn in T; try discriminate T; try discriminate R; injection T as ->; cbn [exec linearizes switches solvesF] in *.
  - unfold setColBounds in H. rewrite (rd_ok _ _ _ Hx) in H. cbn [bind] in H. inv_bind H. destruct (i_prob x) as [k|] eqn:E; [|discriminate H]. inv_bind H. injection H as <-.
    unfold deref in A. apply rd_some in A.
    split; [eapply ku_upd; [exact A|reflexivity|reflexivity]|]. exists x. split; [exact Hx|]. rewrite E. auto 10.
  - unfold switchToPump, switchTo in H. rewrite (rd_ok _ _ _ Hx) in H. cbn [bind] in H. destruct (i_fp x) as [f|] eqn:E; [|discriminate H]. inv_bind H. injection H as <-.
    split; [apply ku_refl; reflexivity|]. eexists. split; [apply AT; reflexivity|]. cbn. repeat split; auto; discriminate.
  - unfold switchToLocal, switchTo in H. rewrite (rd_ok _ _ _ Hx) in H. cbn [bind] in H. destruct (i_fp x) as [f|] eqn:E; [|discriminate H]. inv_bind H. injection H as <-.
    split; [apply ku_refl; reflexivity|]. eexists. split; [apply AT; reflexivity|]. cbn. repeat split; auto; discriminate.
  - unfold switchToOriginal in H. rewrite (rd_ok _ _ _ Hx) in H. cbn [bind] in H. injection H as <-.
    split; [apply ku_refl; reflexivity|]. eexists. split; [apply AT; reflexivity|]. cbn. repeat split; auto; discriminate.
  - unfold solveFeasibility in H. rewrite (rd_ok _ _ _ Hx) in H. cbn [bind] in H. destruct (i_fp x) as [f|] eqn:E; [|discriminate H]. inv_bind H. injection H as <-.
    pose proof (ku_store _ _ _ _ A2) as K. apply ST in A2. destruct A2 as [S1 S2].
    split; [exact K|]. eexists. split; [apply AT; exact S1|]. cbn. repeat split; auto; discriminate.
  - unfold solve in H. rewrite (rd_ok _ _ _ Hx) in H. cbn [bind] in H. destruct (i_prob x) as [k|] eqn:E; [|discriminate H]. destruct (i_opt x) as [t|] eqn:Et; [|discriminate H].
    inv_bind H. pose proof (ku_store _ _ _ _ A1) as K. apply ST in A1. destruct A1 as [S1 S2]. destruct (fst a).
    + destruct (others _ _ _) as [[r s2]| | | | | | |] eqn:Eo; try discriminate H. cbn [bind] in H. injection H as <-. pose proof (ku_others _ _ _ _ _ Eo) as K2.
      apply others_but in Eo. destruct Eo as (O1 & O2 & O3 & O4 & _).
      split; [eapply ku_trans; eassumption|]. eexists. split; [apply AT; congruence|]. cbn. repeat split; auto. intros _. congruence.
    + injection H as <-. split; [exact K|]. eexists. split; [apply AT; exact S1|]. cbn. repeat split; auto.
  - unfold setLinearizer in H. rewrite (rd_ok _ _ _ Hx) in H. cbn [bind] in H. destruct (i_prob x) as [k|] eqn:E; [|discriminate H]. injection H as <-.
    split; [apply ku_refl; reflexivity|]. eexists. split; [apply AT; reflexivity|]. cbn. repeat split; auto.
  - unfold setStrong in H. rewrite (rd_ok _ _ _ Hx) in H. cbn [bind] in H. injection H as <-.
    split; [apply ku_refl; reflexivity|]. eexists. split; [apply AT; reflexivity|]. cbn. repeat split; auto.
  - unfold markHotStart in H. rewrite (rd_ok _ _ _ Hx) in H. cbn [bind] in H. destruct (i_sbs x); [|injection H as <-; split; [apply ku_refl; reflexivity|exists x; auto 10]].
    inv_bind H. injection H as <-. split; [apply ku_refl; reflexivity|exists x; auto 10].
  - unfold unmarkHotStart in H. rewrite (rd_ok _ _ _ Hx) in H. cbn [bind] in H. destruct (i_sbs x); [|injection H as <-; split; [apply ku_refl; reflexivity|exists x; auto 10]].
    inv_bind H. injection H as <-. split; [apply ku_refl; reflexivity|exists x; auto 10].
  - unfold outerApproximation in H. inv_bind H. destruct v as [c s2]. injection H as ->. rewrite (rd_ok _ _ _ Hx) in A. cbn [bind] in A. destruct (i_lin x).
    + inv_bind A. injection A as _ <-. split; [apply ku_refl; reflexivity|exists x; auto 10].
    + inv_bind A. destruct (i_pat v1); [|discriminate A]. destruct (i_types v1); [|discriminate A]. cbv zeta in A.
      repeat match type of A with (if ?b then _ else _) = _ => destruct b; [discriminate A|] end. injection A as _ ->.
      destruct (i_pat x) eqn:Ep.
      * injection A1 as ->. split; [apply ku_refl; reflexivity|]. exists x. split; [exact Hx|]. repeat split; auto; discriminate.
      * apply IJ in A1. destruct A1 as (B1 & B2 & y & B3 & B4 & B5 & B6 & B7 & B8). split; [apply ku_refl; exact B1|]. exists y. repeat split; auto; discriminate.
  - unfold linearRelaxation in H. inv_bind H. destruct v as [c s2]. injection H as ->. rewrite (rd_ok _ _ _ Hx) in A. cbn [bind] in A. destruct (i_lin x).
    + inv_bind A. injection A as _ <-. split; [apply ku_refl; reflexivity|exists x; auto 10].
    + inv_bind A. destruct (i_pat v2); [|discriminate A]. destruct (i_types v2); [|discriminate A]. destruct (Nat.eqb _ _); [|discriminate A]. injection A as _ ->.
      apply IJ in A2. destruct A2 as (B1 & B2 & y & B3 & B4 & B5 & B6 & B7 & B8). split; [apply ku_refl; exact B1|]. exists y. repeat split; auto; discriminate.
Qed.

(** * The Jacobian arrays along a history *)
Definition jinv (s : st) (x : ifc) : Prop := i_pat x = None \/ exists k q, i_prob x = Some k /\ nth_error (s_probs s) k = Some q /\ jac_ok U (q_user q) x.
Lemma jinv_lin o s s' i x x' : users_ok U -> wf s -> at_ s i x -> (o = Cuts i \/ o = Relax i) -> exec U o s = Ok s' -> jinv s x -> at_ s' i x' -> jinv s' x'.
Proof.
  intros HU W Hx O H J Hx'.
  assert (SAME : s' = s -> jinv s' x') by (intros ->; assert (x' = x) as -> by (unfold at_ in *; congruence); exact J).
  assert (NEW : forall p u, i_user x = Some u -> posed s x = Ok p -> extra p = false -> initJac U i s = Ok s' -> jinv s' x').
  { intros p u Eu P X Z. destruct (initJac_extra U s i x p u HU W Hx Eu P) as (I1 & _). rewrite (I1 X) in Z. injection Z as <-.
    unfold at_ in Hx'. cbn in Hx'. rewrite upd_same in Hx' by (eapply nth_len; exact Hx). injection Hx' as <-.
    destruct (trio s i x u W Hx Eu) as (k & f & pp & q & E1 & E2 & E3 & E4 & E5 & E6 & E7). right. exists k, q. split; [exact E1|]. split; [exact E4|].
    rewrite E6 in P. injection P as <-. cbn [o_user]. right. cbn. repeat split; auto. lia. }
  assert (US : forall c, initJac U i s = Ok c -> exists u, i_user x = Some u).
  { intros c Z. rewrite (initJac_ok U i s x Hx) in Z. inv_bind Z. unfold deref in A0. destruct (i_prob x) as [k|] eqn:E; [|discriminate A0]. eapply prob_user; eassumption. }
  destruct O as [-> | ->]; cbn [exec] in H; apply bind_ok in H; destruct H as ([c s2] & A & H); injection H as ->; pose proof A as A0.
  - unfold outerApproximation in A. rewrite (rd_ok _ _ _ Hx) in A. cbn [bind] in A. destruct (i_lin x) eqn:El.
    + inv_bind A. injection A as _ <-. auto.
    + apply bind_ok in A. destruct A as (p & P & A). destruct (i_pat x) as [Jx|] eqn:Ep.
      * cbn [bind] in A. rewrite (rd_ok _ _ _ Hx) in A. cbn [bind] in A. rewrite Ep in A. destruct (i_types x); [|discriminate A]. cbv zeta in A.
        repeat match type of A with (if ?b then _ else _) = _ => destruct b; [discriminate A|] end. injection A as _ ->. auto.
      * apply bind_ok in A. destruct A as (s1 & Z & A). destruct (US _ Z) as (u & Eu).
        assert (s1 = s') as ->.
        { inv_bind A. destruct (i_pat v); [|discriminate A]. destruct (i_types v); [|discriminate A]. cbv zeta in A.
          repeat match type of A with (if ?b then _ else _) = _ => destruct b; [discriminate A|] end. congruence. }
        destruct (cuts_ok U s i x p u HU W Hx Eu El P (or_introl Ep)) as [_ K]. destruct (extra p) eqn:X; [rewrite (K eq_refl) in A0; discriminate A0|].
        eapply NEW; eassumption.
  - unfold linearRelaxation in A. rewrite (rd_ok _ _ _ Hx) in A. cbn [bind] in A. destruct (i_lin x) eqn:El.
    + inv_bind A. injection A as _ <-. auto.
    + apply bind_ok in A. destruct A as (p & P & A). apply bind_ok in A. destruct A as (q & D & A). apply bind_ok in A. destruct A as (s1 & Z & A). destruct (US _ Z) as (u & Eu).
      assert (s1 = s') as ->.
      { inv_bind A. destruct (i_pat v); [|discriminate A]. destruct (i_types v); [|discriminate A]. destruct (Nat.eqb _ _); [|discriminate A]. congruence. }
      destruct (relax_ok U s i x p u HU W Hx Eu El P) as [_ K]. destruct (extra p) eqn:X; [rewrite (K eq_refl) in A0; destruct (Nat.ltb _ _); discriminate A0|].
      eapply NEW; eassumption.
Qed.
Lemma jinv_step o s s' : users_ok U -> wf s -> exec U o s = Ok s' ->
  (match o with SetModel i _ | Use i _ => forall x, at_ s i x -> i_pat x = None | Assign i j => forall x y, at_ s i x -> at_ s j y -> i = j \/ (i_pat x = None /\ i_pat y = None) | _ => True end) ->
  (forall i x, at_ s i x -> jinv s x) -> forall i x, at_ s' i x -> jinv s' x.
Proof.
  intros HU W H C I i x' Hx'. pose proof (exec_act U _ _ _ W H) as X.
  assert (OTH : forall x, at_ s i x -> target o <> Some i -> jinv s' x').
  { intros x Hx N. destruct (others_see U o s s' i x W H Hx N) as (A1 & _ & A3 & _). assert (x' = x) as -> by (unfold at_ in *; congruence).
    destruct (I i x Hx) as [B|(k & q & B1 & B2 & B3)]; [left; exact B|]. right. exists k, q. rewrite (A3 k B1). auto. }
  destruct (target o) as [j|] eqn:Et.
  - assert (EX : exists x, at_ s j x) by (destruct X as (x & _ & Hx & _); eauto). destruct EX as (x & Hx).
    destruct (Nat.eq_dec i j) as [->|Nij].
    + destruct (replaces o) eqn:Er.
      * destruct o; try discriminate Er; cbn in Et; injection Et as ->; cbn [exec] in H.
        -- left. unfold setModel in H. rewrite (rd_ok _ _ _ Hx) in H. cbn [bind] in H. injection H as <-. unfold at_ in Hx'. cbn in Hx'.
           rewrite upd_same in Hx' by (eapply nth_len; exact Hx). injection Hx' as <-. exact (C _ Hx).
        -- left. unfold use in H. rewrite (rd_ok _ _ _ Hx) in H. cbn [bind] in H. destruct (i_fp x); [|discriminate H]. inv_bind H. injection H as <-. unfold at_ in Hx'. cbn in Hx'.
           rewrite upd_same in Hx' by (eapply nth_len; exact Hx). injection Hx' as <-. exact (C _ Hx).
        -- unfold assign in H. rewrite (rd_ok _ _ _ Hx) in H. cbn [bind] in H. inv_bind H. destruct (Nat.eqb_spec j j0) as [->|N].
           ++ injection H as <-. exact (I _ _ Hx').
           ++ left. destruct (C x v Hx A) as [E|[E1 E2]]; [contradiction|]. destruct (i_user v).
              ** inv_bind H. injection H as <-. unfold at_ in Hx'. cbn in Hx'. rewrite upd_same in Hx' by (eapply nth_len; exact Hx). injection Hx' as <-. cbn.
                 rewrite E2 in A1. destruct (Nat.ltb _ _); [discriminate A1|]. congruence.
              ** injection H as <-. unfold at_ in Hx'. cbn in Hx'. rewrite upd_same in Hx' by (eapply nth_len; exact Hx). injection Hx' as <-. exact E1.
      * destruct (linearizes o) eqn:El.
        -- apply (jinv_lin o s s' j x x' HU W Hx); auto; [|exact (I _ _ Hx)]. destruct o; try discriminate El; cbn in Et; injection Et as ->; auto.
        -- destruct (own_step o s s' j x H Hx Et Er) as (K & y & A1 & A2 & A3 & A4 & A5 & _). assert (x' = y) as -> by (unfold at_ in *; congruence).
           destruct (A5 El) as (P1 & P2 & P3). destruct (I _ _ Hx) as [B|(k & q & B1 & B2 & B3)]; [left; congruence|]. right.
           destruct (K k q B2) as (q' & K1 & K2). exists k, q'. split; [congruence|]. split; [exact K1|]. rewrite K2. unfold jac_ok in *. rewrite P1, P2, P3. exact B3.
    + destruct (at_upd j (match nth_error (s_ifs s') j with Some z => z | None => x end) s s' i x') as [[D _]|[_ D]]; auto; [|eapply nth_len; exact Hx|contradiction|].
      * destruct X as (z & z' & Hz & E & _). rewrite E. rewrite upd_same by (eapply nth_len; exact Hx). reflexivity.
      * apply (OTH x'); [exact D|congruence].
  - destruct X as (y & E & _ & _ & _ & W'). destruct (at_app _ _ _ _ _ E Hx') as [[-> ->]|[L D]]; [|apply (OTH x'); [exact D|discriminate]].
    left. destruct o; try discriminate Et; cbn [exec] in H.
    + injection H as <-. cbn in E. apply app_inj_tail in E. destruct E as [_ <-]. reflexivity.
    + unfold copy in H. inv_bind H. destruct (i_user v); [|discriminate H]. inv_bind H. injection H as <-. cbn in E. apply app_inj_tail in E. destruct E as [_ <-]. reflexivity.
Qed.
Lemma jinv_execs l : forall s s', users_ok U -> wf s -> (forall i x, at_ s i x -> jinv s x) -> steady U l s -> execs U l s = Ok s' -> forall i x, at_ s' i x -> jinv s' x.
Proof.
  induction l as [|o l IH]; cbn; intros s s' HU W I C H; [injection H as <-; exact I|]. apply bind_ok in H. destruct H as (s1 & A & H). destruct C as [C1 C2].
  exact (IH s1 s' HU (exec_wf U _ _ _ W A) (jinv_step o s s1 HU W A C1 I) (C2 s1 A) H).
Qed.

(** * Solving *)
Lemma others_ok l : forall k s r s' q, others k l s = Ok (r, s') -> nth_error (s_probs s) k = Some q ->
  (match l with [] => r = None | _ => r = Some (mkPose (q_user q) (q_lo q) (q_up q) None) end) /\
  forall a : answer, q_sol q = snd a -> nth_error (s_probs s') k = Some (mkProb (q_user q) (q_lo q) (q_up q) (match l with [] => snd a | b :: l' => used b l' end)).
Proof.
  induction l as [|[e sol] l IH]; intros k s r s' q H Hq; cbn in H.
  - injection H as <- <-. split; [reflexivity|]. intros a <-. rewrite Hq. destruct q; reflexivity.
  - rewrite (rd_ok _ _ _ Hq) in H. cbn [bind] in H. apply bind_ok in H. destruct H as (s1 & A & H). apply store_but in A. destruct A as (_ & q1 & B1 & B2).
    rewrite Hq in B1. injection B1 as <-. destruct e.
    + destruct (others k l s1) as [[r2 s2]| | | | | | |] eqn:E; try (destruct r2; discriminate H); try discriminate H.
      destruct (IH k s1 r2 s2 _ E B2) as [I1 I2]. cbn [q_user q_lo q_up q_sol] in *. destruct l as [|b l].
      * subst r2. injection H as <- <-. split; [reflexivity|]. intros a _. exact (I2 (true, sol) eq_refl).
      * subst r2. injection H as <- <-. split; [reflexivity|]. intros a _. exact (I2 (true, sol) eq_refl).
    + injection H as <- <-. split; [reflexivity|]. intros a _. rewrite B2. destruct l; reflexivity.
Qed.
Lemma solve_rep s i x a l s' : wf s -> at_ s i x -> exec U (Solve i a l) s = Ok s' ->
  exists y p, at_ s' i y /\ posed s x = Ok p /\ point U s' y = Ok (used a l) /\ posed s' y = Ok p /\
  i_rep y = Some (if (fst a && negb (match l with [] => true | _ => false end))%bool then mkPose (o_user p) (o_lo p) (o_up p) None else p).
Proof.
  intros W Hx H. cbn [exec] in H. unfold solve in H. rewrite (rd_ok _ _ _ Hx) in H. cbn [bind] in H. destruct (i_prob x) as [k|] eqn:Ek; [|discriminate H].
  destruct (prob_user s i x k W Hx Ek) as (u & Eu). destruct (trio s i x u W Hx Eu) as (k' & f & pp & q & E1 & E2 & E3 & E4 & E5 & E6 & E7).
  assert (k' = k) as -> by congruence. destruct (i_opt x) as [t|] eqn:Et; [|discriminate H].
  rewrite E6 in H. cbn [bind] in H. apply bind_ok in H. destruct H as (d & D & H).
  assert (d = k) as ->.
  { unfold sink in D. destruct E5 as [E5|E5]; injection E5 as ->; [congruence|]. rewrite (rd_ok _ _ _ E3) in D. cbn in D. congruence. }
  apply bind_ok in H. destruct H as (s1 & A & H). apply store_but in A. destruct A as ((B1 & B2 & B3 & B4 & B5 & B6) & q1 & C1 & C2). rewrite E4 in C1. injection C1 as <-.
  assert (PO : forall s2 y q2, s_fps s2 = s_fps s -> nth_error (s_probs s2) k = Some q2 -> q_user q2 = q_user q -> q_lo q2 = q_lo q -> q_up q2 = q_up q -> i_opt y = Some t ->
    posed s2 y = Ok (mkPose (q_user q) (q_lo q) (q_up q) (match t with TFp _ => Some pp | TProb _ => None end))).
  { intros s2 y q2 Ef Eq F1 F2 F3 Eo. unfold posed. rewrite Eo. destruct E5 as [E5|E5]; injection E5 as ->.
    - rewrite (rd_ok _ _ _ Eq). cbn. congruence.
    - rewrite Ef, (rd_ok _ _ _ E3). cbn [bind fst]. rewrite (rd_ok _ _ _ Eq). cbn. congruence. }
  destruct (fst a) eqn:Ea.
  - destruct (others k l s1) as [[r s2]| | | | | | |] eqn:Eo; try discriminate H. cbn [bind] in H. injection H as <-.
    destruct (others_ok l k s1 r s2 _ Eo C2) as [R1 R2]. cbn [q_user q_lo q_up q_sol] in *. specialize (R2 a eq_refl). apply others_but in Eo. destruct Eo as (O1 & O2 & O3 & O4 & _).
    eexists. exists (mkPose (q_user q) (q_lo q) (q_up q) (match t with TFp _ => Some pp | TProb _ => None end)).
    split. { unfold at_. cbn. rewrite O4, B4. apply upd_same. eapply nth_len. exact Hx. }
    split; [rewrite E6; destruct t; reflexivity|]. split; [|split].
    + unfold point, deref. cbn [report i_prob i_done put wifs s_probs]. rewrite Ek. rewrite (rd_ok _ _ _ R2). cbn. destruct l as [|b l]; cbn; [reflexivity|]. rewrite Ea. reflexivity.
    + eapply (PO (put i _ s2)); [cbn; congruence|cbn; exact R2|reflexivity|reflexivity|reflexivity|exact Et].
    + cbn [report i_rep o_user o_lo o_up]. destruct l as [|b l]; subst r; cbn; [destruct t; reflexivity|reflexivity].
  - injection H as <-. eexists. exists (mkPose (q_user q) (q_lo q) (q_up q) (match t with TFp _ => Some pp | TProb _ => None end)).
    split. { unfold at_. cbn. rewrite B4. apply upd_same. eapply nth_len. exact Hx. }
    split; [rewrite E6; destruct t; reflexivity|]. split; [|split].
    + unfold point, deref. cbn [report i_prob i_done put wifs s_probs]. rewrite Ek. rewrite (rd_ok _ _ _ C2). cbn. destruct l as [|b l]; cbn; [reflexivity|]. rewrite Ea. reflexivity.
    + eapply (PO (put i _ s1)); [cbn; congruence|cbn; exact C2|reflexivity|reflexivity|reflexivity|exact Et].
    + cbn [report i_rep]. destruct t; reflexivity.
Qed.

(** * The feasibility problem *)
Definition stays (i : nat) (u : nat) (f : fp) (s : st) : Prop := exists x k h q,
  at_ s i x /\ i_prob x = Some k /\ i_fp x = Some h /\ i_opt x = Some (TFp h) /\ nth_error (s_fps s) h = Some (k, f) /\ nth_error (s_probs s) k = Some q /\ q_user q = u.
Lemma stays_step i u f o s s' : wf s -> stays i u f s -> leaves i o = false -> (forall a1 a2 a3 a4 a5 a6 a7, o <> SolveF i a1 a2 a3 a4 a5 a6 a7) -> exec U o s = Ok s' -> stays i u f s'.
Proof.
  intros W (x & k & h & q & Hx & E1 & E2 & E3 & E4 & E5 & E6) L NF H.
  destruct (match target o with Some j => Nat.eqb j i | None => false end) eqn:T.
  - destruct (target o) as [j|] eqn:Et; [|discriminate T]. apply Nat.eqb_eq in T. subst j.
    assert (R : replaces o = false) by (destruct o; try reflexivity; cbn in Et, L; injection Et as ->; rewrite Nat.eqb_refl in L; discriminate L).
    assert (SW : switches o = false) by (destruct o; try reflexivity; cbn in Et, L; injection Et as ->; rewrite Nat.eqb_refl in L; discriminate L).
    assert (SF : solvesF o = false) by (destruct o; try reflexivity; cbn in Et; injection Et as ->; exfalso; eapply NF; reflexivity).
    destruct (own_step o s s' i x H Hx Et R) as (K & y & A1 & A2 & A3 & A4 & _ & A6). destruct (A6 SW) as (B1 & B2 & B3). specialize (B3 SF).
    destruct (K k q E5) as (q' & K1 & K2). exists y, k, h, q'. rewrite B3. repeat split; congruence.
  - assert (N : target o <> Some i) by (intros Z; rewrite Z, Nat.eqb_refl in T; discriminate T).
    destruct (others_see U o s s' i x W H Hx N) as (A1 & _ & A3 & A4). exists x, k, h, q. rewrite (A3 k E1), (A4 h (or_introl E2)). auto 10.
Qed.
Lemma stays_execs i u f l : forall s s', wf s -> stays i u f s -> existsb (leaves i) l = false -> (forall a1 a2 a3 a4 a5 a6 a7, ~ In (SolveF i a1 a2 a3 a4 a5 a6 a7) l) -> execs U l s = Ok s' -> stays i u f s'.
Proof.
  induction l as [|o l IH]; cbn; intros s s' W ST L NF H; [congruence|]. apply bind_ok in H. destruct H as (s1 & A & H). apply orb_false_iff in L. destruct L as [L1 L2].
  apply (IH s1 s'); auto.
  - exact (exec_wf U _ _ _ W A).
  - eapply stays_step; try eassumption. intros a1 a2 a3 a4 a5 a6 a7 ->. eapply NF. left. reflexivity.
  - intros a1 a2 a3 a4 a5 a6 a7 I. eapply NF. right. exact I.
Qed.
Lemma stays_see i u f s y : stays i u f s -> at_ s i y -> exists lo up, bounds s y = Ok (lo, up) /\ posed s y = Ok (mkPose u lo up (Some f)) /\
  exists s' z, exec U (ToOriginal i) s = Ok s' /\ at_ s' i z /\ bounds s' z = Ok (lo, up) /\ posed s' z = Ok (mkPose u lo up None).
Proof.
  intros (x & k & h & q & Hx & E1 & E2 & E3 & E4 & E5 & E6) Hy. assert (y = x) as -> by (unfold at_ in *; congruence). exists (q_lo q), (q_up q).
  split; [unfold bounds, deref; rewrite E1, (rd_ok _ _ _ E5); reflexivity|]. split; [unfold posed; rewrite E3, (rd_ok _ _ _ E4); cbn [bind fst]; rewrite (rd_ok _ _ _ E5); cbn; congruence|].
  cbn [exec]. unfold switchToOriginal. rewrite (rd_ok _ _ _ Hx). cbn [bind]. rewrite E1. eexists. eexists. split; [reflexivity|].
  split; [unfold at_; cbn; apply upd_same; eapply nth_len; exact Hx|]. unfold bounds, posed, deref. cbn [set_opt i_opt i_prob put wifs s_probs]. rewrite E1, (rd_ok _ _ _ E5). cbn. split; congruence.
Qed.
Lemma switch_stays i o s s1 : wf s -> (exists inds vals a sg L, o = ToPump i inds vals a sg L) \/ (exists inds vals rhs, o = ToLocal i inds vals rhs) ->
  exec U o s = Ok s1 -> exists u f, stays i u f s1 /\ (forall x, at_ s i x -> exists lo up, bounds s x = Ok (lo, up) /\ forall p, posed s x = Ok p -> o_user p = u) /\
  match o with ToPump _ inds vals a sg L => f_inds f = inds /\ f_vals f = vals /\ f_lam f = a /\ f_sig f = sg /\ f_norm f = L /\ f_use f = true /\ f_cut f = false /\ f_lb f = false
             | ToLocal _ inds vals rhs => f_inds f = inds /\ f_vals f = vals /\ f_use f = false /\ f_cut f = false /\ f_lb f = true /\ f_rhs f = Fin rhs
             | _ => True end.
Proof.
  intros W O H.
  assert (G : forall g, switchTo i g s = Ok s1 -> exists u f f0, stays i u f s1 /\ (forall x, at_ s i x -> exists lo up, bounds s x = Ok (lo, up) /\ forall p, posed s x = Ok p -> o_user p = u) /\ g f0 = Ok f).
  { intros g Z. unfold switchTo in Z. inv_bind Z. destruct (i_fp v) as [h|] eqn:E; [|discriminate Z]. inv_bind Z. injection Z as <-.
    pose proof (w_trio _ _ (w_if _ W _ _ A)) as V. rewrite E in V. destruct (i_user v) as [u|] eqn:Eu; [|destruct (i_prob v); contradiction].
    destruct (trio s i v u W A Eu) as (k & f' & pp & q & E1 & E2 & E3 & E4 & E5 & E6 & E7). assert (f' = h) as -> by congruence.
    rewrite E3 in A0. injection A0 as <-. exists (q_user q), v1, pp. split; [|split; [|exact A1]].
    - exists (set_opt (Some (TFp h)) true v), k, h, q. split; [unfold at_; cbn; apply upd_same; eapply nth_len; exact A|]. cbn. repeat split; auto. apply upd_same. eapply nth_len. exact E3.
    - intros x Hx. assert (x = v) as -> by (unfold at_ in *; congruence). eexists. eexists. split; [exact E7|]. intros p P. rewrite E6 in P. injection P as <-. reflexivity. }
  destruct O as [(inds & vals & a & sg & L & ->)|(inds & vals & rhs & ->)]; cbn [exec] in H.
  - destruct (G _ H) as (u & f & f0 & G1 & G2 & G3). exists u, f. split; [exact G1|]. split; [exact G2|]. unfold fp_pump in G3. destruct (_ && _)%bool in G3; [|discriminate G3]. injection G3 as <-. cbn. auto 10.
  - destruct (G _ H) as (u & f & f0 & G1 & G2 & G3). exists u, f. split; [exact G1|]. split; [exact G2|]. unfold fp_local in G3. destruct (Qle_bool _ _) in G3; [|discriminate G3]. injection G3 as <-. cbn. auto 10.
Qed.
(** * Strong branching *)
Lemma mark_ok s i x p b s1 : wf s -> at_ s i x -> posed s x = Ok p -> i_sbs x = Some b -> exec U (Mark i) s = Ok s1 ->
  at_ s1 i x /\ nth_error (s_sbs s1) b = Some (Some (mkPose (o_user p) (o_lo p) (o_up p) None)).
Proof.
  intros W Hx P B H. cbn [exec] in H. unfold markHotStart in H. rewrite (rd_ok _ _ _ Hx) in H. cbn [bind] in H. rewrite B in H. inv_bind H. injection H as <-.
  split; [exact Hx|]. cbn. rewrite upd_same by (eapply nth_len; exact A0).
  unfold deref in A. destruct (i_prob x) as [k|] eqn:Ek; [|discriminate A]. destruct (prob_user s i x k W Hx Ek) as (u & Eu).
  destruct (trio s i x u W Hx Eu) as (k' & f & pp & q & E1 & E2 & E3 & E4 & E5 & E6 & E7). assert (k' = k) as -> by congruence. rewrite (rd_ok _ _ _ E4) in A. injection A as <-.
  rewrite E6 in P. injection P as <-. reflexivity.
Qed.
End S.
