(** Properties of interfaces: changes of bounds, and the solver of strong branching. *)
From Verif Require Import Base Arr Nlp FP_Model Dup_Model Dup_Spec Dup_Proofs Dup_Proofs2 Dup_Proofs3 Dup_Proofs4 Dup_Props Dup_Spec2.
#[local] Open Scope Q_scope.

Section S.
Variable U : nat -> nlp.
Lemma sbs_from o s s' k z b : exec U o s = Ok s' -> at_ s' k z -> i_sbs z = Some b ->
  (exists k' y, at_ s k' y /\ i_sbs y = Some b /\ (k' = k \/ match o with Copy _ => True | Assign i _ => k = i | _ => False end)) \/
  (o = SetStrong k /\ b = length (s_sbs s) /\ length (s_sbs s') = S (length (s_sbs s))).
Proof.
  intros H Hz B.
  assert (Q1 : forall i y x, at_ s i y -> s_ifs s' = upd i x (s_ifs s) -> i_sbs x = i_sbs y -> exists k' y', at_ s k' y' /\ i_sbs y' = Some b /\ k' = k).
  { intros i y x A E Es. destruct (at_upd i x s s' k z E (nth_len _ _ _ A) Hz) as [[-> ->]|[_ C]]; [exists i, y|exists k, z]; repeat split; auto; congruence. }
  assert (Q2 : forall i y x, at_ s i y -> s_ifs s' = upd i x (s_ifs s) -> i_sbs x = i_sbs y -> (exists k' y', at_ s k' y' /\ i_sbs y' = Some b /\ (k' = k \/ match o with Copy _ => True | Assign i _ => k = i | _ => False end))).
  { intros i y x A E Es. destruct (Q1 i y x A E Es) as (k' & y' & C1 & C2 & C3). exists k', y'. auto. }
  assert (Q0 : s_ifs s' = s_ifs s -> (exists k' y', at_ s k' y' /\ i_sbs y' = Some b /\ (k' = k \/ match o with Copy _ => True | Assign i _ => k = i | _ => False end))).
  { intros E. exists k, z. unfold at_ in *. rewrite E in Hz. auto. }
  assert (QJ : forall i s1 s2, initJac U i s1 = Ok s2 -> exists y x, at_ s1 i y /\ s_ifs s2 = upd i x (s_ifs s1) /\ i_sbs x = i_sbs y).
  { intros i s1 s2 J. unfold initJac in J. inv_bind J. injection J as <-. exists v. eexists. split; [exact A|]. split; [reflexivity|]. reflexivity. }
  destruct o; cbn [exec] in H.
  - injection H as <-. pose proof (fun x E => at_app s _ x k z E Hz) as DD; destruct (DD _ eq_refl) as [[_ ->]|[_ C]]; [discriminate B|]. left. exists k, z. auto.
  - left. unfold setModel in H. inv_bind H. injection H as <-. eapply Q2; [exact A|reflexivity|reflexivity].
  - left. unfold use in H. inv_bind H. destruct (i_fp v); [|discriminate H]. inv_bind H. injection H as <-. eapply Q2; [exact A|reflexivity|reflexivity].
  - left. unfold setColBounds in H. inv_bind H. destruct (i_prob v); [|discriminate H]. inv_bind H. injection H as <-. apply Q0. reflexivity.
  - left. unfold switchToPump, switchTo in H. inv_bind H. destruct (i_fp v); [|discriminate H]. inv_bind H. injection H as <-. eapply Q2; [exact A|reflexivity|reflexivity].
  - left. unfold switchToLocal, switchTo in H. inv_bind H. destruct (i_fp v); [|discriminate H]. inv_bind H. injection H as <-. eapply Q2; [exact A|reflexivity|reflexivity].
  - left. unfold switchToOriginal in H. inv_bind H. injection H as <-. eapply Q2; [exact A|reflexivity|reflexivity].
  - left. unfold solveFeasibility in H. inv_bind H. destruct (i_fp v); [|discriminate H]. inv_bind H. injection H as <-.
    match goal with A : store _ _ _ = Ok _ |- _ => destruct (store_but _ _ _ _ A) as [C _]; destruct C as (_ & _ & _ & C & _) end.
    eapply (Q2 i v (report _ v) A); [cbn; rewrite C; reflexivity|reflexivity].
  - left. unfold solve in H. inv_bind H. destruct (i_prob v) as [p|]; [|discriminate H]. destruct (i_opt v); [|discriminate H]. inv_bind H.
    match goal with A : store _ _ _ = Ok _ |- _ => destruct (store_but _ _ _ _ A) as [C _]; destruct C as (_ & _ & _ & C & _) end.
    destruct (fst a).
    + inv_bind H. match type of H with (let '(_, _) := ?w in _) = _ => destruct w as [r s2] end. injection H as <-.
      match goal with A : others _ _ _ = Ok _ |- _ => destruct (others_but _ _ _ _ _ A) as (_ & _ & _ & D & _) end.
      eapply (Q2 i v (report _ v) A); [cbn; rewrite D, C; reflexivity|reflexivity].
    + injection H as <-. eapply (Q2 i v (report _ v) A); [cbn; rewrite C; reflexivity|reflexivity].
  - left. unfold setLinearizer in H. inv_bind H. destruct (i_prob v); [|discriminate H]. injection H as <-. eapply Q2; [exact A|reflexivity|reflexivity].
  - unfold setStrong in H. inv_bind H. injection H as <-.
    pose proof (fun x E => at_upd i x s _ k z E (nth_len _ _ _ A) Hz) as DD; destruct (DD _ eq_refl) as [[-> ->]|[_ C]].
    + right. cbn in B. injection B as <-. cbn. rewrite app_length. cbn. repeat split; lia.
    + left. exists k, z. auto.
  - left. unfold markHotStart in H. inv_bind H. destruct (i_sbs v); [inv_bind H|]; injection H as <-; apply Q0; reflexivity.
  - left. unfold unmarkHotStart in H. inv_bind H. destruct (i_sbs v); [inv_bind H|]; injection H as <-; apply Q0; reflexivity.
  - left. unfold copy in H. inv_bind H. destruct (i_user v); [|discriminate H]. inv_bind H. injection H as <-.
    pose proof (fun x E => at_app s _ x k z E Hz) as DD; destruct (DD _ eq_refl) as [[_ ->]|[_ C]]; [exists i, v|exists k, z]; auto.
  - left. unfold assign in H. inv_bind H. destruct (Nat.eqb i j); [injection H as <-; apply Q0; reflexivity|].
    destruct (i_user v0); [inv_bind H|]; injection H as <-.
    + pose proof (fun x E => at_upd i x s _ k z E (nth_len _ _ _ A) Hz) as DD; destruct (DD _ eq_refl) as [[-> ->]|[_ C]]; [exists j, v0|exists k, z]; auto.
    + pose proof (fun x E => at_upd i x s _ k z E (nth_len _ _ _ A) Hz) as DD; destruct (DD _ eq_refl) as [[-> ->]|[_ C]]; [exists j, v0|exists k, z]; auto.
  - left. unfold outerApproximation in H. inv_bind H. destruct v as [c s1]. injection H as <-. inv_bind A. destruct (i_lin v).
    + inv_bind A. injection A as _ <-. apply Q0; reflexivity.
    + inv_bind A. destruct (i_pat v2) as [J|]; [|discriminate A]. destruct (i_types v2); [|discriminate A].
      repeat match type of A with (if ?c then _ else _) = _ => destruct c; try discriminate A end. injection A as _ <-.
      destruct (i_pat v); [injection A2 as <-; apply Q0; reflexivity|]. destruct (QJ _ _ _ A2) as (y & x' & D1 & D2 & D3). eapply Q2; eassumption.
  - left. unfold linearRelaxation in H. inv_bind H. destruct v as [c s1]. injection H as <-. inv_bind A. destruct (i_lin v).
    + inv_bind A. injection A as _ <-. apply Q0; reflexivity.
    + inv_bind A. match type of A with match i_pat ?w with _ => _ end = _ => destruct (i_pat w) as [J|]; [|discriminate A]; destruct (i_types w); [|discriminate A] end.
      match type of A with (if ?c then _ else _) = _ => destruct c; try discriminate A end. injection A as _ <-.
      match goal with J : initJac _ _ _ = Ok _ |- _ => destruct (QJ _ _ _ J) as (y & x' & D1 & D2 & D3) end. eapply Q2; eassumption.
Qed.
Lemma sbs_len o s s' : exec U o s = Ok s' -> (length (s_sbs s) <= length (s_sbs s'))%nat.
Proof.
  intros H. assert (M : forall i, o = Mark i \/ o = Unmark i -> (length (s_sbs s) <= length (s_sbs s'))%nat).
  { intros i [-> | ->]; cbn in H; [unfold markHotStart in H|unfold unmarkHotStart in H]; inv_bind H; destruct (i_sbs v); try (injection H as <-; lia); inv_bind H; injection H as <-; cbn;
    rewrite upd_len; try lia; eapply nth_len; eassumption. }
  destruct (s_sbs s) as [|a l] eqn:E; [cbn; lia|]. rewrite <- E in *.
  assert (L : (0 < length (s_sbs s))%nat) by (rewrite E; cbn; lia).
  destruct o; try (apply (sbs_keep U _ s s' 0 H L); cbn; tauto); eapply M; eauto.
Qed.
(** Solvers that are used exist. *)
Definition solvers (s : st) : Prop := forall i x b, at_ s i x -> i_sbs x = Some b -> (b < length (s_sbs s))%nat.
Lemma solvers_execs l : forall s s', solvers s -> execs U l s = Ok s' -> solvers s'.
Proof.
  induction l as [|o l IH]; cbn; intros s s' V H; [injection H as <-; exact V|]. apply bind_ok in H. destruct H as (s1 & A & H). refine (IH s1 s' _ H).
  intros i x b Hx B. pose proof (sbs_len o s s1 A) as L. destruct (sbs_from o s s1 i x b A Hx B) as [(k & y & C1 & C2 & _)|(_ & C1 & C2)]; [|lia].
  pose proof (V k y b C1 C2). lia.
Qed.
Lemma solvers_reach s : reach U s -> solvers s.
Proof. intros (l & H). refine (solvers_execs l init s _ H). intros i x b A. unfold at_ in A. destruct i; discriminate A. Qed.

(** A history of calls on one interface whose solver came after the first [n]. *)
Lemma new_solver i n l : forall s s', (forall z b, at_ s i z -> i_sbs z = Some b -> (n <= b)%nat) -> (n <= length (s_sbs s))%nat -> Forall (takes_none i) l -> execs U l s = Ok s' ->
  forall b, (b < n)%nat -> nth_error (s_sbs s') b = nth_error (s_sbs s) b.
Proof.
  induction l as [|o l IH]; cbn; intros s s' V L F H b Lb; [congruence|]. apply bind_ok in H. destruct H as (s1 & A & H).
  apply Forall_cons_iff in F. destruct F as [[T1 T2] F]. pose proof (sbs_len o s s1 A) as Ls.
  assert (K : nth_error (s_sbs s1) b = nth_error (s_sbs s) b).
  { apply (sbs_keep U o s s1 b A); [lia|]. intros R. destruct o; try exact R; cbn in R, T1; injection T1 as ->; destruct R as (z & R1 & R2); pose proof (V z b R1 R2); lia. }
  rewrite <- K. refine (IH s1 s' _ _ F H b Lb); [|lia].
  intros z c Hz C. destruct (sbs_from o s s1 i z c A Hz C) as [(k & y & C1 & C2 & C3)|(_ & C1 & _)]; [|lia].
  assert (k = i) as -> by (destruct C3 as [C3|C3]; [exact C3|destruct o; try contradiction; discriminate T1]). exact (V y c C1 C2).
Qed.
End S.

(** ** C173 *)
Lemma lset_changed {A} j (a : A) l l' : lset j a l = Ok l' -> one_changed j a l l'.
Proof.
  unfold lset. destruct (Nat.ltb j (length l)) eqn:E; [|discriminate]. apply Nat.ltb_lt in E. intros H. injection H as <-.
  split; [exact (upd_len j a l E)|]. split; [exact (upd_same j a l E)|]. intros k N. exact (upd_other j k a l E N).
Qed.
Theorem C173 : forall U, C173_full U.
Proof.
  intros U s i j lo up x R Hx. assert (W : wf s) by (apply (reach_wf U); exact R). unfold bounds. pose proof (proj2 (rd_some i (s_ifs s) x) Hx) as Rx.
  destruct (i_prob x) as [k|] eqn:Ek; cbn [deref]; [|cbn; unfold setColBounds; rewrite Rx; cbn [bind]; rewrite Ek; reflexivity].
  pose proof (w_owns _ _ (w_if _ W _ _ Hx) k (or_introl Ek)) as Lk.
  destruct (nth_error (s_probs s) k) as [q|] eqn:Eq0; [|apply nth_error_None in Eq0; lia]. pose proof (proj2 (rd_some _ _ _) Eq0) as Rq. rewrite Rq. cbn [bind].
  assert (X : exec U (SetBounds i j lo up) s = do l <- lset j lo (q_lo q); do u <- lset j up (q_up q); Ok (wprobs (upd k (mkProb (q_user q) l u (q_sol q)) (s_probs s)) s)).
  { cbn. unfold setColBounds. rewrite Rx. cbn [bind]. rewrite Ek. cbn [deref]. rewrite Rq. reflexivity. }
  destruct (Nat.lt_ge_cases j (length (q_lo q))) as [Ll|Ll]; [destruct (Nat.lt_ge_cases j (length (q_up q))) as [Lu|Lu]|].
  - left. split; [exact Ll|]. split; [exact Lu|]. rewrite (lset_ok j lo _ Ll), (lset_ok j up _ Lu) in X. cbn [bind] in X. eexists. do 2 eexists. split; [exact X|]. split; [exact Hx|].
    split; [|split; [apply lset_changed; apply lset_ok; exact Ll|split; [apply lset_changed; apply lset_ok; exact Lu|]]].
    + unfold bounds. rewrite ?Ek. cbn [deref]. unfold rd. cbn [s_probs wprobs]. rewrite upd_same by exact Lk. reflexivity.
    + unfold point. rewrite ?Ek. cbn [deref]. unfold rd. cbn [s_probs wprobs]. rewrite upd_same by exact Lk. rewrite Eq0. reflexivity.
  - right. split; [right; exact Lu|]. rewrite X, (lset_ok j lo _ Ll). cbn [bind]. unfold lset. destruct (Nat.ltb_spec j (length (q_up q))); [lia|reflexivity].
  - right. split; [left; exact Ll|]. rewrite X. unfold lset. destruct (Nat.ltb_spec j (length (q_lo q))); [lia|reflexivity].
Qed.
Print Assumptions C173.
Example C173_ex : let s := run_ex [New; SetModel 0 0; ToLocal 0 [0%nat] [1] 3] in
  bounds s (if_ex 0 s) = Ok ([Fin 0; Fin 0], [Fin 1; Fin 4]) /\
  (do s' <- exec exU (SetBounds 0 1 (Fin 1) (Fin 2)) s; bounds s' (if_ex 0 s')) = Ok ([Fin 0; Fin 1], [Fin 1; Fin 2]) /\ exec exU (SetBounds 0 2 (Fin 1) (Fin 2)) s = OutOfBounds.
Proof. vm_compute. auto. Qed.

(** ** C174 *)
Theorem C174 : forall U, C174_full U.
Proof.
  intros U s i s1 l s2 j x R H F HL N Hx B. pose proof (solvers_reach U s R) as V. assert (W : wf s) by (apply (reach_wf U); exact R). pose proof (exec_wf U _ _ _ W H) as W1.
  destruct (others_see U _ s s1 j x W H Hx) as (Hx1 & _); [cbn; congruence|].
  destruct (execs_see U l s1 s2 j x W1 HL Hx1) as [Hx2 _].
  { intros o I E. rewrite Forall_forall in F. destruct (F o I) as [T _]. congruence. }
  split; [exact Hx2|]. unfold trial. destruct (i_sbs x) as [b|] eqn:Eb; [|congruence]. pose proof (V j x b Hx Eb) as Lb.
  assert (K : nth_error (s_sbs s2) b = nth_error (s_sbs s) b).
  { pose proof (sbs_len U _ _ _ H) as Ls. rewrite (new_solver U i (length (s_sbs s)) l s1 s2) with (4 := HL); [|intros z c Hz C|exact Ls|exact F|exact Lb].
    - apply (sbs_keep U _ s s1 b H Lb). intros [].
    - clear HL. unfold exec, setStrong in H. inv_bind H. injection H as <-. unfold at_ in Hz. cbn in Hz. rewrite upd_same in Hz by (eapply nth_len; exact A).
      injection Hz as <-. cbn in C. injection C as <-. lia. }
  unfold rd. rewrite K. reflexivity.
Qed.
Print Assumptions C174.
(** Strong branching by one interface, then by a copy that was given its own solver. *)
Example C174_ex : let s := run_ex [New; SetModel 0 0; SetStrong 0; Mark 0; Copy 0; SetStrong 1; SetBounds 1 0 (Fin 1) (Fin 1); Mark 1] in
  trial s (if_ex 0 s) = Ok (mkPose 0 [Fin 0; Fin 0] [Fin 1; Fin 4] None) /\ trial s (if_ex 1 s) = Ok (mkPose 0 [Fin 1; Fin 0] [Fin 1; Fin 4] None).
Proof. vm_compute. auto. Qed.

(** ** C145, for all reachable states *)
(** C145_partial without its hypothesis on the index of the solver. *)
Theorem C145_trial_partial : forall U s l s' j x, reach U s -> execs U l s = Ok s' -> at_ s j x -> (forall o, In o l -> target o <> Some j) ->
  (forall b, i_sbs x = Some b -> alone U b l s) -> trial s' x = trial s x.
Proof.
  intros U s l s' j x R H Hx N Al. destruct (C145_partial U s l s' j x R H Hx N) as (_ & _ & _ & A & B).
  destruct (i_sbs x) as [b|] eqn:E; [|apply B; reflexivity]. apply (A b eq_refl); [exact (solvers_reach U s R j x b Hx E)|]. apply Al. reflexivity.
Qed.
Print Assumptions C145_trial_partial.
