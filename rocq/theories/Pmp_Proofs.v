(** Proofs for the feasibility pump for MINLPs: the loop. *)
From Verif Require Import Base Arr Nlp Oad_Model Pmp_Model Pmp_Spec.
#[local] Open Scope Q_scope.

Ltac inv H := inversion H; clear H; subst.
(** Take a successful bind apart. *)
Ltac bnd H v E := match type of H with bind ?a _ = Ok _ => destruct a as [v| | | | | | | ] eqn:E; cbn [bind] in H; try discriminate H end.

(** ** Outcomes that do not occur *)
Lemma rd_na : forall A i (l : list A), rd i l <> AssertFail /\ rd i l <> Diverges.
Proof. intros. unfold rd. destruct (nth_error l i); split; discriminate. Qed.
Lemma lset_na : forall A i (v : A) l, lset i v l <> AssertFail /\ lset i v l <> Diverges.
Proof. intros. unfold lset. destruct (Nat.ltb i (length l)); split; discriminate. Qed.
Lemma setLower_na : forall i v s, setLower i v s <> AssertFail /\ setLower i v s <> Diverges.
Proof. intros. unfold setLower. pose proof (lset_na _ i v (k_lo s)). destruct (lset i v (k_lo s)); cbn; firstorder congruence. Qed.
Lemma setUpper_na : forall i v s, setUpper i v s <> AssertFail /\ setUpper i v s <> Diverges.
Proof. intros. unfold setUpper. pose proof (lset_na _ i v (k_up s)). destruct (lset i v (k_up s)); cbn; firstorder congruence. Qed.
Definition calm_out {A} (o : outcome A) : Prop := o <> AssertFail /\ o <> Diverges.
Lemma calm_bind : forall A B (a : outcome A) (g : A -> outcome B), calm_out a -> (forall x, a = Ok x -> calm_out (g x)) -> calm_out (bind a g).
Proof. intros A B a g [H1 H2] K. destruct a; cbn; try (split; discriminate); try congruence. apply K. reflexivity. Qed.
Lemma calm_ok : forall A (x : A), calm_out (Ok x).
Proof. intros. split; discriminate. Qed.
Lemma fix_na : forall k i ints sol tol s, calm_out (fixIntegers k i ints sol tol s).
Proof.
  induction k; intros; cbn; [apply calm_ok|].
  apply calm_bind; [apply rd_na|]. intros [] _; [|apply IHk].
  apply calm_bind; [apply rd_na|]. intros v _. apply calm_bind.
  - unfold fix_one. destruct (Qltb _ _); [apply calm_ok|]. destruct (Qltb _ _); [apply calm_ok|].
    apply calm_bind; [apply setLower_na|]. intros a _. apply calm_bind; [apply setUpper_na|]. intros b _. apply calm_ok.
  - intros [[] b] _; cbn; [apply calm_ok|apply IHk].
Qed.
Lemma relax_na : forall k i ints tol s, calm_out (relaxIntegers k i ints tol s).
Proof.
  induction k; intros; cbn; [apply calm_ok|].
  apply calm_bind; [apply rd_na|]. intros [] _; [|apply IHk].
  apply calm_bind; [|intros; apply IHk]. unfold relax_one.
  apply calm_bind; [apply rd_na|]. intros l _. apply calm_bind; [apply setLower_na|]. intros s' _.
  apply calm_bind; [apply rd_na|]. intros u _. apply setUpper_na.
Qed.
Lemma fp_obj_na : forall ints x, calm_out (fp_obj ints x).
Proof. induction ints; intros; cbn; [apply calm_ok|]. destruct x; [split; discriminate|]. apply calm_bind; [apply IHints|]. intros. apply calm_ok. Qed.
Lemma xbar_nd : forall ints i sol, xbar i ints sol <> Diverges.
Proof.
  induction ints as [|[] ints IH]; intros; cbn; [discriminate| |apply IH].
  pose proof (proj2 (rd_na _ i sol)). destruct (rd i sol) as [v| | | | | | | ]; cbn; try discriminate; try congruence.
  destruct (chk _) eqn:C; cbn; try discriminate.
  - pose proof (IH (S i) sol). destruct (xbar (S i) ints sol); cbn; congruence.
  - unfold chk in C. destruct (Qltb _ _); discriminate.
Qed.
Lemma sub_mip_na : forall O ints s, calm_out (sub_mip O ints s).
Proof. intros. unfold sub_mip. apply calm_bind; [apply fp_obj_na|]. intros. apply calm_ok. Qed.

(** ** fixIntegers and relaxIntegers *)
Lemma lset_nth : forall A i (v : A) l l' j, lset i v l = Ok l' -> nth_error l' j = if Nat.eqb j i then Some v else nth_error l j.
Proof.
  intros A i v l l' j. intros H. assert (LT : (i < length l)%nat).
  { destruct (Nat.lt_ge_cases i (length l)) as [|G]; [assumption|]. exfalso. unfold lset in H.
    rewrite (proj2 (Nat.ltb_ge i (length l)) G) in H. discriminate H. }
  rewrite (lset_ok i v l LT) in H. injection H as <-.
  destruct (Nat.eqb j i) eqn:E.
  - apply Nat.eqb_eq in E. subst j. rewrite nth_error_app2; rewrite firstn_length_le by lia; [|lia].
    rewrite Nat.sub_diag. reflexivity.
  - apply Nat.eqb_neq in E. destruct (Nat.lt_ge_cases j i) as [L|G].
    + rewrite nth_error_app1 by (rewrite firstn_length_le; lia). rewrite <- (firstn_skipn i l) at 2.
      rewrite nth_error_app1 by (rewrite firstn_length_le; lia). reflexivity.
    + rewrite nth_error_app2; rewrite firstn_length_le by lia; [|lia].
      destruct (j - i)%nat as [|d] eqn:D; [lia|]. cbn [nth_error].
      rewrite <- (firstn_skipn (S i) l) at 2. rewrite nth_error_app2; rewrite firstn_length_le by lia; [|lia].
      f_equal. lia.
Qed.
Lemma setLower_nth : forall i v s s' j, setLower i v s = Ok s' -> nth_error (k_lo s') j = (if Nat.eqb j i then Some v else nth_error (k_lo s) j) /\ k_up s' = k_up s.
Proof. intros i v s s' j H. unfold setLower in H. bnd H l E. inv H. cbn. split; auto. eapply lset_nth; eauto. Qed.
Lemma setUpper_nth : forall i v s s' j, setUpper i v s = Ok s' -> nth_error (k_up s') j = (if Nat.eqb j i then Some v else nth_error (k_up s) j) /\ k_lo s' = k_lo s.
Proof. intros i v s s' j H. unfold setUpper in H. bnd H l E. inv H. cbn. split; auto. eapply lset_nth; eauto. Qed.
Lemma fix_one_nth : forall i v tol s s', fix_one i v tol s = Ok (false, s') ->
  exists z, forall j, nth_error (k_lo s') j = (if Nat.eqb j i then Some (Fin (inject_Z z)) else nth_error (k_lo s) j) /\
                      nth_error (k_up s') j = (if Nat.eqb j i then Some (Fin (inject_Z z)) else nth_error (k_up s) j).
Proof.
  intros i v tol s s' H. unfold fix_one in H.
  destruct (Qltb tol _); [discriminate|]. destruct (Qltb too_big _); [discriminate|].
  bnd H a E1. bnd H b E2. inv H. exists (nearest v). intros j.
  destruct (setLower_nth _ _ _ _ j E1) as [A B]. destruct (setUpper_nth _ _ _ _ j E2) as [C D].
  rewrite D, A, C, B. auto.
Qed.
Lemma fix_frame : forall k i ints sol tol s th s', fixIntegers k i ints sol tol s = Ok (th, s') -> forall j, (j < i)%nat ->
  nth_error (k_lo s') j = nth_error (k_lo s) j /\ nth_error (k_up s') j = nth_error (k_up s) j.
Proof.
  induction k; intros i ints sol tol s th s' H j J; cbn in H; [inv H; auto|].
  bnd H b E. destruct b.
  - bnd H v Ev. bnd H r Er. destruct r as [t s1]. cbn in H.
    assert (K : nth_error (k_lo s1) j = nth_error (k_lo s) j /\ nth_error (k_up s1) j = nth_error (k_up s) j).
    { destruct t.
      - unfold fix_one in Er. destruct (Qltb tol _); [inv Er; auto|]. destruct (Qltb too_big _); [inv Er; auto|].
        bnd Er a E1. bnd Er b E2.
      - destruct (fix_one_nth _ _ _ _ _ Er) as [z K]. destruct (K j) as [A B]. rewrite A, B.
        destruct (Nat.eqb_spec j i); [lia|]. auto. }
    destruct t; [inv H; auto|]. destruct (IHk _ _ _ _ _ _ _ H j ltac:(lia)) as [A B]. destruct K. split; congruence.
  - eapply IHk; eauto.
Qed.
Lemma fix_fixes : forall k i ints sol tol s s', fixIntegers k i ints sol tol s = Ok (false, s') -> forall j, (i <= j < i + k)%nat ->
  nth_error ints j = Some true -> exists z, nth_error (k_lo s') j = Some (Fin (inject_Z z)) /\ nth_error (k_up s') j = Some (Fin (inject_Z z)).
Proof.
  induction k; intros i ints sol tol s s' H j J T; [lia|]. cbn in H. bnd H b E.
  destruct (Nat.eq_dec j i) as [-> |N].
  - assert (b = true). { unfold rd in E. rewrite T in E. inv E. reflexivity. } subst b.
    bnd H v Ev. bnd H r Er. destruct r as [[] s1]; cbn in H; [discriminate|].
    destruct (fix_one_nth _ _ _ _ _ Er) as [z K]. exists z. destruct (fix_frame _ _ _ _ _ _ _ _ H i ltac:(lia)) as [A B].
    destruct (K i) as [C D]. rewrite Nat.eqb_refl in C, D. split; congruence.
  - destruct b; [bnd H v Ev; bnd H r Er; destruct r as [[] s1]; cbn in H; [discriminate|]|]; eapply IHk; eauto; lia.
Qed.
Lemma relax_one_nth : forall i tol s s', relax_one i tol s = Ok s' -> exists l u, nth_error (k_lo s) i = Some l /\ nth_error (k_up s) i = Some u /\
  forall j, nth_error (k_lo s') j = (if Nat.eqb j i then Some (eplus l (- tol)) else nth_error (k_lo s) j) /\
            nth_error (k_up s') j = (if Nat.eqb j i then Some (eplus u tol) else nth_error (k_up s) j).
Proof.
  intros i tol s s' H. unfold relax_one in H. bnd H l E1. bnd H a E2. bnd H u E3.
  exists l, u. unfold rd in E1, E3. destruct (nth_error (k_lo s) i) eqn:L; [inv E1|discriminate].
  destruct (setLower_nth _ _ _ _ 0%nat E2) as [_ B]. rewrite B in E3. destruct (nth_error (k_up s) i) eqn:U; [inv E3|discriminate].
  split; auto. split; auto. intros j. destruct (setLower_nth _ _ _ _ j E2) as [A _]. destruct (setUpper_nth _ _ _ _ j H) as [C D].
  rewrite D, A, C, B. auto.
Qed.
Lemma relax_frame : forall k i ints tol s s', relaxIntegers k i ints tol s = Ok s' -> forall j, (j < i)%nat ->
  nth_error (k_lo s') j = nth_error (k_lo s) j /\ nth_error (k_up s') j = nth_error (k_up s) j.
Proof.
  induction k; intros i ints tol s s' H j J; cbn in H; [inv H; auto|].
  bnd H b E. destruct b; [|eapply IHk; eauto]. bnd H a Er.
  destruct (relax_one_nth _ _ _ _ Er) as (l & u & _ & _ & K). destruct (K j) as [A B]. destruct (Nat.eqb_spec j i); [lia|].
  destruct (IHk _ _ _ _ _ H j ltac:(lia)) as [C D]. split; congruence.
Qed.
Lemma relax_relaxes : forall k i ints tol s s', relaxIntegers k i ints tol s = Ok s' -> forall j, (i <= j < i + k)%nat -> nth_error ints j = Some true ->
  exists l u, nth_error (k_lo s) j = Some l /\ nth_error (k_up s) j = Some u /\
              nth_error (k_lo s') j = Some (eplus l (- tol)) /\ nth_error (k_up s') j = Some (eplus u tol).
Proof.
  induction k; intros i ints tol s s' H j J T; [lia|]. cbn in H. bnd H b E.
  destruct (Nat.eq_dec j i) as [-> |N].
  - assert (b = true). { unfold rd in E. rewrite T in E. inv E. reflexivity. } subst b. bnd H a Er.
    destruct (relax_one_nth _ _ _ _ Er) as (l & u & L & U & K). destruct (K i) as [A B]. rewrite Nat.eqb_refl in A, B.
    destruct (relax_frame _ _ _ _ _ _ H i ltac:(lia)) as [C D]. exists l, u. repeat split; congruence.
  - destruct b; [|eapply IHk; eauto; lia]. bnd H a Er.
    destruct (IHk _ _ _ _ _ H j ltac:(lia) T) as (l & u & L & U & C & D).
    destruct (relax_one_nth _ _ _ _ Er) as (l0 & u0 & L0 & U0 & K). destruct (K j) as [A B]. destruct (Nat.eqb_spec j i); [lia|].
    exists l, u. repeat split; congruence.
Qed.

(** ** One pass *)
Lemma ltb_new : forall v u c, ext_ltb (Fin v) c = true -> (c = u \/ exists d w, c = Fin d /\ u = Fin w /\ d < w) -> emin u (Fin v) = Fin v.
Proof.
  intros v u c H [-> |(d & w & -> & -> & L)]; unfold emin; cbn in *.
  - rewrite H. reflexivity.
  - apply Qltb_lt in H. assert (v < w) by (eapply Qlt_trans; eauto). apply Qltb_lt in H0. rewrite H0. reflexivity.
Qed.
Section Run.
Variables (O : orac) (q : par) (ints : list bool) (saved : cols) (c0 : ext) (rows0 : list row).
(** Invariant of the loop about the values. *)
Definition vals (s : st) : Prop :=
  match s_found s with
  | [] => s_cut s = c0 /\ s_ub s = c0
  | (_, v) :: _ => s_ub s = Fin v /\ s_cut s = Fin (new_cutoff v (q_inc q)) /\ new_cutoff v (q_inc q) < v
  end /\ improving c0 (s_found s) /\
  forall y v, In (y, v) (s_found s) -> exists k b, o_nlp O k b = (true, v, y) /\ nearly_fixed (q_tol q) (q_info q) ints b.
Lemma vals_cut : forall s, vals s -> s_cut s = s_ub s \/ exists d w, s_cut s = Fin d /\ s_ub s = Fin w /\ d < w.
Proof. intros s [H _]. destruct (s_found s) as [|[y v] l]; [left; destruct H; congruence|]. right. destruct H as (A & B & C). eauto. Qed.
(** Rows: those of the start and cuts. *)
Definition made (r : row) : Prop := In r rows0 \/ (exists x, r = o_obj O x) \/ exists x, In r (o_oa O x).
Definition rows_ok (s : st) : Prop := forall r, In r (s_rows s) -> made r.

Lemma sub_mip_eq : forall s s', sub_mip O ints s = Ok s' -> exists obj, fp_obj ints (s_x s) = Ok obj /\
  o_mip O (s_mip s) (s_rows s) obj (s_cut s) = (s_sol s', s_mopt s') /\ s_rows s' = s_rows s /\ s_cut s' = s_cut s /\ s_ub s' = s_ub s /\
  s_bnd s' = s_bnd s /\ s_sols s' = s_sols s /\ s_local s' = S (s_local s) /\ s_found s' = s_found s /\ s_pass s' = s_pass s.
Proof. intros s s' H. unfold sub_mip in H. bnd H ob E. inv H. exists ob. cbn. rewrite <- surjective_pairing. auto 12. Qed.

Lemma fixed_ok : forall sol s e t s', fixed_nlp O q ints sol s = Ok (e, t, s') -> vals s ->
  vals s' /\ s_rows s' = s_rows s /\ s_local s' = s_local s /\ s_sol s' = s_sol s /\ s_pass s' = s_pass s /\ s_mopt s' = s_mopt s /\ s_cs s' = s_cs s.
Proof.
  intros sol s e t s' H V. unfold fixed_nlp in H. bnd H f Ef. destruct f as [th b0]. cbn [fst snd] in H.
  assert (K : forall b k x, vals (mkSt (s_mip s) k (s_rows s) (s_cs s) b x (s_cut s) (s_ub s) (s_sols s) (s_local s) (s_found s) (s_mopt s) (s_sol s) (s_pass s)))
    by (intros; exact V).
  destruct th; [inv H; cbn; auto 9|].
  bnd H kr Ek. destruct kr as [[k r] b]. destruct r as [[opt v] y].
  destruct (opt && ext_ltb (Fin v) (s_cut s))%bool eqn:B; [|inv H; cbn; auto 9].
  apply andb_true_iff in B. destruct B as [-> B]. rewrite (ltb_new _ _ _ B (vals_cut s V)) in H.
  bnd H c Ec. unfold chk in Ec. destruct (Qltb (new_cutoff v (q_inc q)) v) eqn:L; [|discriminate]. apply Qltb_lt in L.
  inv H. cbn. split; [|auto 7]. destruct V as (V1 & V2 & V3). repeat split; cbn; auto.
  - destruct (s_found s) as [|[w x] l]; [destruct V1 as [V1 _]; rewrite V1 in B; exact B|]. split; auto.
    destruct V1 as (_ & C & L'). rewrite C in B. cbn in B. apply Qltb_lt in B. eapply Qlt_trans; eauto.
  - intros y0 v0 [I |I]; [inv I|auto]. clear K.
    destruct (o_nlp O (s_nlp s) b0) as [[op v1] y1] eqn:E0. cbn [fst snd] in Ek. destruct op.
    + inv Ek. exists (s_nlp s). eexists. split; [exact E0|]. intros j J T. destruct (fix_fixes _ _ _ _ _ _ _ Ef j ltac:(lia) T) as [z Z]. exists z. auto.
    + bnd Ek b1 Er. inversion Ek. clear Ek. exists (S (s_nlp s)), b1. split; [congruence|]. intros j J T.
      destruct (fix_fixes _ _ _ _ _ _ _ Ef j ltac:(lia) T) as [z [Z1 Z2]].
      destruct (relax_relaxes _ _ _ _ _ _ Er j ltac:(lia) T) as (l & u & L1 & U1 & L2 & U2).
      exists z. right. rewrite Z1 in L1. rewrite Z2 in U1. inv L1. inv U1. cbn in L2, U2. subst. eexists _, _. split; [exact L2|]. split; [exact U2|]. split; reflexivity.
Qed.
Lemma add_ok : forall x s s', add_cuts O x s = Ok s' -> s' = mkSt (s_mip s) (s_nlp s) (s_rows s ++ o_oa O x) (s_cs s ++ o_oa O x) (s_bnd s) (s_x s)
  (s_cut s) (s_ub s) (s_sols s) (s_local s) (s_found s) (s_mopt s) (s_sol s) (s_pass s) /\ o_oa O x <> [].
Proof.
  intros x s s' H. unfold add_cuts in H. bnd H c Ec. inv H. split; auto. unfold chk in Ec. destruct (o_oa O x); [discriminate Ec|discriminate].
Qed.

(** Why there is no further point: time, another limit, or the answer of the MILP solver. *)
Definition why (s : st) : Prop := s_sol s = None -> (0 < s_pass s)%nat /\ o_late O (s_pass s) = true \/ (q_maxLocal q <= s_local s)%nat \/ (q_maxSols q <= s_sols s)%nat \/
  exists k obj, o_mip O k (s_rows s) obj (s_cut s) = (None, s_mopt s).
Lemma pass_ok : forall sol s e s', pump_pass O q ints saved sol s = Ok (e, s') -> vals s -> rows_ok s -> s_bnd s = saved ->
  vals s' /\ (e = Normal -> rows_ok s' /\ s_bnd s' = saved /\ why s' /\
     (s_sol s' <> None -> (s_local s < q_maxLocal q)%nat /\ s_local s' = S (s_local s) /\ exists k rows obj cap o, o_mip O k rows obj cap = (s_sol s', o))).
Proof.
  intros sol s e s' H V R B. unfold pump_pass in H. cbv zeta in H. bnd H xb Ex.
  bnd H es Ees. destruct es as [e1 s1].
  assert (P : vals s1 /\ (e1 = Normal -> rows_ok s1 /\ s_bnd s1 = saved /\ s_local s1 = s_local s /\ (0 < s_pass s1)%nat)).
  { destruct (Qltb (fst (o_dist O (s_pass (tick s)) (s_bnd (tick s)) xb)) (1 # 1000000)).
    - bnd Ees f Ef. destruct f as [[e2 t] s2]. destruct (fixed_ok _ _ _ _ _ Ef ltac:(exact V)) as (V2 & R2 & L2 & S2 & P2 & M2 & C2).
      destruct e2; [|inv Ees; split; [exact V2|discriminate]].
      bnd Ees s3 E3. destruct (add_ok _ _ _ E3) as [-> _]. inv Ees.
      assert (rows_ok (mkSt (s_mip s2) (s_nlp s2) (s_rows s2 ++ o_oa O (s_x s2)) (s_cs s2 ++ o_oa O (s_x s2)) (s_bnd s2) (s_x s2) (s_cut s2) (s_ub s2) (s_sols s2) (s_local s2) (s_found s2) (s_mopt s2) (s_sol s2) (s_pass s2))).
      { intros r I. cbn in I. apply in_app_or in I. destruct I as [I|I]; [apply R; rewrite R2 in I; exact I|]. right. right. eauto. }
      destruct t; cbn; (split; [exact V2|]); intros _; (split; [exact H0|]); cbn in *; (split; [auto|]); (split; [auto|]); rewrite P2; lia.
    - bnd Ees s3 E3. destruct (add_ok _ _ _ E3) as [-> _]. inv Ees. split; [exact V|]. intros _. cbn. repeat split; auto; [|lia].
      intros r I. cbn in I. apply in_app_or in I. destruct I as [I|I]; [apply R; exact I|]. right. right. eauto. }
  destruct P as [V1 P]. destruct e1; [|inv H; split; [exact V1|discriminate]]. destruct (P eq_refl) as (R1 & B1 & L1 & P1).
  destruct (o_late O (s_pass s1)) eqn:La.
  - inv H. split; [exact V1|]. intros _. split; [exact R1|]. split; [exact B1|]. split; [|cbn; congruence]. intros _. left. cbn. auto.
  - destruct (Nat.ltb (s_local s1) (q_maxLocal q)) eqn:ML; cbn [andb] in H.
    + apply Nat.ltb_lt in ML. destruct (Nat.ltb (s_sols s1) (q_maxSols q)) eqn:MS.
      * bnd H s2 E2. inv H. destruct (sub_mip_eq _ _ E2) as (obj & Eo & M & A1 & A2 & A3 & A4 & A5 & A6 & A7 & A8).
        split. { unfold vals in *. rewrite A7, A2, A3. exact V1. } intros _.
        split. { unfold rows_ok. rewrite A1. exact R1. } split; [congruence|]. split.
        -- intros N. right. right. right. exists (s_mip s1), obj. rewrite A1, A2, M, N. reflexivity.
        -- intros _. split; [lia|]. split; [lia|]. exists (s_mip s1), (s_rows s1), obj, (s_cut s1), (s_mopt s'). exact M.
      * inv H. split; [exact V1|]. intros _. split; [exact R1|]. split; [exact B1|]. split; [|cbn; congruence].
        intros _. right. right. left. cbn. apply Nat.ltb_ge in MS. exact MS.
    + inv H. split; [exact V1|]. intros _. split; [exact R1|]. split; [exact B1|]. split; [|cbn; congruence].
      intros _. right. left. cbn. apply Nat.ltb_ge in ML. exact ML.
Qed.
Lemma loop_ok : forall fuel s e s', pump_loop fuel O q ints saved s = Ok (e, s') -> vals s -> rows_ok s -> s_bnd s = saved -> why s ->
  vals s' /\ (e = Normal -> rows_ok s' /\ s_bnd s' = saved /\ why s' /\ s_sol s' = None).
Proof.
  induction fuel; intros s e s' H V R B W; cbn in H.
  - destruct (s_sol s) eqn:E; [discriminate|]. inv H. auto.
  - destruct (s_sol s) as [sol|] eqn:E; [|inv H; auto].
    bnd H es Ep. destruct es as [e1 s1]. cbn [fst snd] in H. destruct (pass_ok _ _ _ _ Ep V R B) as [V1 P].
    destruct e1; [|inv H; split; [exact V1|discriminate]]. destruct (P eq_refl) as (R1 & B1 & W1 & _). eapply IHfuel; eauto.
Qed.
End Run.

Lemma start_ok : forall O q hascol ints rows bnd x cutoff sols local s, pump_start O hascol ints rows bnd x cutoff sols local = Ok s ->
  vals O q ints cutoff s /\ rows_ok O rows s /\ s_bnd s = bnd /\ why O q s /\ s_local s = S local.
Proof.
  intros O q hascol ints rows bnd x cutoff sols local s H. unfold pump_start in H.
  destruct (sub_mip_eq _ _ _ _ H) as (obj & Eo & M & A1 & A2 & A3 & A4 & A5 & A6 & A7 & A8). cbn in *.
  split; [|split; [|split; [|split]]]; auto.
  - unfold vals. rewrite A7, A2, A3. cbn. intuition.
  - unfold rows_ok. rewrite A1. intros r I. destruct hascol; [left; auto|]. apply in_app_or in I. destruct I as [I|[<- |[]]]; [left; auto|right; left; eauto].
  - intros N. right. right. right. exists 0%nat, obj. rewrite A1, A2, M, N. reflexivity.
Qed.
Theorem pump_ok : forall fuel O q hascol ints rows bnd x cutoff sols local e s, pump fuel O q hascol ints rows bnd x cutoff sols local = Ok (e, s) ->
  vals O q ints cutoff s /\ (e = Normal -> rows_ok O rows s /\ s_bnd s = bnd /\ why O q s /\ s_sol s = None).
Proof.
  intros fuel O q hascol ints rows bnd x cutoff sols local e s H. unfold pump in H. bnd H s0 Es.
  destruct (start_ok _ q _ _ _ _ _ _ _ _ _ Es) as (V & R & B & W & _). eapply loop_ok; eauto.
Qed.

(** ** Ending *)
Lemma pass_nd : forall O q ints saved sol s, pump_pass O q ints saved sol s <> Diverges.
Proof.
  intros O q ints saved sol s. unfold pump_pass. cbv zeta.
  pose proof (xbar_nd ints 0 sol) as X. destruct (xbar 0 ints sol) as [xb| | | | | | | ]; cbn [bind]; try discriminate; try congruence.
  assert (AD : forall x s, add_cuts O x s <> Diverges).
  { intros y u. unfold add_cuts, chk. destruct (negb _); cbn; discriminate. }
  assert (FD : forall u, fixed_nlp O q ints sol u <> Diverges).
  { intros u. unfold fixed_nlp. pose proof (proj2 (fix_na (q_info q) 0 ints sol (q_tol q) (s_bnd u))) as N.
    destruct (fixIntegers _ _ _ _ _ _) as [f| | | | | | | ]; cbn [bind]; try discriminate; try congruence.
    destruct (fst f); [discriminate|]. destruct (fst (fst (o_nlp O (s_nlp u) (snd f)))).
    - cbn [bind]. destruct (o_nlp O (s_nlp u) (snd f)) as [[op v] y]. destruct (_ && _)%bool; [|discriminate].
      destruct (emin _ _); try discriminate. unfold chk. destruct (Qltb _ _); cbn; discriminate.
    - pose proof (proj2 (relax_na (q_info q) 0 ints (q_tol q) (snd f))) as N'.
      destruct (relaxIntegers _ _ _ _ _) as [b| | | | | | | ]; cbn [bind]; try discriminate; try congruence.
      destruct (o_nlp O (S (s_nlp u)) b) as [[op v] y]. destruct (_ && _)%bool; [|discriminate].
      destruct (emin _ _); try discriminate. unfold chk. destruct (Qltb _ _); cbn; discriminate. }
  destruct (Qltb _ _).
  - specialize (FD (tick s)). destruct (fixed_nlp O q ints sol (tick s)) as [[[e t] s2]| | | | | | | ]; cbn [bind]; try discriminate; try congruence.
    destruct e; cbn [bind]; [|discriminate].
    specialize (AD (s_x s2) s2). destruct (add_cuts O (s_x s2) s2) as [s3| | | | | | | ]; cbn [bind]; try discriminate; try congruence.
    destruct (o_late _ _); [discriminate|]. destruct (_ && _)%bool; [|discriminate].
    match goal with |- context [sub_mip O ints ?u] => pose proof (proj2 (sub_mip_na O ints u)) as SN; destruct (sub_mip O ints u); cbn; congruence end.
  - match goal with |- context [add_cuts O ?y ?u] => specialize (AD y u); destruct (add_cuts O y u) as [s3| | | | | | | ]; cbn [bind]; try discriminate; try congruence end.
    destruct (o_late _ _); [discriminate|]. destruct (_ && _)%bool; [|discriminate].
    match goal with |- context [sub_mip O ints ?u] => pose proof (proj2 (sub_mip_na O ints u)) as SN; destruct (sub_mip O ints u); cbn; congruence end.
Qed.
Lemma loop_nd : forall O q ints saved c0 rows0 fuel s, vals O q ints c0 s -> rows_ok O rows0 s -> s_bnd s = saved ->
  (q_maxLocal q - s_local s < fuel)%nat -> pump_loop fuel O q ints saved s <> Diverges.
Proof.
  induction fuel; intros s V R B M; [lia|]. cbn. destruct (s_sol s) as [sol|]; [|discriminate].
  pose proof (pass_nd O q ints saved sol s) as N. destruct (pump_pass O q ints saved sol s) as [[e s1]| | | | | | | ] eqn:Ep; cbn [bind fst snd]; try discriminate; try congruence.
  destruct e; [|discriminate]. destruct (pass_ok _ _ _ _ _ _ _ _ _ _ Ep V R B) as [V1 P]. destruct (P eq_refl) as (R1 & B1 & W1 & L1).
  destruct (s_sol s1) as [z|] eqn:E1.
  - destruct (L1 ltac:(discriminate)) as (A & C & _). apply IHfuel; auto. lia.
  - destruct fuel; cbn; rewrite E1; discriminate.
Qed.
Theorem pump_nd : forall O q hascol ints rows bnd x cutoff sols local fuel, (q_maxLocal q < fuel)%nat ->
  pump fuel O q hascol ints rows bnd x cutoff sols local <> Diverges.
Proof.
  intros O q hascol ints rows bnd x cutoff sols local fuel F. unfold pump.
  pose proof (proj2 (sub_mip_na O ints (mkSt 0 1 (if hascol then rows else rows ++ [o_obj O x]) [] bnd (snd (o_nlp O 0 bnd)) cutoff cutoff sols local [] false None 0))) as N.
  destruct (pump_start O hascol ints rows bnd x cutoff sols local) as [s| | | | | | | ] eqn:Es; cbn [bind]; try discriminate; try (intro; apply N; exact Es).
  destruct (start_ok _ q _ _ _ _ _ _ _ _ _ Es) as (V & R & B & W & L). eapply loop_nd; eauto. lia.
Qed.
