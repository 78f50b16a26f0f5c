(** Lemmas about the solver interface. *)
From Verif Require Import Base Arr Oad_Model Oad_Proofs2 Itf_Model Itf_Spec.
#[local] Open Scope Q_scope.

(** ** Random points *)
Lemma between_in l u r : l <= u -> 0 <= r <= 1 -> l <= r * (u - l) + l <= u.
Proof. intros H [R1 R2]. split; nra. Qed.
Lemma between_inside cl cu l u r : l <= u -> 0 <= r <= 1 -> lo_ok cl l -> up_ok cu u -> inside cl cu (between (Fin l) (Fin u) r).
Proof.
  intros H R L U. exists (r * (u - l) + l). destruct (between_in l u r H R) as [A B].
  split; [reflexivity|]. split; [destruct cl|destruct cu]; simpl in *; auto; lra.
Qed.
Ltac ecs := repeat match goal with
  | |- context [if Qltb ?a ?b then _ else _] => let E := fresh "E" in destruct (Qltb a b) eqn:E; [apply Qltb_lt in E|apply Qltb_ge in E]; cbn [ext_ltb] in *
  end.
Lemma random_coord_in t maxR pert cl cu x0 rad r : 0 <= maxR -> 0 <= pert -> (t = PerturbSuffix -> 0 <= rad) -> box cl cu -> 0 <= r <= 1 ->
  inside cl cu (random_coord t maxR pert cl cu x0 rad r).
Proof.
  intros M P T B R. unfold random_coord.
  destruct (_ || _)%bool eqn:C.
  - clear C. destruct cl as [|l|], cu as [|u|]; simpl in B; try contradiction; unfold emin, emax, eplus; cbn [ext_ltb]; ecs;
      apply between_inside; simpl; auto; lra.
  - apply orb_false_iff in C. destruct C as [C C3]. apply orb_false_iff in C. destruct C as [C1 C2].
    assert (Hp : 0 <= match t with PerturbSuffix => rad * pert | _ => pert end).
    { destruct t; [exact P|exact P|]. specialize (T eq_refl). nra. }
    set (p := match t with PerturbSuffix => rad * pert | _ => pert end) in *.
    destruct cl as [|l|], cu as [|u|]; simpl in B; try contradiction; cbn [ext_ltb] in C2, C3;
      repeat match goal with H : Qltb _ _ = false |- _ => apply Qltb_ge in H end;
      unfold emin, emax; cbn [ext_ltb]; ecs; apply between_inside; simpl; auto; lra.
Qed.
Lemma random_coords_in t maxR pert : 0 <= maxR -> 0 <= pert -> forall cl cu x0 radii draws,
  (t = PerturbSuffix -> Forall (fun a => 0 <= a) radii) -> Forall2 box cl cu -> length x0 = length cl -> length radii = length cl -> length draws = length cl ->
  Forall (fun r => 0 <= r <= 1) draws -> all5 inside cl cu (random_coords t maxR pert cl cu x0 radii draws).
Proof.
  intros M P cl cu x0 radii draws T B. revert x0 radii draws T. induction B as [|l u cl cu B BS IH]; intros x0 radii draws T L1 L2 L3 D.
  - constructor.
  - destruct x0 as [|x x0]; [discriminate|]. destruct radii as [|a radii]; [discriminate|]. destruct draws as [|r draws]; [discriminate|].
    cbn [random_coords]. constructor.
    + apply random_coord_in; auto. intros E. exact (Forall_inv (T E)). exact (Forall_inv D).
    + apply IH; auto. intros E. exact (Forall_inv_tail (T E)). exact (Forall_inv_tail D).
Qed.
Lemma start_in t maxR pert cl cu x0 radii draws sol : 0 <= maxR -> 0 <= pert -> Forall2 box cl cu -> length x0 = length cl -> length draws = length cl ->
  match radii with Some a => length a = length cl /\ (t = PerturbSuffix -> Forall (fun a => 0 <= a) a) | None => True end ->
  Forall (fun r => 0 <= r <= 1) draws ->
  randomStartingPoint t maxR pert cl cu x0 radii draws = Ok sol -> all5 inside cl cu sol.
Proof.
  intros M P B L1 L2 RR D H. unfold randomStartingPoint in H.
  destruct t.
  1,2: destruct radii; injection H as <-; apply random_coords_in; auto; try discriminate; apply repeat_length.
  destruct radii as [a|]; [|discriminate]. injection H as <-. destruct RR as [LL NN]. apply random_coords_in; auto.
Qed.

(** ** Statuses *)
Lemma st_eqb_eq a b : st_eqb a b = true <-> a = b.
Proof. destruct a, b; cbv; split; congruence. Qed.
Lemma opt_success s : opt_st s = true <-> success s.
Proof. destruct s; cbv; intuition congruence. Qed.

(** ** One call *)
Section S.
Variable ans : nat -> answer.
Variable p : prm.
Notation solve := (solveAndCheckErrors ans).

Lemma solve_spec s s' : solve s = Ok s' ->
  (o_abort s = true /\ s' = s) \/
  (o_abort s = false /\ isRecoverable (n_st (ans (o_calls s))) = true /\ holds_answer (ans (o_calls s)) s' /\ o_calls s' = S (o_calls s) /\
   o_abort s' = n_abort (ans (o_calls s)) /\ o_pret s' = o_pret s /\ o_cont s' = o_cont s /\ o_first s' = o_first s /\
   o_retryInit s' = o_retryInit s /\ o_warm s' = o_warm s /\ o_decr s' = o_decr s).
Proof.
  unfold solveAndCheckErrors. destruct (o_abort s); [intros H; injection H as <-; auto|].
  destruct (isRecoverable _); cbn [negb]; [|discriminate]. intros H. injection H as <-. right. cbn. unfold holds_answer. cbn. repeat split; reflexivity.
Qed.
Lemma solve_pret s s' : solve s = Ok s' -> o_pret s' = o_pret s.
Proof. intros H. destruct (solve_spec _ _ H) as [[_ E]|E]; [subst; reflexivity|tauto]. Qed.
Lemma solve_decr s s' : solve s = Ok s' -> o_decr s' = o_decr s.
Proof. intros H. destruct (solve_spec _ _ H) as [[_ E]|E]; [subst; reflexivity|tauto]. Qed.
Lemma solve_abort_up s s' : solve s = Ok s' -> o_abort s = true -> o_abort s' = true.
Proof. intros H A. destruct (solve_spec _ _ H) as [[_ E]|E]; [subst; exact A|destruct E as [E _]; congruence]. Qed.

(** ** Multi-start *)
Definition tracked (s0 : itf) (l : list answer) (c : cost) : Prop :=
  (exists a, best_among l a /\ c_st c = n_st a /\ c_best c = Fin (n_obj a) /\ c_x c = n_x a /\ c_du c = n_du a) \/
  ((forall b, In b l -> ~ success (n_st b)) /\ c_best c = PInf /\ c_st c = o_st s0 /\ c_x c = o_x s0 /\ c_du c = o_du s0).
Lemma tracked_snoc s0 l c a s fl inf mean of : tracked s0 l c -> holds_answer a s ->
  let better := (isProvenOptimal s && ext_ltb (o_obj s) (c_best c))%bool in
  tracked s0 (l ++ [a]) (mkCost s
        (if better then o_obj s else c_best c) (if better then o_x s else c_x c) (if better then o_du s else c_du c) (if better then o_st s else c_st c)
        fl inf mean of).
Proof.
  intros T (S1 & S2 & S3 & S4) better. unfold better, isProvenOptimal. rewrite S1, S2.
  destruct (opt_st (n_st a)) eqn:O.
  - apply opt_success in O. destruct (ext_ltb (Fin (n_obj a)) (c_best c)) eqn:B; cbn [andb].
    + left. exists a. cbn. split; [|auto]. split; [apply in_or_app; right; left; reflexivity|]. split; [exact O|].
      intros b HB SB. apply in_app_or in HB. destruct HB as [HB|[<-|[]]]; [|lra].
      destruct T as [(a' & (I1 & I2 & I3) & _ & T2 & _)|(N & _)]; [|exfalso; exact (N b HB SB)].
      rewrite T2 in B. cbn in B. apply Qltb_lt in B. specialize (I3 b HB SB). lra.
    + destruct T as [(a' & (I1 & I2 & I3) & T1 & T2 & T3 & T4)|(N & T2 & _)].
      * left. exists a'. cbn. split; [|auto]. split; [apply in_or_app; left; exact I1|]. split; [exact I2|].
        intros b HB SB. apply in_app_or in HB. destruct HB as [HB|[<-|[]]]; [auto|].
        rewrite T2 in B. cbn in B. apply Qltb_ge in B. exact B.
      * rewrite T2 in B. discriminate.
  - cbn [andb]. assert (NS : ~ success (n_st a)) by (intros H; apply opt_success in H; congruence).
    destruct T as [(a' & (I1 & I2 & I3) & T1 & T2 & T3 & T4)|(N & T2 & T3 & T4 & T5)].
    + left. exists a'. cbn. split; [|auto]. split; [apply in_or_app; left; exact I1|]. split; [exact I2|].
      intros b HB SB. apply in_app_or in HB. destruct HB as [HB|[<-|[]]]; [auto|contradiction].
    + right. cbn. split; [|auto]. intros b HB. apply in_app_or in HB. destruct HB as [HB|[<-|[]]]; [auto|exact NS].
Qed.
Lemma tracked_eq s0 l c s fl inf mean of b x d st : tracked s0 l c -> b = c_best c -> x = c_x c -> d = c_du c -> st = c_st c ->
  tracked s0 l (mkCost s b x d st fl inf mean of).
Proof. intros T -> -> -> ->. exact T. Qed.

Lemma calls_S a k : calls ans a (S k) = ans a :: calls ans (S a) k.
Proof. reflexivity. Qed.

Lemma cost_loop_spec s0 : forall k c c' l, tracked s0 l c -> (exists a, In a l /\ holds_answer a (c_s c)) -> cost_loop ans p k c = Ok c' ->
  exists j, (j <= k)%nat /\ (j = k \/ o_abort (c_s c') = true) /\ o_calls (c_s c') = (o_calls (c_s c) + j)%nat /\
    tracked s0 (l ++ calls ans (o_calls (c_s c)) j) c' /\ o_pret (c_s c') = o_pret (c_s c) /\ o_decr (c_s c') = o_decr (c_s c) /\ o_first (c_s c') = o_first (c_s c) /\
    o_warm (c_s c') = o_warm (c_s c) /\ o_retryInit (c_s c') = o_retryInit (c_s c) /\ o_cont (c_s c') = o_cont (c_s c) /\
    (o_abort (c_s c) = true -> o_abort (c_s c') = true).
Proof.
  induction k as [|k IH]; intros c c' l T (a & HA & HH) H.
  - cbn in H. injection H as <-. exists 0%nat. unfold calls. cbn. rewrite app_nil_r, Nat.add_0_r. repeat split; auto.
  - cbn [cost_loop] in H. destruct (m_rand p); cbn [negb] in H; [|discriminate].
    apply bind_ok in H. destruct H as (s & E & H). cbv zeta in H.
    destruct (solve_spec _ _ E) as [[A ->]|(A & R & HS & C1 & C2 & C3 & C4 & C5 & C6 & C7 & C8)].
    + apply IH with (l := l) in H.
      * cbn [c_s] in H. destruct H as (j & J1 & J2 & J3 & J4 & J5 & J6 & J7 & J8 & J9 & J10 & J11). exists j. split; [lia|]. split; [right; auto|]. repeat (split; [assumption|]). assumption.
      * destruct (isProvenOptimal (c_s c) && ext_ltb (o_obj (c_s c)) (c_best c))%bool eqn:B; cbn [andb].
        { exfalso. apply andb_prop in B. destruct B as [B1 B2]. destruct HH as (S1 & S2 & S3 & S4). unfold isProvenOptimal in B1. rewrite S1 in B1. apply opt_success in B1.
          destruct T as [(a' & (I1 & I2 & I3) & _ & T2 & _)|(N & _)]; [|exact (N a HA B1)].
          rewrite S2, T2 in B2. cbn in B2. apply Qltb_lt in B2. specialize (I3 a HA B1). lra. }
        apply tracked_eq with c; auto.
      * exists a. auto.
    + apply IH with (l := l ++ [ans (o_calls (c_s c))]) in H.
      * cbn [c_s] in H. destruct H as (j & J1 & J2 & J3 & J4 & J5 & J6 & J7 & J8 & J9 & J10 & J11). exists (S j). split; [lia|]. split; [destruct J2; [left; lia|right; assumption]|].
        split; [rewrite J3, C1; lia|]. rewrite calls_S. rewrite <- app_assoc in J4. cbn [app] in J4. rewrite C1 in J4. split; [exact J4|].
        rewrite J5, J6, J7, J8, J9, J10. repeat (split; [assumption|]). intros A'. congruence.
      * apply tracked_snoc; assumption.
      * exists (ans (o_calls (c_s c))). split; [apply in_or_app; right; left; reflexivity|]. exact HS.
Qed.

Lemma cost_start s q : o_obj s = Fin q ->
  tracked (set_warm false s) [cand s q] (mkCost (set_warm false s) (if isProvenOptimal (set_warm false s) then o_obj (set_warm false s) else PInf)
     (o_x (set_warm false s)) (o_du (set_warm false s)) (o_st (set_warm false s)) 0 0 0 []).
Proof.
  intros Q. unfold isProvenOptimal. cbn. destruct (opt_st (o_st s)) eqn:O.
  - left. exists (cand s q). cbn. split; [|auto]. split; [left; reflexivity|]. split; [apply opt_success, O|]. intros b [<-|[]] _. cbn. lra.
  - right. cbn. split; [|auto]. intros b [<-|[]] H. cbn in H. apply opt_success in H. congruence.
Qed.
Lemma resolveForCost_spec k s s' q : o_obj s = Fin q -> resolveForCost ans p k s = Ok s' ->
  exists j, (j <= k)%nat /\ (j = k \/ o_abort s' = true) /\ o_calls s' = (o_calls s + j)%nat /\
  let l := cand s q :: calls ans (o_calls s) j in
  ((exists a, best_among l a /\ holds_answer a s') \/
   (forall b, In b l -> ~ success (n_st b)) /\ o_st s' = o_st s /\ o_x s' = o_x s /\ o_du s' = o_du s /\ o_obj s' = PInf) /\
  o_pret s' = o_pret s /\ o_first s' = o_first s /\ o_warm s' = false /\ (o_abort s = true -> o_abort s' = true).
Proof.
  intros Q H. unfold resolveForCost in H. apply bind_ok in H. destruct H as (c & E & H). injection H as <-.
  apply (cost_loop_spec (set_warm false s)) with (l := [cand s q]) in E; [|apply cost_start, Q|].
  - cbn [c_s] in E. destruct E as (j & J1 & J2 & J3 & J4 & J5 & J6 & J7 & J8 & J9 & J10 & J11). exists j. cbn. split; [exact J1|]. split; [exact J2|]. split; [exact J3|].
    cbn in J4. split; [|repeat split; assumption].
    destruct J4 as [(a & B & T1 & T2 & T3 & T4)|(N & T1 & T2 & T3 & T4)]; [left; exists a; split; [exact B|repeat split; assumption]|right].
    split; [exact N|]. repeat split; assumption.
  - exists (cand s q). split; [left; reflexivity|]. repeat split; cbn; auto.
Qed.

(** Whether it returns. *)
Lemma cost_loop_ok : m_rand p = true -> forall k c, (forall i, (o_calls (c_s c) <= i < o_calls (c_s c) + k)%nat -> isRecoverable (n_st (ans i)) = true) ->
  exists c', cost_loop ans p k c = Ok c'.
Proof.
  intros M. induction k as [|k IH]; intros c R; [eexists; reflexivity|]. cbn [cost_loop]. rewrite M. cbn [negb]. unfold solveAndCheckErrors at 1.
  destruct (o_abort (c_s c)).
  - cbn [bind]. apply IH. cbn [c_s]. intros i I. apply R. lia.
  - rewrite (R (o_calls (c_s c))) by lia. cbn [negb bind]. apply IH. cbn. intros i I. apply R. lia.
Qed.

Definition nfail (l : list answer) : nat := length (filter (fun a => abandoned_st (n_st a)) l).
Definition ninf (l : list answer) : nat := length (filter (fun a => st_eqb (n_st a) provenInfeasible) l).
Definition osum (l : list answer) : Q := qsum (map (fun a => if opt_st (n_st a) then n_obj a else 0) l).
Lemma cost_loop_abort : forall k c c', cost_loop ans p k c = Ok c' -> o_abort (c_s c) = true -> o_abort (c_s c') = true.
Proof.
  induction k as [|k IH]; intros c c' H A; cbn [cost_loop] in H; [injection H as <-; exact A|].
  destruct (m_rand p); cbn [negb] in H; [|discriminate]. apply bind_ok in H. destruct H as (s & E & H). apply IH in H; [exact H|]. cbn [c_s]. exact (solve_abort_up _ _ E A).
Qed.
Lemma abandoned_not_inf s : abandoned_st s = true -> st_eqb s provenInfeasible = false.
Proof. destruct s; cbv; congruence. Qed.
Lemma cost_counts : forall k c c', cost_loop ans p k c = Ok c' -> o_pret (c_s c) = false -> o_abort (c_s c') = false ->
  let l := calls ans (o_calls (c_s c)) k in
  c_fail c' = (c_fail c + nfail l)%nat /\ c_inf c' = (c_inf c + ninf l)%nat /\ c_mean c' == c_mean c + osum l /\
  c_of c' = c_of c ++ map (fun a => if opt_st (n_st a) then n_obj a else 0) l.
Proof.
  induction k as [|k IH]; intros c c' H P A.
  - cbn in H. injection H as <-. cbn. rewrite !Nat.add_0_r, app_nil_r. repeat split; auto. unfold osum. cbn. lra.
  - cbn [cost_loop] in H. destruct (m_rand p); cbn [negb] in H; [|discriminate]. apply bind_ok in H. destruct H as (s & E & H). cbv zeta in H.
    pose proof (cost_loop_abort _ _ _ H) as AB. cbn [c_s] in AB.
    destruct (solve_spec _ _ E) as [[A' ->]|(A' & R & HS & C1 & C2 & C3 & C4 & C5 & C6 & C7 & C8)]; [specialize (AB A'); congruence|].
    apply IH in H; [|cbn [c_s]; congruence|exact A]. cbv zeta in H. cbn [c_s c_fail c_inf c_mean c_of] in H. rewrite C1 in H. rewrite calls_S. destruct H as (H1 & H2 & H3 & H4).
    destruct HS as (S1 & S2 & S3 & S4). unfold isAbandoned, isProvenPrimalInfeasible, isProvenOptimal in *. rewrite C3, P, S1, S2 in *.
    unfold nfail, ninf, osum in *. cbn [filter map].
    split; [rewrite H1; destruct (abandoned_st _); cbn [length]; lia|].
    split; [rewrite H2; destruct (abandoned_st (n_st (ans (o_calls (c_s c))))) eqn:AB1; [rewrite (abandoned_not_inf _ AB1); lia|]; destruct (st_eqb _ _); cbn [length]; lia|].
    split; [rewrite H3; cbn; destruct (opt_st _); cbn; lra|].
    rewrite H4, <- app_assoc. reflexivity.
Qed.
Lemma new_decr_sum m m' of d : m == m' -> match new_decr p m of d, new_decr p m' of d with DecNum a, DecNum b => a == b | DecNaN, DecNaN => True | _, _ => False end.
Proof.
  intros E. unfold new_decr. destruct d as [|d]; [exact Logic.I|]. cbv zeta.
  set (dq := inject_Z (Z.of_nat (S d))).
  assert (ME : m / dq == m' / dq) by (rewrite E; reflexivity).
  set (a := m / dq) in *. set (b := m' / dq) in *.
  assert (VE : qsum (map (fun v => if Qeq_bool v 0 then 0 else (v - a) * (v - a)) of) == qsum (map (fun v => if Qeq_bool v 0 then 0 else (v - b) * (v - b)) of)).
  { clear -ME. induction of as [|v of IH]; cbn; [reflexivity|]. rewrite IH. destruct (Qeq_bool v 0); [reflexivity|]. rewrite ME. reflexivity. }
  set (va := qsum (map (fun v => if Qeq_bool v 0 then 0 else (v - a) * (v - a)) of)) in *.
  set (vb := qsum (map (fun v => if Qeq_bool v 0 then 0 else (v - b) * (v - b)) of)) in *.
  assert (DE : va / dq == vb / dq) by (rewrite VE; reflexivity).
  assert (X : forall u v u' v', u == u' -> v == v' -> Qltb u v = Qltb u' v').
  { intros u v u' v' E1 E2. destruct (Qltb u v) eqn:L1; destruct (Qltb u' v') eqn:L2; auto;
    [apply Qltb_lt in L1; apply Qltb_ge in L2|apply Qltb_ge in L1; apply Qltb_lt in L2]; exfalso; lra. }
  rewrite (X a 0 b 0 ME), (X 0 a 0 b), (X (va / dq) ((1 # 100) * (a * a)) (vb / dq) ((1 # 100) * (b * b)) DE); try reflexivity; try assumption.
  - destruct (_ || _)%bool; rewrite ME; reflexivity.
  - rewrite ME. reflexivity.
Qed.
Lemma resolveForCost_decr k s s' : resolveForCost ans p k s = Ok s' -> o_pret s = false -> o_abort s' = false ->
  match k with
  | O => o_decr s' = o_decr s
  | _ => let l := calls ans (o_calls s) k in
         if m_dyn p then match o_decr s', new_decr p (osum l) (map (fun a => if opt_st (n_st a) then n_obj a else 0) l) (k - nfail l - ninf l) with
                         | DecNum a, DecNum b => a == b | DecNaN, DecNaN => True | _, _ => False end
         else o_decr s' = o_decr s
  end.
Proof.
  intros H P A. unfold resolveForCost in H. apply bind_ok in H. destruct H as (c & E & H).
  assert (A2 : o_abort (c_s c) = false) by (injection H as <-; exact A).
  pose proof (cost_counts _ _ _ E P A2) as (C1 & C2 & C3 & C4). cbn in C1, C2, C3, C4.
  assert (D : o_decr (c_s c) = o_decr s).
  { clear -E. revert E. set (c0 := mkCost _ _ _ _ _ _ _ _ _). replace (o_decr s) with (o_decr (c_s c0)) by reflexivity. generalize c0. clear c0.
    induction k as [|k IH]; intros c0 E; [injection E as <-; reflexivity|]. cbn [cost_loop] in E. destruct (m_rand p); cbn [negb] in E; [|discriminate].
    apply bind_ok in E. destruct E as (t & E1 & E). apply IH in E. cbn [c_s] in E. rewrite E. exact (solve_decr _ _ E1). }
  injection H as <-. cbn [o_decr].
  destruct k as [|k]; [exact D|]. cbv zeta. destruct (m_dyn p); [|exact D].
  rewrite C1, C2, C4. apply new_decr_sum. rewrite C3. lra.
Qed.

(** ** Robustness restarts *)
Definition afail (a : answer) : bool := abandoned_st (n_st a).
Lemma solve_live s s' : solve s = Ok s' -> o_abort s' = false -> o_abort s = false /\ holds_answer (ans (o_calls s)) s' /\ o_calls s' = S (o_calls s) /\ o_pret s' = o_pret s.
Proof.
  intros H A. destruct (solve_spec _ _ H) as [[A' ->]|(A' & R & HS & C1 & C2 & C3 & _)]; [congruence|]. auto.
Qed.
Lemma robust_loop_spec : forall k s s', robust_loop ans p k s = Ok s' -> o_abort s' = false ->
  o_abort s = false /\
  ((exists j, (j < k)%nat /\ o_calls s' = (o_calls s + S j)%nat /\ o_pret s' = o_pret s /\ isAbandoned s' = false /\
      holds_answer (ans (o_calls s + j)) s' /\ (o_pret s = false -> afail (ans (o_calls s + j)) = false) /\ forall i, (i < j)%nat -> afail (ans (o_calls s + i)) = true) \/
   (m_pfi p <> 0%nat /\ o_calls s' = (o_calls s + k)%nat /\ o_pret s' = true /\ forall i, (i < k)%nat -> afail (ans (o_calls s + i)) = true)).
Proof.
  induction k as [|k IH]; intros s s' H A.
  - cbn in H. unfold give_up in H. destruct (m_pfi p) as [|k0] eqn:M; [discriminate|]. injection H as <-. cbn in *. split; [exact A|]. right.
    split; [discriminate|]. split; [lia|]. split; [reflexivity|]. intros i Hi. lia.
  - cbn [robust_loop] in H. destruct (m_rand p); cbn [negb] in H; [|discriminate]. apply bind_ok in H. destruct H as (t & E & H).
    destruct (isAbandoned t) eqn:AB; cbn [negb] in H.
    + apply IH in H; [|exact A]. destruct H as (A1 & H). destruct (solve_live _ _ E A1) as (A2 & HS & C & PR). split; [exact A2|].
      assert (F0 : afail (ans (o_calls s)) = true /\ o_pret s = false).
      { unfold isAbandoned in AB. destruct (o_pret t) eqn:PT; [discriminate|]. destruct HS as (S1 & _). unfold afail. rewrite <- S1. split; [exact AB|congruence]. }
      destruct F0 as [F0 P0].
      destruct H as [(j & J1 & J2 & J3 & J4 & J5 & J6 & J7)|(J1 & J2 & J3 & J4)].
      * left. exists (S j). split; [lia|]. split; [lia|]. split; [congruence|]. split; [exact J4|].
        replace (o_calls s + S j)%nat with (o_calls t + j)%nat by lia. split; [exact J5|]. split; [intros _; apply J6; congruence|].
        intros [|i] Hi; [rewrite Nat.add_0_r; exact F0|]. replace (o_calls s + S i)%nat with (o_calls t + i)%nat by lia. apply J7. lia.
      * right. split; [exact J1|]. split; [lia|]. split; [exact J3|].
        intros [|i] Hi; [rewrite Nat.add_0_r; exact F0|]. replace (o_calls s + S i)%nat with (o_calls t + i)%nat by lia. apply J4. lia.
    + injection H as <-. destruct (solve_live _ _ E A) as (A2 & HS & C & PR). split; [exact A2|]. left. exists 0%nat.
      split; [lia|]. split; [lia|]. split; [exact PR|]. split; [exact AB|]. rewrite Nat.add_0_r. split; [exact HS|]. split; [|intros i Hi; lia].
      intros P0. unfold isAbandoned in AB. rewrite PR, P0 in AB. destruct HS as (S1 & _). unfold afail. rewrite <- S1. exact AB.
Qed.
Lemma robust_spec k s s' : resolveForRobustness ans p k s = Ok s' -> o_abort s' = false ->
  o_abort s = false /\
  ((exists j, (j <= k)%nat /\ o_calls s' = (o_calls s + S j)%nat /\ o_pret s' = o_pret s /\ isAbandoned s' = false /\
      holds_answer (ans (o_calls s + j)) s' /\ (o_pret s = false -> afail (ans (o_calls s + j)) = false) /\ forall i, (i < j)%nat -> afail (ans (o_calls s + i)) = true) \/
   (m_pfi p <> 0%nat /\ o_calls s' = (o_calls s + S k)%nat /\ o_pret s' = true /\ forall i, (i <= k)%nat -> afail (ans (o_calls s + i)) = true)).
Proof.
  intros H A. unfold resolveForRobustness in H. apply bind_ok in H. destruct H as (t & E & H).
  destruct (isAbandoned t) eqn:AB; cbn [negb] in H.
  - apply robust_loop_spec in H; [|exact A]. destruct H as (A1 & H). destruct (solve_live _ _ E A1) as (A2 & HS & C & PR). cbn in A2, HS, C, PR. split; [exact A2|].
    assert (F0 : afail (ans (o_calls s)) = true /\ o_pret s = false).
    { unfold isAbandoned in AB. destruct (o_pret t) eqn:PT; [discriminate|]. destruct HS as (S1 & _). unfold afail. rewrite <- S1. split; [exact AB|congruence]. }
    destruct F0 as [F0 P0].
    destruct H as [(j & J1 & J2 & J3 & J4 & J5 & J6 & J7)|(J1 & J2 & J3 & J4)].
    + left. exists (S j). split; [lia|]. split; [lia|]. split; [congruence|]. split; [exact J4|].
      replace (o_calls s + S j)%nat with (o_calls t + j)%nat by lia. split; [exact J5|]. split; [intros _; apply J6; congruence|].
      intros [|i] Hi; [rewrite Nat.add_0_r; exact F0|]. replace (o_calls s + S i)%nat with (o_calls t + i)%nat by lia. apply J7. lia.
    + right. split; [exact J1|]. split; [lia|]. split; [exact J3|].
      intros [|i] Hi; [rewrite Nat.add_0_r; exact F0|]. replace (o_calls s + S i)%nat with (o_calls t + i)%nat by lia. apply J4. lia.
  - injection H as <-. destruct (solve_live _ _ E A) as (A2 & HS & C & PR). cbn in A2, HS, C, PR. split; [exact A2|]. left. exists 0%nat.
    split; [lia|]. split; [lia|]. split; [exact PR|]. split; [exact AB|]. rewrite Nat.add_0_r. split; [exact HS|]. split; [|intros i Hi; lia].
    intros P0. unfold isAbandoned in AB. rewrite PR, P0 in AB. destruct HS as (S1 & _). unfold afail. rewrite <- S1. exact AB.
Qed.
(** With the stop option, a solve all of whose calls fail throws. *)
Lemma robust_loop_thrown : m_pfi p = 0%nat -> forall k s, o_pret s = false -> o_abort s = false ->
  (forall i, (i < k)%nat -> afail (ans (o_calls s + i)) = true /\ n_abort (ans (o_calls s + i)) = false) -> robust_loop ans p k s = Thrown.
Proof.
  intros M. induction k as [|k IH]; intros s P A F; [cbn; unfold give_up; rewrite M; reflexivity|].
  cbn [robust_loop]. destruct (m_rand p); [|reflexivity]. cbn [negb]. unfold solveAndCheckErrors. rewrite A.
  destruct (isRecoverable _); [|reflexivity]. cbn [negb bind].
  destruct (F 0%nat) as [F1 F2]; [lia|]. rewrite Nat.add_0_r in F1, F2. unfold isAbandoned. cbn [o_pret o_st]. rewrite P. unfold afail in F1. rewrite F1. cbn [negb].
  apply IH; cbn; auto. intros i Hi. replace (S (o_calls s + i)) with (o_calls s + S i)%nat by lia. apply F. lia.
Qed.

(** ** One operation *)
Lemma end_solve_frame s : o_pret (end_solve p s) = o_pret s /\ o_abort (end_solve p s) = o_abort s /\ o_calls (end_solve p s) = o_calls s /\
  o_st (end_solve p s) = o_st s /\ o_obj (end_solve p s) = o_obj s /\ o_x (end_solve p s) = o_x s /\ o_du (end_solve p s) = o_du s.
Proof. unfold end_solve. destruct (_ && _)%bool; cbn; repeat split; reflexivity. Qed.
Lemma cost_status k s s' q : o_obj s = Fin q -> resolveForCost ans p k s = Ok s' -> abandoned_st (o_st s) = false -> abandoned_st (o_st s') = false.
Proof.
  intros Q H N. destruct (resolveForCost_spec _ _ _ _ Q H) as (j & _ & _ & _ & [(a & (_ & B & _) & (S1 & _))|(_ & S1 & _)] & _).
  - rewrite S1. destruct B as [-> | ->]; reflexivity.
  - rewrite S1. exact N.
Qed.
(** Every call of the operation and what it leaves, when no interrupt arrives. *)
Definition op_spec (s s' : itf) : Prop :=
  (o_pret s' = o_pret s /\ (o_pret s = false -> abandoned_st (o_st s') = false)) \/
  (m_pfi p <> 0%nat /\ o_pret s' = true /\ o_calls s' = (o_calls s + (2 + m_retryUnsolved p))%nat /\
   forall i, (0 < i < 2 + m_retryUnsolved p)%nat -> afail (ans (o_calls s + i)) = true).
Lemma isAb_pret s : o_pret s = false -> isAbandoned s = abandoned_st (o_st s).
Proof. unfold isAbandoned. intros ->. reflexivity. Qed.
Lemma after_robust s t s' : solve (set_warm false s) = Ok t -> resolveForRobustness ans p (m_retryUnsolved p) t = Ok s' -> o_abort s' = false -> op_spec s s'.
Proof.
  intros E H A. destruct (robust_spec _ _ _ H A) as (A1 & R). destruct (solve_live _ _ E A1) as (A2 & HS & C & PR). cbn in *.
  destruct R as [(j & J1 & J2 & J3 & J4 & J5 & J6 & J7)|(J1 & J2 & J3 & J4)].
  - left. split; [congruence|]. intros P. rewrite <- (isAb_pret s') by congruence. exact J4.
  - right. split; [exact J1|]. split; [exact J3|]. split; [lia|]. intros i Hi. replace (o_calls s + i)%nat with (o_calls t + (i - 1))%nat by lia. apply J4. lia.
Qed.
Lemma op_spec_eq s a b : o_pret a = o_pret b -> o_calls a = o_calls b -> o_st a = o_st b -> op_spec s a -> op_spec s b.
Proof. unfold op_spec. intros -> -> ->. tauto. Qed.
Lemma initial_spec s s' : initialSolve ans p s = Ok s' -> o_abort s' = false -> op_spec s s'.
Proof.
  intros H A. unfold initialSolve in H. destruct (o_abort s) eqn:A0; [injection H as <-; congruence|].
  apply bind_ok in H. destruct H as (t & E & H). destruct (o_abort t) eqn:A1; [injection H as <-; congruence|].
  destruct (solve_live _ _ E A1) as (A2 & HS & C & PR). cbn in HS, C, PR.
  apply bind_ok in H. destruct H as (u & EU & H). injection H as <-.
  destruct (end_solve_frame (mkItf (o_st u) (o_obj u) (o_x u) (o_du u) (o_pret u) (o_cont u) false (o_retryInit u) (o_warm u) (o_decr u) (o_calls u) (o_abort u))) as (F1 & F2 & F3 & F4 & _). cbn [o_pret o_abort o_calls o_st] in F1, F2, F3, F4.
  apply (op_spec_eq s u); [congruence|congruence|congruence|].
  assert (AU : o_abort u = false) by congruence.
  destruct (isAbandoned t) eqn:AB; cbn [orb] in EU; [exact (after_robust _ _ _ E EU AU)|].
  destruct (_ && _)%bool; [exact (after_robust _ _ _ E EU AU)|].
  assert (NT : o_pret t = false -> abandoned_st (o_st t) = false) by (intros P; rewrite <- (isAb_pret t P); exact AB).
  destruct HS as (S1 & S2 & S3 & S4).
  destruct (if o_first t then _ else _) as [|k].
  - injection EU as <-. left. split; [exact PR|]. intros P. apply NT. congruence.
  - apply bind_ok in EU. destruct EU as (v & EV & EU). injection EU as <-. left. cbn.
    destruct (resolveForCost_spec _ _ _ _ S2 EV) as (j & _ & _ & _ & _ & P1 & _). split; [congruence|].
    intros P. apply (cost_status _ _ _ _ S2 EV). apply NT. congruence.
Qed.
Lemma resolve_spec s s' : resolve ans p s = Ok s' -> o_abort s' = false -> op_spec s s'.
Proof.
  intros H A. unfold resolve in H. destruct (o_abort s) eqn:A0; [injection H as <-; congruence|].
  destruct (o_warm s); cbn [negb] in H; [|exact (initial_spec _ _ H A)].
  apply bind_ok in H. destruct H as (t & E & H). apply bind_ok in H. destruct H as (u & EU & H). injection H as <-.
  destruct (end_solve_frame u) as (F1 & F2 & F3 & F4 & _).
  apply (op_spec_eq s u); [congruence|congruence|congruence|].
  assert (AU : o_abort u = false) by congruence.
  destruct (isAbandoned t) eqn:AB; cbn [orb] in EU; [exact (after_robust _ _ _ E EU AU)|].
  destruct (_ && _)%bool; [exact (after_robust _ _ _ E EU AU)|].
  destruct (_ || _)%bool.
  - destruct (solve_spec _ _ E) as [[A1 HT]|(A1 & R & HS & C1 & C2 & PR & _)]; [cbn in A1; congruence|]. destruct HS as (S1 & S2 & S3 & S4). cbn in PR.
    destruct (resolveForCost_spec _ _ _ _ S2 EU) as (j & _ & _ & _ & _ & P1 & _). left. split; [congruence|].
    intros P. apply (cost_status _ _ _ _ S2 EU). rewrite <- (isAb_pret t); [exact AB|congruence].
  - injection EU as <-. destruct (solve_live _ _ E AU) as (_ & HS & C & PR). cbn in PR. left. split; [exact PR|].
    intros P. rewrite <- (isAb_pret t); [exact AB|congruence].
Qed.
Lemma istep_spec o s s' : istep ans p o s = Ok s' -> o_abort s' = false -> op_spec s s'.
Proof. destruct o; [apply initial_spec|apply resolve_spec]. Qed.

(** pretendSucceededNext_ is never cleared and needs a tolerant option, whatever the interrupts. *)
Lemma cost_pret k s s' : resolveForCost ans p k s = Ok s' -> o_pret s' = o_pret s.
Proof.
  intros H. unfold resolveForCost in H. apply bind_ok in H. destruct H as (c & E & H). injection H as <-. cbn [o_pret].
  change (o_pret s) with (o_pret (c_s (mkCost (set_warm false s) (if isProvenOptimal (set_warm false s) then o_obj (set_warm false s) else PInf)
     (o_x (set_warm false s)) (o_du (set_warm false s)) (o_st (set_warm false s)) 0 0 0 []))).
  revert E. generalize (mkCost (set_warm false s) (if isProvenOptimal (set_warm false s) then o_obj (set_warm false s) else PInf)
     (o_x (set_warm false s)) (o_du (set_warm false s)) (o_st (set_warm false s)) 0 0 0 []).
  induction k as [|k IH]; intros c0 E; [injection E as <-; reflexivity|]. cbn [cost_loop] in E. destruct (m_rand p); cbn [negb] in E; [|discriminate].
  apply bind_ok in E. destruct E as (t & E1 & E). apply IH in E. cbn [c_s] in E. rewrite E. exact (solve_pret _ _ E1).
Qed.
Lemma robust_loop_pret : forall k s s', robust_loop ans p k s = Ok s' -> o_pret s' = o_pret s \/ (o_pret s' = true /\ m_pfi p <> 0%nat).
Proof.
  induction k as [|k IH]; intros s s' H.
  - cbn in H. unfold give_up in H. destruct (m_pfi p); [discriminate|]. injection H as <-. right. cbn. auto.
  - cbn [robust_loop] in H. destruct (m_rand p); cbn [negb] in H; [|discriminate]. apply bind_ok in H. destruct H as (t & E & H). pose proof (solve_pret _ _ E) as P.
    destruct (negb (isAbandoned t)); [injection H as <-; auto|]. apply IH in H. rewrite <- P. exact H.
Qed.
Lemma robust_pret k s s' : resolveForRobustness ans p k s = Ok s' -> o_pret s' = o_pret s \/ (o_pret s' = true /\ m_pfi p <> 0%nat).
Proof.
  intros H. unfold resolveForRobustness in H. apply bind_ok in H. destruct H as (t & E & H). pose proof (solve_pret _ _ E) as P. cbn in P.
  destruct (negb (isAbandoned t)); [injection H as <-; auto|]. apply robust_loop_pret in H. rewrite <- P. exact H.
Qed.
Lemma initial_pret s s' : initialSolve ans p s = Ok s' -> o_pret s' = o_pret s \/ (o_pret s' = true /\ m_pfi p <> 0%nat).
Proof.
  intros H. unfold initialSolve in H. destruct (o_abort s) eqn:A0; [injection H as <-; auto|].
  apply bind_ok in H. destruct H as (t & E & H). pose proof (solve_pret _ _ E) as P. cbn in P. destruct (o_abort t) eqn:A1; [injection H as <-; auto|].
  apply bind_ok in H. destruct H as (u & EU & H). injection H as <-.
  destruct (end_solve_frame (mkItf (o_st u) (o_obj u) (o_x u) (o_du u) (o_pret u) (o_cont u) false (o_retryInit u) (o_warm u) (o_decr u) (o_calls u) (o_abort u))) as (F1 & _). rewrite F1. cbn [o_pret]. rewrite <- P.
  destruct (_ || _)%bool; [exact (robust_pret _ _ _ EU)|]. destruct (if o_first t then _ else _) as [|k]; [injection EU as <-; auto|].
  apply bind_ok in EU. destruct EU as (v & EV & EU). injection EU as <-. left. exact (cost_pret _ _ _ EV).
Qed.
Lemma istep_pret o s s' : istep ans p o s = Ok s' -> o_pret s' = o_pret s \/ (o_pret s' = true /\ m_pfi p <> 0%nat).
Proof.
  destruct o; [apply initial_pret|]. cbn [istep]. unfold resolve. intros H. destruct (o_abort s) eqn:A0; [injection H as <-; auto|].
  destruct (o_warm s); cbn [negb] in H; [|exact (initial_pret _ _ H)].
  apply bind_ok in H. destruct H as (t & E & H). apply bind_ok in H. destruct H as (u & EU & H). injection H as <-.
  destruct (end_solve_frame u) as (F1 & _). rewrite F1. pose proof (solve_pret _ _ E) as P. cbn in P. rewrite <- P.
  destruct (_ || _)%bool; [exact (robust_pret _ _ _ EU)|]. destruct (_ || _)%bool; [left; exact (cost_pret _ _ _ EU)|injection EU as <-; auto].
Qed.
Lemma irun_pret : forall os s s', irun ans p os s = Ok s' -> (m_pfi p = 0%nat -> o_pret s' = o_pret s) /\ (o_pret s = true -> o_pret s' = true).
Proof.
  induction os as [|o os IH]; intros s s' H; [injection H as <-; auto|]. cbn in H. apply bind_ok in H. destruct H as (t & E & H).
  destruct (IH _ _ H) as [I1 I2]. destruct (istep_pret _ _ _ E) as [P|[P M]].
  - split; [intros M; rewrite I1 by exact M; exact P|intros T; apply I2; congruence].
  - split; [intros M'; contradiction|auto].
Qed.
Lemma istep_thrown o s : m_pfi p = 0%nat -> o_pret s = false -> o_abort s = false ->
  (forall i, (i < 2 + m_retryUnsolved p)%nat -> afail (ans (o_calls s + i)) = true /\ n_abort (ans (o_calls s + i)) = false) ->
  istep ans p o s = Thrown.
Proof.
  intros M P A F.
  assert (R : forall t, o_calls t = S (o_calls s) -> o_pret t = false -> o_abort t = false -> resolveForRobustness ans p (m_retryUnsolved p) t = Thrown).
  { intros t C PT AT. unfold resolveForRobustness, solveAndCheckErrors. cbn [o_abort set_warm o_calls]. rewrite AT.
    destruct (isRecoverable _); [|reflexivity]. cbn [negb bind]. destruct (F 1%nat) as [F1 F2]; [lia|]. replace (o_calls s + 1)%nat with (o_calls t) in F1, F2 by lia.
    unfold isAbandoned. cbn [o_pret o_st set_warm]. rewrite PT. unfold afail in F1. rewrite F1. cbn [negb]. apply robust_loop_thrown; auto.
    intros i Hi. cbn. replace (S (o_calls t + i)) with (o_calls s + S (S i))%nat by lia. apply F. lia. }
  assert (I : initialSolve ans p s = Thrown).
  { unfold initialSolve. rewrite A. unfold solveAndCheckErrors. cbn [o_abort set_warm o_calls]. rewrite A. destruct (isRecoverable _); [|reflexivity]. cbn [negb bind o_abort].
    destruct (F 0%nat) as [F1 F2]; [lia|]. rewrite Nat.add_0_r in F1, F2. rewrite F2. unfold isAbandoned at 1. cbn [o_pret o_st set_warm]. rewrite P. unfold afail in F1. rewrite F1. cbn [orb].
    rewrite R; [reflexivity|reflexivity|first [exact P|reflexivity]|first [exact F2|reflexivity]]. }
  destruct o; [exact I|]. cbn [istep]. unfold resolve. rewrite A. destruct (o_warm s); [|exact I]. cbn [negb].
  unfold solveAndCheckErrors. cbn [o_abort set_warm o_calls]. rewrite A. destruct (isRecoverable _); [|reflexivity]. cbn [negb bind o_abort].
  destruct (F 0%nat) as [F1 F2]; [lia|]. rewrite Nat.add_0_r in F1, F2. unfold isAbandoned at 1. cbn [o_pret o_st set_warm]. rewrite P. unfold afail in F1. rewrite F1. cbn [orb].
  rewrite R; [reflexivity|reflexivity|first [exact P|reflexivity]|first [exact F2|reflexivity]].
Qed.

(** ** Copies *)
Lemma robust_loop_abort : forall k s s', robust_loop ans p k s = Ok s' -> o_abort s = true -> o_abort s' = true.
Proof.
  induction k as [|k IH]; intros s s' H A; cbn [robust_loop] in H.
  - unfold give_up in H. destruct (m_pfi p); [discriminate|]. injection H as <-. exact A.
  - destruct (m_rand p); cbn [negb] in H; [|discriminate]. apply bind_ok in H. destruct H as (t & E & H). pose proof (solve_abort_up _ _ E A) as AT.
    destruct (negb _); [injection H as <-; exact AT|exact (IH _ _ H AT)].
Qed.
Lemma istep_abort o s s' : istep ans p o s = Ok s' -> o_abort s = true -> o_abort s' = true.
Proof.
  intros H A. destruct o; cbn [istep] in H; [unfold initialSolve in H|unfold resolve in H]; rewrite A in H; injection H as <-; exact A.
Qed.
Lemma jrun_app : forall a b s, jrun ans p (a ++ b) s = (do t <- jrun ans p a s; jrun ans p b t).
Proof. induction a as [|o a IH]; intros b s; [reflexivity|]. cbn. destruct (jstep ans p o s); cbn; auto. Qed.
Lemma jrun_abort : forall os s s', jrun ans p os s = Ok s' -> o_abort (j_itf s) = true -> o_abort (j_itf s') = true.
Proof.
  induction os as [|o os IH]; intros s s' H A; [injection H as <-; exact A|]. cbn in H. apply bind_ok in H. destruct H as (t & E & H). apply (IH _ _ H).
  destruct o as [o|j]; cbn in E; [|injection E as <-; exact A]. apply bind_ok in E. destruct E as (u & E & E2). injection E2 as <-. cbn. exact (istep_abort _ _ _ E A).
Qed.
Lemma query_iff os i0 s : jrun ans p os (mkObj i0 false) = Ok s -> o_abort (j_itf s) = false ->
  ((exists b, q_optimal s = Ok b) <-> exists os' o, os = os' ++ [JSolve o]).
Proof.
  destruct (rev os) as [|o r] eqn:R.
  - apply (f_equal (@rev jop)) in R. rewrite rev_involutive in R. subst os. cbn. intros H _. injection H as <-. split; [intros (b & H); discriminate|].
    intros (os' & o & H). destruct os'; discriminate.
  - apply (f_equal (@rev jop)) in R. rewrite rev_involutive in R. cbn in R. subst os. rewrite jrun_app. intros H A. apply bind_ok in H. destruct H as (t & H1 & H2). cbn in H2.
    apply bind_ok in H2. destruct H2 as (u & H2 & H3). injection H3 as <-.
    destruct o as [o|j]; cbn in H2.
    + apply bind_ok in H2. destruct H2 as (v & H2 & H3). injection H3 as <-. cbn in A. split; [intros _; eauto|]. intros _. unfold q_optimal. cbn.
      assert (AT : o_abort (j_itf t) = false). { destruct (o_abort (j_itf t)) eqn:E; [|reflexivity]. rewrite (istep_abort _ _ _ H2 E) in A. discriminate. }
      rewrite AT. cbn. rewrite orb_true_r. eauto.
    + injection H2 as <-. unfold q_optimal. cbn. split; [intros (b & H); discriminate|]. intros (os' & o & H). apply app_inj_tail in H. destruct H as [_ H]. discriminate.
Qed.
End S.
