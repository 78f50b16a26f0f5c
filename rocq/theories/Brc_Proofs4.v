(** Lemmas for pseudo-costs, strong branching, the choice and the linear relaxation. *)
From Verif Require Import Base Arr Itf_Model Oad_Model Oad_Proofs2 Brc_Model Brc_Spec Brc_Proofs Brc_Proofs2 Brc_Proofs3.
#[local] Open Scope Q_scope.

(** ** Pseudo-costs *)
Lemma nth_set {A} i v (l l' : list A) d : (forall j, nth_error l' j = if Nat.eqb j i then Some v else nth_error l j) ->
  forall j, nth j l' d = if Nat.eqb j i then v else nth j l d.
Proof.
  intros H j. specialize (H j). destruct (Nat.eqb j i).
  - exact (nth_error_nth _ _ d H).
  - destruct (nth_error l j) as [a|] eqn:E.
    + rewrite (nth_error_nth _ _ d H). symmetry. exact (nth_error_nth _ _ d E).
    + apply nth_error_None in H, E. rewrite !nth_overflow by assumption. reflexivity.
Qed.
Lemma put_cost_ok n up i d pc : pc_ok n pc -> (i < n)%nat ->
  exists pc', put_cost up i d pc = Ok pc' /\ pc_ok n pc' /\
    (forall up' j, total up' j pc' = if (Bool.eqb up' up && Nat.eqb j i)%bool then total up' j pc + d else total up' j pc) /\
    (forall up' j, number up' j pc' = if (Bool.eqb up' up && Nat.eqb j i)%bool then S (number up' j pc) else number up' j pc).
Proof.
  intros (L1 & L2 & L3 & L4) Hi. unfold put_cost. destruct up.
  - destruct (rd_lt i (p_ut pc)) as (t & -> & Nt); [lia|]. destruct (rd_lt i (p_un pc)) as (c & -> & Nc); [lia|]. cbn [bind].
    destruct (lset_get i (t + d) (p_ut pc)) as (T & -> & LT & GT); [lia|]. destruct (lset_get i (S c) (p_un pc)) as (C & -> & LC & GC); [lia|]. cbn [bind].
    eexists. split; [reflexivity|]. split; [repeat split; cbn; lia|]. split; intros [|] j; cbn [total number p_ut p_un p_dt p_dn Bool.eqb andb]; try reflexivity.
    + unfold total; cbn [p_ut]. rewrite (nth_set _ _ _ _ 0 GT j). destruct (Nat.eqb_spec j i); [|reflexivity]. subst j. rewrite (nth_error_nth _ _ 0 Nt). reflexivity.
    + unfold number; cbn [p_un]. rewrite (nth_set _ _ _ _ O GC j). destruct (Nat.eqb_spec j i); [|reflexivity]. subst j. rewrite (nth_error_nth _ _ O Nc). reflexivity.
  - destruct (rd_lt i (p_dt pc)) as (t & -> & Nt); [lia|]. destruct (rd_lt i (p_dn pc)) as (c & -> & Nc); [lia|]. cbn [bind].
    destruct (lset_get i (t + d) (p_dt pc)) as (T & -> & LT & GT); [lia|]. destruct (lset_get i (S c) (p_dn pc)) as (C & -> & LC & GC); [lia|]. cbn [bind].
    eexists. split; [reflexivity|]. split; [repeat split; cbn; lia|]. split; intros [|] j; cbn [total number p_ut p_un p_dt p_dn Bool.eqb andb]; try reflexivity.
    + unfold total; cbn [p_dt]. rewrite (nth_set _ _ _ _ 0 GT j). destruct (Nat.eqb_spec j i); [|reflexivity]. subst j. rewrite (nth_error_nth _ _ 0 Nt). reflexivity.
    + unfold number; cbn [p_dn]. rewrite (nth_set _ _ _ _ O GC j). destruct (Nat.eqb_spec j i); [|reflexivity]. subst j. rewrite (nth_error_nth _ _ O Nc). reflexivity.
Qed.
Lemma counted_not b : counted b = negb (Qltb (Qabs (b_dval b)) (1 # 1000000)).
Proof.
  unfold counted. destruct (Qltb _ _) eqn:E.
  - apply Qltb_lt in E. cbn. destruct (Qle_bool _ _) eqn:F; [|reflexivity]. apply Qle_bool_iff in F. lra.
  - apply Qltb_ge in E. apply Qle_bool_iff in E. exact E.
Qed.
Lemma updates_ok n : forall bs pc, Forall (obs_ok n) bs -> pc_ok n pc ->
  exists pc', updates true n bs pc = Ok pc' /\ pc_ok n pc' /\ forall up i, (i < n)%nat ->
    number up i pc' = (number up i pc + length (filter (fun b => about up i b && counted b)%bool bs))%nat /\
    total up i pc' == total up i pc + qsum (map contribution (filter (fun b => about up i b && counted b)%bool bs)).
Proof.
  induction bs as [|b bs IH]; intros pc H P.
  - exists pc. split; [reflexivity|]. split; [exact P|]. intros up i _. cbn. split; [lia|lra].
  - inversion H as [|? ? (O1 & O2 & O3) H2]; subst x l. cbn [updates].
    assert (St : exists pc1, update_branch true n b pc = Ok pc1 /\ pc_ok n pc1 /\
       (forall up i, total up i pc1 == if (about up i b && counted b)%bool then total up i pc + contribution b else total up i pc) /\
       (forall up i, number up i pc1 = if (about up i b && counted b)%bool then S (number up i pc) else number up i pc)).
    { unfold update_branch. cbn [negb]. replace (Nat.ltb (b_index b) n) with true by (symmetry; apply Nat.ltb_lt, O1).
      replace (Z.ltb (b_branch b) 2) with true by (symmetry; apply Z.ltb_lt, O2). cbn [chk bind].
      rewrite counted_not. destruct (Qltb (Qabs (b_dval b)) (1 # 1000000)); cbn [negb].
      - exists pc. split; [reflexivity|]. split; [exact P|]. split; intros; rewrite andb_false_r; reflexivity.
      - assert (K : forall d, d == contribution b -> exists pc1, put_cost (up_branch (b_branch b)) (b_index b) d pc = Ok pc1 /\ pc_ok n pc1 /\
           (forall up i, total up i pc1 == if (about up i b && true)%bool then total up i pc + contribution b else total up i pc) /\
           (forall up i, number up i pc1 = if (about up i b && true)%bool then S (number up i pc) else number up i pc)).
        { intros d Ed. destruct (put_cost_ok n (up_branch (b_branch b)) (b_index b) d pc P O1) as (pc1 & E1 & P1 & T1 & N1).
          exists pc1. split; [exact E1|]. split; [exact P1|].
          assert (X : forall up i, (Bool.eqb up (up_branch (b_branch b)) && Nat.eqb i (b_index b))%bool = (about up i b && true)%bool).
          { intros up i. unfold about, up_branch. rewrite andb_true_r, andb_comm, Nat.eqb_sym. reflexivity. }
          split; intros up i; rewrite <- X; [rewrite T1|rewrite N1; reflexivity].
          destruct (_ && _)%bool; [rewrite Ed; reflexivity|reflexivity]. }
        destruct (Z.eqb (b_status b) 1) eqn:S1.
        + apply K. unfold contribution. rewrite S1. unfold expensive, huge. destruct (b_cut b); reflexivity.
        + replace (Z.leb 0 (b_status b)) with true by (symmetry; apply Z.leb_le, O3). cbn [chk bind]. apply K. unfold contribution. rewrite S1. reflexivity. }
    destruct St as (pc1 & -> & P1 & T1 & N1). cbn [bind]. destruct (IH pc1 H2 P1) as (pc2 & E2 & P2 & R). exists pc2. split; [exact E2|]. split; [exact P2|].
    intros up i Hi. destruct (R up i Hi) as (R1 & R2). specialize (T1 up i). specialize (N1 up i). cbn [filter].
    destruct (about up i b && counted b)%bool; cbn [length map]; rewrite R1, N1.
    + split; [lia|]. rewrite R2, T1. cbn [qsum fold_right]. unfold qsum. cbn [fold_right]. lra.
    + split; [lia|]. rewrite R2, T1. reflexivity.
Qed.
Lemma qsum_nonneg l : Forall (fun v => 0 <= v) l -> 0 <= qsum l.
Proof. induction 1 as [|v l H _ IH]; unfold qsum in *; cbn [fold_right]; [lra|]. cbn beta in H. lra. Qed.
Lemma pc_init_zero n up i : total up i (pc_init n) = 0 /\ number up i (pc_init n) = O.
Proof. unfold total, number, pc_init. destruct up; cbn [p_ut p_dt p_un p_dn]; split; apply nth_repeat. Qed.
Lemma pc_init_ok n : pc_ok n (pc_init n).
Proof. unfold pc_ok, pc_init. cbn. rewrite !repeat_length. auto. Qed.

(** ** Strong branching *)
Lemma restore_same : forall s n, length n = length s -> same_bounds (restore s n) s.
Proof.
  induction s as [|[sl su] s IH]; intros [|[l u] n] H; try discriminate; [constructor|]. cbn [restore]. constructor; [|apply IH; cbn in H; lia].
  cbn [fst snd]. split.
  - destruct (Qeq_bool sl l) eqn:E; [apply Qeq_bool_iff in E; symmetry; exact E|reflexivity].
  - destruct (Qeq_bool su u) eqn:E; [apply Qeq_bool_iff in E; symmetry; exact E|reflexivity].
Qed.
Lemma same_refl b : same_bounds b b.
Proof. induction b; constructor; [split; reflexivity|assumption]. Qed.
Lemma same_trans a b c : same_bounds a b -> same_bounds b c -> same_bounds a c.
Proof.
  intros H. revert c. induction H as [|x y a b (E1 & E2) _ IH]; intros c H2; inversion H2 as [|? z ? c' (E3 & E4) H3]; subst; constructor; [|apply IH, H3].
  split; [rewrite E1; exact E3|rewrite E2; exact E4].
Qed.
Definition c_ok (n : nat) (c : cand) : Prop := (d_obj c < n)%nat /\ 0 < d_up c /\ 0 < d_dn c /\ forall up b, length (d_do c up b) = length b.

Lemma update_hot_ok q n cut up st ch c pc : c_ok n c -> pc_ok n pc -> exists pc', update_hot q n cut up st ch c pc = Ok pc' /\ pc_ok n pc'.
Proof.
  intros (C1 & C2 & C3 & _) P. unfold update_hot. destruct (q_trustPc q); cbn [negb]; [|exists pc; auto].
  replace (Nat.ltb (d_obj c) n) with true by (symmetry; apply Nat.ltb_lt, C1). apply Qltb_lt in C2, C3. rewrite C2, C3. cbn [andb chk bind].
  destruct (Z.eqb st 0).
  - destruct (put_cost_ok n up (d_obj c) (ch / (if up then d_up c else d_dn c)) pc P C1) as (pc' & E & P' & _). exists pc'. auto.
  - destruct (Z.eqb st 1); [|exists pc; auto].
    destruct (put_cost_ok n up (d_obj c) (expensive cut (q_orig q) / (if up then d_up c else d_dn c)) pc P C1) as (pc' & E & P' & _). exists pc'. auto.
Qed.
Lemma update_info_ok q n cut good up h c pc : c_ok n c -> pc_ok n pc ->
  exists ret st ch good' pc', update_info q n cut good up h c pc = Ok (ret, st, ch, good', pc') /\ pc_ok n pc' /\
    (st = 0%Z \/ st = 1%Z \/ st = 2%Z) /\
    (ret = st \/ (ret = 3%Z /\ st = 0%Z /\ q_trustSol q = true /\ good' = Fin (h_obj h) /\ h_opt h = true /\ h_feas h = true)) /\
    (st = 1%Z -> child_infeasible (q_trustBound q) cut h).
Proof.
  intros HC HP. unfold update_info.
  set (above := (q_trustBound q && Z.eqb (if h_opt h then 0%Z else if h_lim h then 2%Z else 1%Z) 0 && negb (ext_ltb (Fin (h_obj h)) cut))%bool).
  set (st := if above then 1%Z else if h_opt h then 0%Z else if h_lim h then 2%Z else 1%Z).
  set (sol := (Z.eqb st 0 && q_trustSol q && ext_ltb (Fin (h_obj h)) good && h_feas h)%bool).
  set (ch := if above then _ else _).
  destruct (update_hot_ok q n cut up st ch c pc HC HP) as (pc' & -> & P'). cbn [bind].
  assert (St : st = 0%Z \/ st = 1%Z \/ st = 2%Z) by (unfold st; destruct above, (h_opt h), (h_lim h); auto).
  assert (S1 : st = 1%Z -> h_opt h = false \/ (h_opt h = true /\ above = true)).
  { unfold st. destruct above eqn:A; [|destruct (h_opt h), (h_lim h); auto; discriminate].
    intros _. unfold above in A. apply andb_true_iff in A. destruct A as (A & _). apply andb_true_iff in A. destruct A as (_ & A). destruct (h_opt h); [right; auto|left; reflexivity]. }
  assert (So : sol = true -> st = 0%Z /\ q_trustSol q = true /\ h_opt h = true /\ h_feas h = true).
  { intros X. unfold sol in X. apply andb_true_iff in X. destruct X as (X & X4). apply andb_true_iff in X. destruct X as (X & X3).
    apply andb_true_iff in X. destruct X as (X1 & X2). apply Z.eqb_eq in X1. split; [exact X1|]. split; [exact X2|]. split; [|exact X4].
    unfold st in X1. destruct above; [discriminate|]. destruct (h_opt h), (h_lim h); try reflexivity; discriminate. }
  destruct (negb (h_inf h) && negb (h_opt h))%bool eqn:U1.
  - exists 2%Z, 2%Z. eexists _, _, pc'. split; [reflexivity|]. split; [exact P'|]. split; [auto|]. split; [left; reflexivity|discriminate].
  - destruct (h_inf h && Qltb (Qabs (h_obj h)) (1 # 1000000))%bool eqn:U2.
    + exists 2%Z, 2%Z. eexists _, _, pc'. split; [reflexivity|]. split; [exact P'|]. split; [auto|]. split; [left; reflexivity|discriminate].
    + eexists _, st, _, _, pc'. split; [reflexivity|]. split; [exact P'|]. split; [exact St|]. split.
      * destruct sol eqn:X; [|left; reflexivity]. destruct (So eq_refl) as (X1 & T & O & Fe). right. auto 6.
      * intros X. destruct (S1 X) as [O|(O & A)].
        -- left. split; [exact O|]. rewrite O, andb_true_r in U1. destruct (h_inf h); [reflexivity|discriminate].
        -- right. split; [exact O|]. unfold above in A. apply andb_true_iff in A. destruct A as (A & A2). apply andb_true_iff in A. destruct A as (A1 & _).
           split; [exact A1|]. apply negb_true_iff in A2. exact A2.
Qed.
Lemma one_side_ok q n up (slv : bounds -> child) c s : c_ok n c -> pc_ok n (v_pc s) -> q_dbg q = false ->
  exists st ch s', one_side q n up slv c s = Ok (st, st, ch, s') /\ same_bounds (v_b s') (v_b s) /\ pc_ok n (v_pc s') /\
    v_done s' = v_done s /\ v_fix s' = v_fix s /\ (st = 0%Z \/ st = 1%Z \/ st = 2%Z) /\
    (v_cut s' = v_cut s \/ (h_opt (slv (d_do c up (v_b s))) = true /\ h_feas (slv (d_do c up (v_b s))) = true /\ v_cut s' = Fin (h_obj (slv (d_do c up (v_b s)))))) /\
    (st = 1%Z -> child_infeasible (q_trustBound q) (v_cut s) (slv (d_do c up (v_b s)))).
Proof.
  intros HC HP HD. unfold one_side.
  destruct (update_info_ok q n (v_cut s) (v_good s) up (slv (d_do c up (v_b s))) c (v_pc s) HC HP) as (ret & st & ch & good & pc & -> & P1 & P2 & P3 & P4).
  cbn [bind]. rewrite HD. cbn [andb].
  assert (SB : same_bounds (if d_bound c then restore (v_b s) (d_do c up (v_b s)) else v_b s) (v_b s)).
  { destruct (d_bound c); [apply restore_same; apply HC|apply same_refl]. }
  destruct P3 as [->|(-> & -> & T & G & O & Fe)].
  - replace (Z.eqb st 3) with false by (symmetry; apply Z.eqb_neq; lia). cbn [andb]. eexists st, ch, _. split; [reflexivity|]. cbn [v_b v_pc v_done v_fix v_cut].
    split; [exact SB|]. split; [exact P1|]. split; [reflexivity|]. split; [reflexivity|]. split; [exact P2|]. split; [left; reflexivity|exact P4].
  - rewrite T. cbn [Z.eqb Pos.eqb andb]. eexists 0%Z, ch, _. split; [reflexivity|]. cbn [v_b v_pc v_done v_fix v_cut].
    split; [exact SB|]. split; [exact P1|]. split; [reflexivity|]. split; [reflexivity|]. split; [auto|]. split; [right; auto|exact P4].
Qed.

(** The return code after the candidates [rs]. *)
Fixpoint code (rc : Z) (rs : list hot) : Z :=
  match rs with
  | [] => rc
  | r :: rs' => code (if (Z.eqb (g_dst r) 1 && Z.eqb (g_ust r) 1)%bool then (-1)%Z else if (Z.eqb (g_dst r) 1 || Z.eqb (g_ust r) 1)%bool then 1%Z else rc) rs'
  end.
Definition clean (r : hot) : Prop := g_dst r = 0%Z /\ g_ust r = 0%Z.
Definition h_ok (r : hot) : Prop := (0 <= g_dst r)%Z /\ (0 <= g_ust r)%Z.
Lemma same_sym a b : same_bounds a b -> same_bounds b a.
Proof. induction 1 as [|x y a b (E1 & E2) _ IH]; constructor; [split; symmetry; assumption|exact IH]. Qed.

Lemma strong_ok q n (slv : nat -> bool -> bounds -> child) late b0 cut0 : q_dbg q = false ->
  forall cs i rc best trials rs s, Forall (c_ok n) cs -> pc_ok n (v_pc s) -> same_bounds (v_b s) b0 -> cut_from slv cut0 (v_cut s) ->
  (strong q n i slv late cs rc best trials rs s = AssertFail /\ q_isroot q = false /\ (0 < q_look q)%nat /\
     exists k, (k < length cs)%nat /\ late (i + k)%nat = false) \/
  exists rc' rs' s', strong q n i slv late cs rc best trials rs s = Ok (rc', rs ++ rs', s') /\
    same_bounds (v_b s') b0 /\ pc_ok n (v_pc s') /\ cut_from slv cut0 (v_cut s') /\
    map g_obj rs' = map d_obj (firstn (length rs') cs) /\ (length rs' <= length cs)%nat /\ Forall h_ok rs' /\
    (forall k r c, nth_error rs' k = Some r -> nth_error cs k = Some c -> status_means q slv b0 cut0 (i + k) c r) /\
    (forall k, (k < length rs')%nat -> late (i + k)%nat = true -> S k = length rs') /\
    (if match rs' with [] => false | _ => late (i + (length rs' - 1))%nat end then rc' = 3%Z
     else rc' = code rc rs' /\ (q_isroot q = true \/ q_look q = O -> length rs' = length cs) /\ (q_isroot q = false -> (0 < q_look q)%nat -> Forall clean rs')) /\
    v_done s' = (v_done s + length rs')%nat /\
    (q_isroot q = false -> (0 < q_look q)%nat -> forall k r, nth_error rs' k = Some r -> (S k < length rs')%nat -> clean r).
Proof.
  intros HD. induction cs as [|c cs IH]; intros i rc best trials rs s HC HP HB HCut.
  - right. exists rc, [], s. cbn [strong]. rewrite app_nil_r. split; [reflexivity|]. split; [exact HB|]. split; [exact HP|]. split; [exact HCut|].
    split; [reflexivity|]. split; [cbn; lia|]. split; [constructor|]. split; [intros [|k] r c X; discriminate|]. split; [cbn; lia|]. split; [cbn; auto|]. split; [cbn; lia|].
    intros _ _ [|k] r X; discriminate.
  - inversion HC as [|? ? C1 C2]; subst x l. cbn [strong].
    destruct (one_side_ok q n false (slv i false) c s C1 HP HD) as (d0 & ch0 & s1 & -> & B1 & P1 & D1 & F1 & V1 & K1 & M1). cbn [bind].
    destruct (one_side_ok q n true (slv i true) c s1 C1 P1 HD) as (d1 & ch1 & s2 & -> & B2 & P2 & D2 & F2 & V2 & K2 & M2). cbn [bind].
    set (r := {| g_obj := d_obj c; g_dst := d0; g_ust := d1; g_dch := ch0; g_uch := ch1 |}).
    set (rc1 := if (Z.eqb d0 1 && Z.eqb d1 1)%bool then (-1)%Z else if (Z.eqb d0 1 || Z.eqb d1 1)%bool then 1%Z else rc).
    set (s3 := {| v_b := v_b s2; v_cut := v_cut s2; v_good := v_good s2; v_pc := v_pc s2; v_done := S (v_done s2);
                  v_fix := if ((Z.eqb d0 1 || Z.eqb d1 1) && negb (Z.eqb d0 1 && Z.eqb d1 1))%bool then S (v_fix s2) else v_fix s2 |}).
    assert (HB1 : same_bounds (v_b s1) b0) by (eapply same_trans; eassumption).
    assert (HB3 : same_bounds (v_b s3) b0) by (cbn; eapply same_trans; eassumption).
    assert (HP3 : pc_ok n (v_pc s3)) by exact P2.
    assert (HC1 : cut_from slv cut0 (v_cut s1)).
    { destruct K1 as [->|(A1 & A2 & ->)]; [exact HCut|]. right. exists i, false, (d_do c false (v_b s)). auto. }
    assert (HC3 : cut_from slv cut0 (v_cut s3)).
    { cbn. destruct K2 as [->|(A1 & A2 & ->)]; [exact HC1|]. right. exists i, true, (d_do c true (v_b s1)). auto. }
    assert (Mr : status_means q slv b0 cut0 i c r).
    { intros [|] X; cbn in X.
      - exists (v_b s1), (v_cut s1). split; [exact HB1|]. split; [exact HC1|]. apply M2, X.
      - exists (v_b s), (v_cut s). split; [exact HB|]. split; [exact HCut|]. apply M1, X. }
    assert (Hr : h_ok r) by (split; cbn; lia).
    assert (Done : v_done s3 = (v_done s + 1)%nat) by (cbn; lia).
    (* continuing with the other candidates *)
    assert (Next : forall best' trials', late i = false -> (q_isroot q = false -> (0 < q_look q)%nat -> clean r) ->
      (strong q n (S i) slv late cs rc1 best' trials' (rs ++ [r]) s3 = AssertFail /\ q_isroot q = false /\ (0 < q_look q)%nat /\
        exists k, (k < length (c :: cs))%nat /\ late (i + k)%nat = false) \/
      exists rc' rs' s', strong q n (S i) slv late cs rc1 best' trials' (rs ++ [r]) s3 = Ok (rc', rs ++ rs', s') /\
    same_bounds (v_b s') b0 /\ pc_ok n (v_pc s') /\ cut_from slv cut0 (v_cut s') /\
    map g_obj rs' = map d_obj (firstn (length rs') (c :: cs)) /\ (length rs' <= length (c :: cs))%nat /\ Forall h_ok rs' /\
    (forall k r c', nth_error rs' k = Some r -> nth_error (c :: cs) k = Some c' -> status_means q slv b0 cut0 (i + k) c' r) /\
    (forall k, (k < length rs')%nat -> late (i + k)%nat = true -> S k = length rs') /\
    (if match rs' with [] => false | _ => late (i + (length rs' - 1))%nat end then rc' = 3%Z
     else rc' = code rc rs' /\ (q_isroot q = true \/ q_look q = O -> length rs' = length (c :: cs)) /\ (q_isroot q = false -> (0 < q_look q)%nat -> Forall clean rs')) /\
    v_done s' = (v_done s + length rs')%nat /\
    (q_isroot q = false -> (0 < q_look q)%nat -> forall k r, nth_error rs' k = Some r -> (S k < length rs')%nat -> clean r)).
    { intros best' trials' Li Cl. destruct (IH (S i) rc1 best' trials' (rs ++ [r]) s3 C2 HP3 HB3 HC3) as
        [(E & A1 & A2 & k & A3 & A4)|(rc' & rs' & s' & E & A1 & A2 & A3 & A4 & A5 & A6 & A7 & A8 & A9 & A10 & A11)].
      - left. split; [exact E|]. split; [exact A1|]. split; [exact A2|]. exists (S k). cbn [length]. split; [lia|]. rewrite <- A4. f_equal. lia.
      - right. exists rc', (r :: rs'), s'. split; [rewrite E, <- app_assoc; reflexivity|]. split; [exact A1|]. split; [exact A2|]. split; [exact A3|].
        split; [cbn [map length firstn]; f_equal; exact A4|]. split; [cbn [length]; lia|]. split; [constructor; assumption|]. split.
        { intros [|k] r' c' N1 N2; cbn in N1, N2.
          - injection N1 as <-. injection N2 as <-. rewrite Nat.add_0_r. exact Mr.
          - replace (i + S k)%nat with (S i + k)%nat by lia. exact (A7 k r' c' N1 N2). }
        split.
        { intros [|k] K La; [rewrite Nat.add_0_r in La; congruence|]. cbn [length] in *. f_equal. apply (A8 k); [lia|]. rewrite <- La. f_equal. lia. }
        split.
        { replace (match r :: rs' with [] => false | _ :: _ => late (i + (length (r :: rs') - 1))%nat end)
            with (match rs' with [] => false | _ => late (S i + (length rs' - 1))%nat end).
          - destruct (match rs' with [] => false | _ => late (S i + (length rs' - 1))%nat end); [exact A9|].
            destruct A9 as (B1' & B2' & B3'). split; [exact B1'|]. split; [intros X; cbn [length]; f_equal; apply B2', X|]. intros X1 X2. constructor; [apply Cl; assumption|auto].
          - destruct rs' as [|r2 rs2]; [cbn [length]; rewrite Nat.add_0_r; symmetry; exact Li|]. cbn [length]. f_equal. lia. }
        split; [cbn [length]; lia|]. intros X1 X2 [|k] r' N' K; [cbn in N'; injection N' as <-; apply Cl; assumption|].
        cbn in N'. cbn [length] in K. apply (A11 X1 X2 k r' N'). lia. }
    (* stopping here *)
    assert (Stop : forall rcs, (late i = true -> rcs = 3%Z) -> (late i = false -> rcs = rc1 /\ q_isroot q = false /\ (0 < q_look q)%nat /\ clean r) ->
      exists rc' rs' s', Ok (rcs, rs ++ [r], s3) = Ok (rc', rs ++ rs', s') /\
    same_bounds (v_b s') b0 /\ pc_ok n (v_pc s') /\ cut_from slv cut0 (v_cut s') /\
    map g_obj rs' = map d_obj (firstn (length rs') (c :: cs)) /\ (length rs' <= length (c :: cs))%nat /\ Forall h_ok rs' /\
    (forall k r c', nth_error rs' k = Some r -> nth_error (c :: cs) k = Some c' -> status_means q slv b0 cut0 (i + k) c' r) /\
    (forall k, (k < length rs')%nat -> late (i + k)%nat = true -> S k = length rs') /\
    (if match rs' with [] => false | _ => late (i + (length rs' - 1))%nat end then rc' = 3%Z
     else rc' = code rc rs' /\ (q_isroot q = true \/ q_look q = O -> length rs' = length (c :: cs)) /\ (q_isroot q = false -> (0 < q_look q)%nat -> Forall clean rs')) /\
    v_done s' = (v_done s + length rs')%nat /\
    (q_isroot q = false -> (0 < q_look q)%nat -> forall k r, nth_error rs' k = Some r -> (S k < length rs')%nat -> clean r)).
    { intros rcs H1 H2. exists rcs, [r], s3. split; [reflexivity|]. split; [exact HB3|]. split; [exact HP3|]. split; [exact HC3|].
      split; [reflexivity|]. split; [cbn [length]; lia|]. split; [constructor; [exact Hr|constructor]|]. split.
      { intros [|k] r' c' N1 N2; [|destruct k; discriminate]. cbn in N1, N2. injection N1 as <-. injection N2 as <-. rewrite Nat.add_0_r. exact Mr. }
      split; [cbn [length]; lia|]. split.
      { cbn [length Nat.sub]. rewrite Nat.add_0_r. destruct (late i) eqn:Li; [exact (H1 eq_refl)|]. destruct (H2 eq_refl) as (E1 & E2 & E3 & E4).
        split; [exact E1|]. split; [intros [X|X]; [congruence|lia]|]. intros _ _. constructor; [exact E4|constructor]. }
      split; [exact Done|]. intros _ _ [|k] r' _ K; cbn [length] in K; lia. }
    destruct (late i) eqn:Li.
    + right. apply Stop; [reflexivity|discriminate].
    + destruct (negb (q_isroot q) && Nat.ltb 0 (q_look q))%bool eqn:La.
      * apply andb_true_iff in La. destruct La as (La1 & La2). apply negb_true_iff in La1. apply Nat.ltb_lt in La2.
        destruct (Z.eqb d0 0 && Z.eqb d1 0)%bool eqn:Ch; cbn [chk bind].
        -- apply andb_true_iff in Ch. destruct Ch as (Ch1 & Ch2). apply Z.eqb_eq in Ch1, Ch2.
           assert (Cl : clean r) by (split; assumption).
           destruct (ext_ltb best (Fin (score (q_weight q) ch1 ch0))); [apply Next; auto|].
           destruct (Nat.leb (q_look q) (S trials)); [right; apply Stop; [congruence|auto]|apply Next; auto].
        -- left. split; [reflexivity|]. split; [exact La1|]. split; [exact La2|]. exists O. cbn [length]. split; [lia|]. rewrite Nat.add_0_r. exact Li.
      * apply Next; [reflexivity|]. intros X1 X2. rewrite X1 in La. apply Nat.ltb_lt in X2. rewrite X2 in La. discriminate.
Qed.

(** The code is decided by the last candidate with an infeasible child. *)
Lemma inf_bools r : (Z.eqb (g_dst r) 1 && Z.eqb (g_ust r) 1)%bool = true <-> both_inf r.
Proof. unfold both_inf. rewrite andb_true_iff, !Z.eqb_eq. reflexivity. Qed.
Lemma some_bools r : (Z.eqb (g_dst r) 1 || Z.eqb (g_ust r) 1)%bool = true <-> some_inf r.
Proof. unfold some_inf. rewrite orb_true_iff, !Z.eqb_eq. reflexivity. Qed.
Lemma last_inf_cons r l x : last_inf (r :: l) x <-> last_inf l x \/ (x = r /\ some_inf r /\ Forall (fun y => ~ some_inf y) l).
Proof.
  split.
  - intros H. inversion H as [p r0 s Si Ns E]; subst r0. destruct p as [|a p]; cbn [app] in E; injection E as E1 E2; subst.
    + right. auto.
    + left. constructor; assumption.
  - intros [H|(-> & Si & Ns)].
    + inversion H as [p r0 s Si Ns E]; subst. rewrite app_comm_cons. constructor; assumption.
    + apply (li [] r l Si Ns).
Qed.
Lemma no_last l : (forall x, ~ last_inf l x) <-> Forall (fun y => ~ some_inf y) l.
Proof.
  induction l as [|r l IH].
  - split; [constructor|]. intros _ x H. inversion H as [p r0 s Si Ns E]. destruct p; discriminate.
  - split.
    + intros H. assert (A : Forall (fun y => ~ some_inf y) l) by (apply IH; intros x X; apply (H x), last_inf_cons; left; exact X).
      constructor; [|exact A]. intros S. apply (H r), last_inf_cons. right. auto.
    + intros H. inversion H as [|? ? H1 H2]; subst. intros x X. apply last_inf_cons in X. destruct X as [X|(-> & X & _)]; [exact (proj2 IH H2 x X)|contradiction].
Qed.
Lemma code_spec l : forall rc, (exists x, last_inf l x /\ code rc l = (if (Z.eqb (g_dst x) 1 && Z.eqb (g_ust x) 1)%bool then (-1)%Z else 1%Z)) \/
   (Forall (fun y => ~ some_inf y) l /\ code rc l = rc).
Proof.
  induction l as [|r l IH]; intros rc; [right; split; [constructor|reflexivity]|]. cbn [code].
  set (rc1 := if (Z.eqb (g_dst r) 1 && Z.eqb (g_ust r) 1)%bool then (-1)%Z else if (Z.eqb (g_dst r) 1 || Z.eqb (g_ust r) 1)%bool then 1%Z else rc).
  destruct (IH rc1) as [(x & X1 & X2)|(X1 & X2)].
  - left. exists x. split; [apply last_inf_cons; left; exact X1|exact X2].
  - rewrite X2. destruct (Z.eqb (g_dst r) 1 || Z.eqb (g_ust r) 1)%bool eqn:S.
    + left. exists r. split; [apply last_inf_cons; right; split; [reflexivity|]; split; [apply some_bools, S|exact X1]|]. unfold rc1. try rewrite S. reflexivity.
    + right. split; [constructor; [intros H; apply some_bools in H; congruence|exact X1]|]. unfold rc1. try rewrite S.
      destruct (Z.eqb (g_dst r) 1) eqn:S1; [discriminate S|reflexivity].
Qed.
Lemma last_inf_fun l x y : last_inf l x -> last_inf l y -> x = y.
Proof.
  induction l as [|r l IH]; intros H1 H2; [inversion H1 as [p ? ? ? ? E]; destruct p; discriminate|].
  apply last_inf_cons in H1, H2. destruct H1 as [H1|(-> & S1 & N1)], H2 as [H2|(-> & S2 & N2)]; auto.
  - exfalso. exact (proj2 (no_last l) N2 x H1).
  - exfalso. exact (proj2 (no_last l) N1 y H2).
Qed.
Lemma last_inf_in l x : last_inf l x -> In x l /\ some_inf x.
Proof. intros H. inversion H as [p r s Si Ns E]; subst. split; [apply in_app_iff; right; left; reflexivity|exact Si]. Qed.
Lemma code_minus l : (code 0 l = (-1)%Z <-> exists x, last_inf l x /\ both_inf x) /\ (code 0 l = 1%Z <-> exists x, last_inf l x /\ ~ both_inf x) /\
  (code 0 l = 0%Z <-> Forall (fun y => ~ some_inf y) l).
Proof.
  destruct (code_spec l 0) as [(x & X1 & X2)|(X1 & X2)].
  - assert (NN : ~ Forall (fun y => ~ some_inf y) l) by (intros H; exact (proj2 (no_last l) H x X1)). rewrite X2.
    destruct (Z.eqb (g_dst x) 1 && Z.eqb (g_ust x) 1)%bool eqn:B.
    + apply inf_bools in B. split; [|split].
      * split; [exists x; auto|reflexivity].
      * split; [discriminate|]. intros (y & Y1 & Y2). rewrite (last_inf_fun _ _ _ Y1 X1) in Y2. contradiction.
      * split; [discriminate|contradiction].
    + assert (NB : ~ both_inf x) by (intros H; apply inf_bools in H; congruence). split; [|split].
      * split; [discriminate|]. intros (y & Y1 & Y2). rewrite (last_inf_fun _ _ _ Y1 X1) in Y2. contradiction.
      * split; [exists x; auto|reflexivity].
      * split; [discriminate|contradiction].
  - rewrite X2. pose proof (proj2 (no_last l) X1) as N. split; [|split].
    + split; [discriminate|]. intros (y & Y1 & _). destruct (N y Y1).
    + split; [discriminate|]. intros (y & Y1 & _). destruct (N y Y1).
    + tauto.
Qed.

(** ** The choice *)
Lemma ext_ltb_eq x a b : a == b -> ext_ltb x (Fin a) = ext_ltb x (Fin b).
Proof.
  intros E. destruct x as [|v|]; cbn [ext_ltb]; try reflexivity.
  destruct (Qltb v a) eqn:X, (Qltb v b) eqn:Y; try reflexivity; [apply Qltb_lt in X; apply Qltb_ge in Y|apply Qltb_ge in X; apply Qltb_lt in Y]; lra.
Qed.
Lemma score_eq W u d : score W u d == if Qltb u d then W * u + (1 - W) * d else W * d + (1 - W) * u.
Proof.
  unfold score, qmin, qmx. destruct (Qltb u d) eqn:A; destruct (Qltb d u) eqn:B; try reflexivity.
  - apply Qltb_lt in A, B. lra.
  - apply Qltb_ge in A, B. assert (u == d) by lra. nra.
Qed.
Definition oeq (a b : option Q) : Prop := match a, b with Some x, Some y => x == y | None, None => True | _, _ => False end.
Section Split.
Variables (q : sbopts) (w : copts) (pc : pcosts) (mk : nat -> cand) (n : nat).
Hypothesis HP : pc_ok n pc.
Definition val_ok (l : list nat) (t : tri) : Prop :=
  (t_best t = None /\ t_val t = MInf) \/ exists o v v', In o l /\ t_best t = Some o /\ t_val t = Fin v /\ estimate q pc (mk o) o = Some v' /\ v == v'.
Definition top (T : list nat) (x : ext) : Prop := forall o v, In o T -> estimate q pc (mk o) o = Some v -> ext_ltb x (Fin v) = false.
Lemma split_ok L : forall k i t T C, (i + k <= length L)%nat ->
  (forall j, (i <= j < i + k)%nat -> exists o, nth_error L j = Some (Some o) /\ (o < n)%nat) ->
  val_ok T t -> top T (t_val t) -> t_cands t = map mk C ->
  exists t' T' C', split q w pc mk k i L t = Ok t' /\ val_ok T' t' /\ top T' (t_val t') /\ t_cands t' = map mk C' /\
    (forall o, In o T' \/ In o C' <-> In o T \/ In o C \/ exists j, (i <= j < i + k)%nat /\ nth_error L j = Some (Some o)).
Proof.
  induction k as [|k IH]; intros i t T C LL HL V M E.
  - exists t, T, C. cbn [split]. split; [reflexivity|]. split; [exact V|]. split; [exact M|]. split; [exact E|].
    intros o. split; [tauto|]. intros [X|[X|(j & X & _)]]; [auto|auto|lia].
  - cbn [split]. destruct (HL i ltac:(lia)) as (o & No & Lo). unfold rd at 1. rewrite No. cbn [bind].
    destruct HP as (L1 & L2 & L3 & L4).
    destruct (rd_lt o (p_un pc)) as (nu & Eu & Nu); [lia|]. destruct (rd_lt o (p_dn pc)) as (nd & Ed & Nd); [lia|]. rewrite Eu, Ed. cbn [bind].
    assert (Xu : number true o pc = nu) by (unfold number; exact (nth_error_nth _ _ O Nu)).
    assert (Xd : number false o pc = nd) by (unfold number; exact (nth_error_nth _ _ O Nd)).
    assert (HL' : forall j, (S i <= j < S i + k)%nat -> exists o0, nth_error L j = Some (Some o0) /\ (o0 < n)%nat) by (intros j Hj; apply HL; lia).
    assert (Ex : forall o0, (exists j, (i <= j < i + S k)%nat /\ nth_error L j = Some (Some o0)) <-> o0 = o \/ exists j, (S i <= j < S i + k)%nat /\ nth_error L j = Some (Some o0)).
    { intros o0. split.
      - intros (j & Hj & Nj). destruct (Nat.eq_dec j i) as [->|D]; [left; congruence|right; exists j; split; [lia|exact Nj]].
      - intros [->|(j & Hj & Nj)]; [exists i; split; [lia|exact No]|exists j; split; [lia|exact Nj]]. }
    match goal with |- context [if ?b then split _ _ _ _ _ _ _ _ else _] => destruct b end.
    + destruct (IH (S i) {| t_best := t_best t; t_way := t_way t; t_val := t_val t; t_cands := t_cands t ++ [mk o] |} T (C ++ [o])) as (t' & T' & C' & A1 & A2 & A3 & A4 & A5);
        [lia|exact HL'|exact V|exact M|cbn; rewrite E, map_app; reflexivity|].
      exists t', T', C'. split; [exact A1|]. split; [exact A2|]. split; [exact A3|]. split; [exact A4|].
      intros o0. rewrite A5, Ex, in_app_iff. cbn [In]. intuition congruence.
    + destruct (rd_lt o (p_ut pc)) as (tu & Etu & Ntu); [lia|]. destruct (rd_lt o (p_dt pc)) as (td & Etd & Ntd); [lia|]. rewrite Etu, Etd. cbn [bind].
      assert (Tu : total true o pc = tu) by (unfold total; exact (nth_error_nth _ _ 0 Ntu)).
      assert (Td : total false o pc = td) by (unfold total; exact (nth_error_nth _ _ 0 Ntd)).
      set (v := nlin (q_weight q) (nmin (avg tu (d_up (mk o)) nu) (avg td (d_dn (mk o)) nd)) (nmax (avg tu (d_up (mk o)) nu) (avg td (d_dn (mk o)) nd))).
      assert (Ev : oeq v (estimate q pc (mk o) o)).
      { unfold v, estimate, avg. rewrite Xu, Xd, Tu, Td. unfold qnat.
        destruct (Nat.eqb nu 0), (Nat.eqb nd 0); cbn [nmin nmax nlin oeq]; try exact Logic.I; [lra|]. apply score_eq. }
      assert (Fin_ : forall t', (forall o0 v0, In o0 (T ++ [o]) -> estimate q pc (mk o0) o0 = Some v0 -> ext_ltb (t_val t') (Fin v0) = false) -> val_ok (T ++ [o]) t' -> t_cands t' = map mk C ->
        exists t2 T' C', split q w pc mk k (S i) L t' = Ok t2 /\ val_ok T' t2 /\ top T' (t_val t2) /\ t_cands t2 = map mk C' /\
          (forall o0, In o0 T' \/ In o0 C' <-> In o0 T \/ In o0 C \/ exists j, (i <= j < i + S k)%nat /\ nth_error L j = Some (Some o0))).
      { intros t' M' V' E'. destruct (IH (S i) t' (T ++ [o]) C ltac:(lia) HL' V' M' E') as (t2 & T' & C' & A1 & A2 & A3 & A4 & A5).
        exists t2, T', C'. split; [exact A1|]. split; [exact A2|]. split; [exact A3|]. split; [exact A4|].
        intros o0. rewrite A5, Ex, in_app_iff. cbn [In]. intuition congruence. }
      destruct v as [x|]; destruct (estimate q pc (mk o) o) as [y|] eqn:Ey; cbn [oeq] in Ev; try contradiction.
      * destruct (ext_ltb (t_val t) (Fin x)) eqn:Q0.
        -- apply Fin_; cbn [t_val t_cands]; [| |exact E].
           ++ intros o0 v0 I0 E0. apply in_app_iff in I0. destruct I0 as [I0|[<-|[]]].
              ** pose proof (M o0 v0 I0 E0) as M0. destruct (ext_ltb (Fin x) (Fin v0)) eqn:Z0; [|reflexivity]. pose proof (ext_lt_trans _ _ _ Q0 Z0). congruence.
              ** assert (y = v0) by congruence. subst v0. rewrite <- (ext_ltb_eq (Fin x) x y Ev). apply ext_irr.
           ++ right. exists o, x, y. split; [apply in_app_iff; right; left; reflexivity|]. cbn. auto.
        -- apply Fin_; [| |exact E].
           ++ intros o0 v0 I0 E0. apply in_app_iff in I0. destruct I0 as [I0|[<-|[]]]; [exact (M o0 v0 I0 E0)|].
              assert (y = v0) by congruence. subst v0. rewrite <- (ext_ltb_eq _ x y Ev). exact Q0.
           ++ destruct V as [V|(o1 & v1 & v1' & I1 & V)]; [left; exact V|]. right. exists o1, v1, v1'. split; [apply in_app_iff; left; exact I1|exact V].
      * apply Fin_; [| |exact E].
        -- intros o0 v0 I0 E0. apply in_app_iff in I0. destruct I0 as [I0|[<-|[]]]; [exact (M o0 v0 I0 E0)|congruence].
        -- destruct V as [V|(o1 & v1 & v1' & I1 & V)]; [left; exact V|]. right. exists o1, v1, v1'. split; [apply in_app_iff; left; exact I1|exact V].
Qed.
End Split.

Lemma side_ok cut obj st ch : (if Z.eqb st 1 then expensive cut obj else ch) = side cut obj st ch.
Proof. unfold side, expensive, huge. destruct (Z.eqb st 1); [|reflexivity]. destruct cut; reflexivity. Qed.
(** Going through the tried candidates. *)
Definition pick_ok (q : sbopts) (cut : ext) (b0 : option nat) (x0 : ext) (rs : list hot) (p : pick) : Prop :=
  (y_best p = b0 /\ y_val p = x0) \/ exists r v, In r rs /\ y_best p = Some (g_obj r) /\ y_val p = Fin v /\ v == tried_score (q_weight q) cut (q_orig q) r.
Lemma look_all_ok q cut mk pref fixv bb0 (b0 : option nat) x0 all : forall rs done p, Forall h_ok rs -> all = done ++ rs ->
  pick_ok q cut b0 x0 done p -> Forall (fun r => ext_ltb (y_val p) (Fin (tried_score (q_weight q) cut (q_orig q) r)) = false) done ->
  ext_ltb (y_val p) x0 = false -> forced_ok all (y_forced p) -> justified mk all bb0 (y_b p) -> (fixv = false -> y_b p = bb0) ->
  exists p', look_all q cut mk pref fixv rs p = Ok p' /\ pick_ok q cut b0 x0 all p' /\
    Forall (fun r => ext_ltb (y_val p') (Fin (tried_score (q_weight q) cut (q_orig q) r)) = false) all /\
    ext_ltb (y_val p') x0 = false /\ forced_ok all (y_forced p') /\ justified mk all bb0 (y_b p') /\ (fixv = false -> y_b p' = bb0) /\
    (y_rc p' = y_rc p \/ y_rc p' = 2%Z).
Proof.
  induction rs as [|r rs IH]; intros done p H E P M X F J N.
  - rewrite app_nil_r in E. subst all. exists p. cbn [look_all]. auto 10.
  - inversion H as [|? ? (H1 & H2) H3]; subst x l. cbn [look_all]. unfold look_one.
    assert (Ir : In r all) by (rewrite E; apply in_app_iff; right; left; reflexivity).
    (* the two fixings *)
    set (p1 := if Z.eqb (g_ust r) 1 then fix_to q mk fixv (g_obj r) false 0 p else p).
    set (p2 := if Z.eqb (g_dst r) 1 then fix_to q mk fixv (g_obj r) true 1 p1 else p1).
    set (ue := side cut (q_orig q) (g_ust r) (g_uch r)). set (de := side cut (q_orig q) (g_dst r) (g_dch r)).
    assert (S1 : (if Z.eqb (g_ust r) 1 then Ok (expensive cut (q_orig q), fix_to q mk fixv (g_obj r) false 0 p)
                  else do _ <- chk (Z.leb 0 (g_ust r)); Ok (g_uch r, p)) = Ok (ue, p1)).
    { unfold ue, p1. rewrite <- side_ok. destruct (Z.eqb (g_ust r) 1); [reflexivity|]. replace (Z.leb 0 (g_ust r)) with true by (symmetry; apply Z.leb_le, H2). reflexivity. }
    rewrite S1. cbn [bind].
    assert (S2 : (if Z.eqb (g_dst r) 1 then Ok (expensive cut (q_orig q), fix_to q mk fixv (g_obj r) true 1 p1)
                  else do _ <- chk (Z.leb 0 (g_dst r)); Ok (g_dch r, p1)) = Ok (de, p2)).
    { unfold de, p2. rewrite <- side_ok. destruct (Z.eqb (g_dst r) 1); [reflexivity|]. replace (Z.leb 0 (g_dst r)) with true by (symmetry; apply Z.leb_le, H1). reflexivity. }
    rewrite S2. cbn [bind]. clear S1 S2.
    assert (Y1 : y_best p1 = y_best p /\ y_val p1 = y_val p /\ y_rc p1 = y_rc p) by (unfold p1; destruct (Z.eqb (g_ust r) 1); auto).
    assert (Y2 : y_best p2 = y_best p /\ y_val p2 = y_val p /\ y_rc p2 = y_rc p) by (unfold p2; destruct (Z.eqb (g_dst r) 1); auto).
    assert (F1 : forced_ok all (y_forced p1)).
    { unfold p1. destruct (Z.eqb_spec (g_ust r) 1) as [e|_]; [|exact F]. unfold fix_to. cbn [y_forced]. destruct (y_forced p) as [f|] eqn:Ef; [exact F|].
      intros o way Q0. assert (o = g_obj r) by congruence. assert (way = 0%Z) by congruence. subst. exists r. auto. }
    assert (F2 : forced_ok all (y_forced p2)).
    { unfold p2. destruct (Z.eqb_spec (g_dst r) 1) as [e|_]; [|exact F1]. unfold fix_to. cbn [y_forced]. destruct (y_forced p1) as [f|] eqn:Ef; [exact F1|].
      intros o way Q0. assert (o = g_obj r) by congruence. assert (way = 1%Z) by congruence. subst. exists r. auto. }
    assert (J1 : justified mk all bb0 (y_b p1)).
    { unfold p1. destruct (Z.eqb_spec (g_ust r) 1) as [e|_]; [|exact J]. unfold fix_to. cbn [y_b]. destruct fixv; [|exact J]. apply j_down; assumption. }
    assert (J2 : justified mk all bb0 (y_b p2)).
    { unfold p2. destruct (Z.eqb_spec (g_dst r) 1) as [e|_]; [|exact J1]. unfold fix_to. cbn [y_b]. destruct fixv; [|exact J1]. apply j_up; assumption. }
    assert (N2 : fixv = false -> y_b p2 = bb0).
    { intros Z0. unfold p2, p1, fix_to. rewrite Z0. destruct (Z.eqb (g_dst r) 1), (Z.eqb (g_ust r) 1); cbn [y_b]; apply N, Z0. }
    assert (E' : all = (done ++ [r]) ++ rs) by (rewrite <- app_assoc; exact E).
    assert (Sc : score (q_weight q) ue de == tried_score (q_weight q) cut (q_orig q) r) by (unfold tried_score; apply score_eq).
    destruct Y2 as (Yb & Yv & Yr). rewrite Yv. destruct (ext_ltb (y_val p) (Fin (score (q_weight q) ue de))) eqn:Q0; cbn [bind].
    + match goal with |- context [look_all _ _ _ _ _ rs ?pp] => set (p3 := pp) end.
      destruct (IH (done ++ [r]) p3 H3 E') as (p' & A1 & A2 & A3 & A4 & A5 & A6 & A7 & A8).
      * right. exists r, (score (q_weight q) ue de). split; [apply in_app_iff; right; left; reflexivity|]. auto.
      * apply Forall_app. split.
        -- eapply Forall_impl; [|exact M]. intros r0 M0. cbn beta in M0. unfold p3; cbn [y_val]. match goal with |- ?x = false => destruct x eqn:Z0 end; [|reflexivity].
           pose proof (ext_lt_trans _ _ _ Q0 Z0). congruence.
        -- constructor; [|constructor]. unfold p3; cbn [y_val]. rewrite <- (ext_ltb_eq _ _ _ Sc). apply ext_irr.
      * unfold p3; cbn [y_val]. destruct (ext_ltb (Fin (score (q_weight q) ue de)) x0) eqn:Z0; [|reflexivity]. pose proof (ext_lt_trans _ _ _ Q0 Z0). congruence.
      * exact F2.
      * exact J2.
      * exact N2.
      * exists p'. split; [exact A1|]. do 6 (split; [assumption|]). unfold p3 in A8; cbn [y_rc] in A8. rewrite Yr in A8.
        destruct (Z.eqb_spec (y_rc p) 0) as [e|_]; [rewrite e in *; exact A8|right; destruct A8; assumption].
    + destruct (IH (done ++ [r]) p2 H3 E') as (p' & A1 & A2 & A3 & A4 & A5 & A6 & A7 & A8); try assumption.
      * destruct P as [(P1 & P2)|(r0 & v & P1 & P2)]; [left; rewrite Yb, Yv; auto|]. right. exists r0, v. split; [apply in_app_iff; left; exact P1|]. rewrite Yb, Yv. exact P2.
      * rewrite Yv. apply Forall_app. split; [exact M|]. constructor; [|constructor]. rewrite <- (ext_ltb_eq _ _ _ Sc). exact Q0.
      * rewrite Yv. exact X.
      * exists p'. split; [exact A1|]. do 6 (split; [assumption|]). rewrite Yr in A8. exact A8.
Qed.

Lemma nth_map_inv {A B} (f : A -> B) l k b : nth_error (map f l) k = Some b -> exists a, nth_error l k = Some a /\ b = f a.
Proof. rewrite nth_error_map. destruct (nth_error l k) as [a|]; [|discriminate]. intros H. injection H as <-. eauto. Qed.
Lemma code_range l : code 0 l = (-1)%Z \/ code 0 l = 0%Z \/ code 0 l = 1%Z.
Proof.
  destruct (code_spec l 0) as [(x & _ & ->)|(_ & ->)]; [|auto]. destruct (_ && _)%bool; auto.
Qed.
Lemma choose_ok q w n mk pref fixv slv late uns L s : choose_pre q n mk uns L s -> uns <> 0%Z ->
  (chooseVariable q w n mk pref fixv slv late uns L s = AssertFail /\ q_isroot q = false /\ (0 < q_look q)%nat) \/
  exists x, chooseVariable q w n mk pref fixv slv late uns L s = Ok x /\
    (forall o, x_best x = Some o -> nth_error L 0 = Some (Some o) \/ exists j, (j < Z.to_nat uns)%nat /\ nth_error L j = Some (Some o)) /\
    (x_rc x = (-1)%Z -> exists r, In r (x_rs x) /\ both_inf r) /\
    forced_ok (x_rs x) (x_forced x) /\
    (exists b0, same_bounds b0 (v_b s) /\ justified mk (x_rs x) b0 (x_b x) /\ (fixv = false -> x_b x = b0)) /\
    (forall k r, nth_error (x_rs x) k = Some r -> status_means q slv (v_b s) (v_cut s) k (mk (g_obj r)) r) /\
    ((forall k, late k = false) -> (q_isroot q = true \/ q_look q = O) -> x_rs x <> [] -> x_rc x <> (-1)%Z ->
      exists cut o v, cut_from slv (v_cut s) cut /\ x_best x = Some o /\
        ((exists r, In r (x_rs x) /\ g_obj r = o /\ v == tried_score (q_weight q) cut (q_orig q) r) \/ (exists v', estimate q (v_pc s) (mk o) o = Some v' /\ v == v')) /\
        (forall r, In r (x_rs x) -> tried_score (q_weight q) cut (q_orig q) r <= v) /\
        (forall j o', (j < looked q w uns (v_done s))%nat -> nth_error L j = Some (Some o') -> ~ In o' (map g_obj (x_rs x)) ->
           forall v', estimate q (v_pc s) (mk o') o' = Some v' -> v' <= v)) /\
    (Forall (fun r => ~ some_inf r) (x_rs x) -> x_forced x = None /\ same_bounds (x_b x) (v_b s)).
Proof.
  intros [(CL & CO & CM) NL HP HD] U. unfold chooseVariable. replace (Z.eqb uns 0) with false by (symmetry; apply Z.eqb_neq, U).
  fold (looked q w uns (v_done s)). set (lk := looked q w uns (v_done s)).
  assert (LK : (lk <= Z.to_nat uns)%nat) by (unfold lk, looked; lia).
  assert (L0 : exists c0, rd 0 L = Ok c0 /\ nth_error L 0 = Some c0) by (destruct L as [|c0 L']; [congruence|]; exists c0; auto). destruct L0 as (c0 & R0 & N0).
  destruct (split_ok q w (v_pc s) mk n HP L lk 0 {| t_best := None; t_way := -1; t_val := MInf; t_cands := [] |} [] []) as (t & T & C & E & V & TP & EC & IN);
    [lia|intros j Hj; apply CO; lia|left; auto|intros o v []|reflexivity|].
  rewrite E. cbn [bind].
  assert (InL : forall o, In o T \/ In o C -> exists j, (j < Z.to_nat uns)%nat /\ nth_error L j = Some (Some o)).
  { intros o H. apply IN in H. destruct H as [[]|[[]|(j & Hj & Nj)]]. exists j. split; [lia|exact Nj]. }
  assert (Ln : forall o, In o C -> (o < n)%nat).
  { intros o H. destruct (InL o (or_intror H)) as (j & Hj & Nj). destruct (CO j Hj) as (o' & No & Lo). congruence. }
  destruct C as [|o1 C1].
  - rewrite EC. cbn [map]. rewrite R0. cbn [bind]. right. eexists. split; [reflexivity|]. cbn [x_best x_rc x_rs x_forced x_b].
    split; [intros o X; left; rewrite X in N0; exact N0|]. split; [discriminate|]. split; [intros o way X; discriminate|].
    split; [exists (v_b s); split; [apply same_refl|]; split; [constructor|reflexivity]|]. split; [intros [|k] r X; discriminate|].
    split; [congruence|]. intros _. split; [reflexivity|apply same_refl].
  - destruct (t_cands t) as [|c1 cs1] eqn:TC; [discriminate EC|].
    assert (HCs : Forall (c_ok n) (c1 :: cs1)).
    { rewrite EC. apply Forall_forall. intros c Ic. apply in_map_iff in Ic. destruct Ic as (o & <- & Io). destruct (CM o (Ln o Io)) as (M1 & M2). split; [rewrite M1; exact (Ln o Io)|exact M2]. }
    unfold doStrongBranching.
    destruct (strong_ok q n slv late (v_b s) (v_cut s) HD (c1 :: cs1) 0 0 MInf 0 [] s HCs HP (same_refl _) (or_introl eq_refl)) as
      [(-> & A1 & A2 & _)|(rc & rs & s' & -> & A1 & A2 & A3 & A4 & A5 & A6 & A7 & A8 & A9 & A10 & A11)]; [left; cbn [bind]; auto|]. cbn [bind app].
    right.
    assert (GO : forall k r, nth_error rs k = Some r -> exists o, nth_error (o1 :: C1) k = Some o /\ g_obj r = o).
    { intros k r Nr. assert (K : (k < length rs)%nat) by (apply nth_error_Some; congruence).
      assert (X : nth_error (map g_obj rs) k = Some (g_obj r)) by (apply map_nth_error, Nr).
      rewrite A4 in X. apply nth_map_inv in X. destruct X as (c & Nc & Ec).
      assert (Nc' : nth_error (c1 :: cs1) k = Some c).
      { rewrite <- (firstn_skipn (length rs) (c1 :: cs1)). rewrite nth_error_app1; [exact Nc|]. rewrite firstn_length. lia. }
      rewrite EC in Nc'. apply nth_map_inv in Nc'. destruct Nc' as (o & No & ->). exists o. split; [exact No|].
      rewrite Ec. apply (CM o). apply Ln. exact (nth_error_In _ _ No). }
    assert (SM : forall k r, nth_error rs k = Some r -> status_means q slv (v_b s) (v_cut s) k (mk (g_obj r)) r).
    { intros k r Nr. destruct (GO k r Nr) as (o & No & ->). apply (A7 k r (mk o) Nr). rewrite EC. apply map_nth_error, No. }
    assert (OnL : forall r, In r rs -> exists j, (j < Z.to_nat uns)%nat /\ nth_error L j = Some (Some (g_obj r))).
    { intros r Ir. apply In_nth_error in Ir. destruct Ir as (k & Nr). destruct (GO k r Nr) as (o & No & ->). apply InL. right. exact (nth_error_In _ _ No). }
    assert (TB : forall o, t_best t = Some o -> exists j, (j < Z.to_nat uns)%nat /\ nth_error L j = Some (Some o)).
    { intros o X. destruct V as [(V & _)|(o' & v & v' & I' & V & _)]; [congruence|]. apply InL. left. congruence. }
    destruct (match rs with [] => false | _ => late (0 + (length rs - 1))%nat end) eqn:La.
    + rewrite A9. cbn [Z.leb Z.compare Pos.compare Pos.compare_cont andb Z.eqb Pos.eqb]. rewrite R0. cbn [bind]. eexists. split; [reflexivity|]. cbn [x_best x_rc x_rs x_forced x_b].
      split; [intros o X; left; rewrite X in N0; exact N0|]. split; [discriminate|]. split; [intros o way X; discriminate|].
      split; [exists (v_b s'); split; [exact A1|]; split; [constructor|reflexivity]|]. split; [exact SM|]. split.
      { intros NLt. exfalso. destruct rs; [discriminate|]. rewrite NLt in La. discriminate. }
      intros _. split; [reflexivity|exact A1].
    + destruct A9 as (Erc & Full & _). destruct (code_minus rs) as (CM1 & _ & CM3). rewrite <- Erc in CM1, CM3.
      pose proof (code_range rs) as CR. rewrite <- Erc in CR.
      destruct (Z.leb 0 rc && Z.leb rc 2)%bool eqn:Rg.
      * assert (NM : rc <> (-1)%Z) by (intros ->; discriminate Rg).
        set (p0 := {| y_best := t_best t; y_way := t_way t; y_val := t_val t; y_rc := if Z.eqb rc 0 then 0%Z else match t_best t with Some _ => 3%Z | None => 4%Z end;
                      y_fixed := 0; y_forced := None; y_b := v_b s' |}).
        destruct (look_all_ok q (v_cut s') mk pref fixv (v_b s') (t_best t) (t_val t) rs rs [] p0 A6 eq_refl) as (p & -> & P1 & P2 & P3 & P4 & P5 & P6 & P7).
        { left. auto. } { constructor. } { apply ext_irr. } { intros o way X. discriminate. } { constructor. } { reflexivity. }
        cbn [bind]. eexists. split; [reflexivity|]. cbn [x_best x_rc x_rs x_forced x_b].
        split.
        { intros o X. right. destruct P1 as [(P1 & _)|(r & v & Ir & P1 & _)]; [apply TB; congruence|]. assert (o = g_obj r) by congruence. subst o. apply OnL, Ir. }
        split.
        { intros X. exfalso. destruct (_ && _)%bool in X; [discriminate|]. rewrite X in P7. unfold p0 in P7; cbn [y_rc] in P7. destruct P7 as [P7|P7]; [|discriminate].
          destruct (Z.eqb rc 0); [discriminate|]. destruct (t_best t); discriminate. }
        split; [exact P4|]. split; [exists (v_b s'); split; [exact A1|]; split; [exact P5|exact P6]|]. split; [exact SM|]. split.
        { intros NLt Md NR _. specialize (Full Md).
          assert (AllC : map g_obj rs = o1 :: C1).
          { rewrite A4, Full, firstn_all, EC, map_map. apply map_ext_in_iff || idtac.
            assert (X : forall l, (forall o, In o l -> (o < n)%nat) -> map (fun x => d_obj (mk x)) l = l).
            { induction l as [|a l IHl]; intros HL; [reflexivity|]. cbn [map]. f_equal; [apply CM, HL; left; reflexivity|apply IHl; intros o Io; apply HL; right; exact Io]. }
            apply X. exact Ln. }
          assert (Fv : exists v, y_val p = Fin v /\ exists o, y_best p = Some o /\
             ((exists r, In r rs /\ g_obj r = o /\ v == tried_score (q_weight q) (v_cut s') (q_orig q) r) \/ (exists v', estimate q (v_pc s) (mk o) o = Some v' /\ v == v'))).
          { destruct P1 as [(P1a & P1b)|(r & v & Ir & P1a & P1b & P1c)].
            - destruct V as [(V1 & V2)|(o & v & v' & I' & V1 & V2 & V3 & V4)].
              + exfalso. destruct rs as [|r0 rs0]; [congruence|]. inversion P2 as [|? ? P2a _]; subst. rewrite P1b, V2 in P2a. discriminate.
              + exists v. split; [congruence|]. exists o. split; [congruence|]. right. exists v'. auto.
            - exists v. split; [exact P1b|]. exists (g_obj r). split; [exact P1a|]. left. exists r. auto. }
          destruct Fv as (v & Ev & o & Eo & Dv). exists (v_cut s'), o, v. split; [exact A3|]. split; [exact Eo|]. split; [exact Dv|]. split.
          - intros r Ir. rewrite Forall_forall in P2. specialize (P2 r Ir). cbn beta in P2. rewrite Ev in P2. cbn [ext_ltb] in P2. apply Qltb_ge in P2. exact P2.
          - intros j o' Hj Nj Ni v' Ee. rewrite AllC in Ni.
            assert (It : In o' T).
            { assert (X : In o' T \/ In o' (o1 :: C1)) by (apply IN; right; right; exists j; split; [lia|exact Nj]). tauto. }
            pose proof (TP o' v' It Ee) as X. rewrite Ev in P3. pose proof (ext_le_le _ _ _ X P3) as Y. cbn [ext_ltb] in Y. apply Qltb_ge in Y. exact Y. }
        { intros NS. assert (Fz : forced_ok rs (y_forced p)) by exact P4. rewrite Forall_forall in NS. split.
          - destruct (y_forced p) as [[o way]|] eqn:Ef; [|reflexivity]. exfalso. destruct (Fz o way eq_refl) as (r & Ir & _ & [(_ & X)|(_ & X)]); apply (NS r Ir); [right|left]; exact X.
          - assert (X : y_b p = v_b s'); [|rewrite X; exact A1].
            revert P5. generalize (y_b p). intros bb J. inversion J as [b|b b' r _ Ir X|b b' r _ Ir X]; [reflexivity| |]; exfalso; apply (NS r Ir); [right|left]; exact X. }
      * assert (RM : rc = (-1)%Z). { destruct CR as [->|[->| ->]]; [reflexivity|discriminate Rg|discriminate Rg]. }
        rewrite RM. cbn [Z.eqb]. eexists. split; [reflexivity|]. cbn [x_best x_rc x_rs x_forced x_b].
        split; [intros o X; right; apply TB, X|]. split.
        { intros _. apply CM1 in RM. destruct RM as (r & R1 & R2). exists r. split; [apply last_inf_in in R1; apply R1|exact R2]. }
        split; [intros o way X; discriminate|]. split; [exists (v_b s'); split; [exact A1|]; split; [constructor|reflexivity]|]. split; [exact SM|].
        split; [intros _ _ _ X; congruence|]. intros _. split; [reflexivity|exact A1].
Qed.

(** ** The linear relaxation *)
Lemma lp_restore_ok : forall o c, length c = length o -> lp_restore o c (lp_bounds o c) = o.
Proof.
  induction o as [|[ol ou] o IH]; intros [|[lo up] c] H; try discriminate; [reflexivity|]. cbn [lp_bounds lp_restore].
  rewrite IH by (cbn in H; lia). unfold lp_low, lp_up. destruct (Qltb ol lo), (Qltb up ou); reflexivity.
Qed.
Lemma lp_same : forall c o, tighter c o ->
  (same_bounds (lp_bounds o c) c <-> Forall2 (fun c o => snd c == snd o \/ snd c == fst c) c o).
Proof.
  induction 1 as [|[lo up] [ol ou] c o (T1 & T2 & T3) H IH]; [split; constructor|]. cbn [lp_bounds fst snd] in *.
  assert (Lo : lp_low ol lo == lo) by (unfold lp_low; destruct (Qltb ol lo) eqn:E; [reflexivity|apply Qltb_ge in E; lra]).
  split.
  - intros X. inversion X as [|? ? ? ? (_ & E2) X2]; subst. constructor; [|apply IH, X2]. cbn [fst snd] in *. unfold lp_up in E2.
    destruct (Qltb up ou) eqn:E; [right; lra|left; lra].
  - intros X. inversion X as [|? ? ? ? E2 X2]; subst. constructor; [|apply IH, X2]. cbn [fst snd] in *. split; [exact Lo|]. unfold lp_up.
    destruct (Qltb up ou) eqn:E; [apply Qltb_lt in E; destruct E2; lra|apply Qltb_ge in E; lra].
Qed.
Lemma lp_inside : forall c o, tighter c o -> Forall2 (fun l c => fst l == fst c /\ snd l <= snd c) (lp_bounds o c) c.
Proof.
  induction 1 as [|[lo up] [ol ou] c o (T1 & T2 & T3) H IH]; [constructor|]. cbn [lp_bounds fst snd] in *. constructor; [|exact IH]. cbn [fst snd].
  unfold lp_low, lp_up. destruct (Qltb ol lo) eqn:E1, (Qltb up ou) eqn:E2; try apply Qltb_lt in E1; try apply Qltb_ge in E1; try apply Qltb_lt in E2; try apply Qltb_ge in E2; split; lra.
Qed.
Lemma tighter_len c o : tighter c o -> length c = length o.
Proof. induction 1; cbn [length]; congruence. Qed.
Lemma lp_hot_ok basis slv chd l : tighter chd (u_bounds l) ->
  exists x l', lp_hot basis 0 slv chd l = Ok (if j_inf (slv (lp_bounds (u_bounds l) chd)) then provenInfeasible else if j_lim (slv (lp_bounds (u_bounds l) chd)) then iterationLimit else solvedOptimal,
      j_obj (slv (lp_bounds (u_bounds l) chd)), x, l') /\ u_bounds l' = u_bounds l /\
    x = (if basis then j_sol (slv (lp_bounds (u_bounds l) chd)) else u_sol l).
Proof.
  intros T. pose proof (tighter_len _ _ T) as LL. unfold lp_hot. set (r := slv (lp_bounds (u_bounds l) chd)). change (Nat.ltb 0 0) with false. cbv iota.
  destruct basis, (j_inf r), (j_lim r); cbn [bind]; eexists _, _; (split; [reflexivity|]); cbn [u_bounds u_sol]; (split; [try reflexivity; apply lp_restore_ok; exact LL|reflexivity]).
Qed.
