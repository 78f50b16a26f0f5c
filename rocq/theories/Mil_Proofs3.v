(** Lemmas for the heuristics that solve a MILP: no-good cuts and the calls of MilpRounding. *)
From Verif Require Import Base Arr Nlp Oad_Model Nls_Model Nls_Spec Nls_Proofs Div_Model Div_Spec Div_Proofs Div_Proofs2 Str_Proofs Mil_Model Mil_Spec Mil_Proofs Mil_Proofs2.
#[local] Open Scope Q_scope.

Definition posi (ints : list bool) (x : list Q) (j : nat) : bool := (nth j ints false && Qltb (1 # 2) (rounded x j))%bool.
Lemma mr_fix_ok tol ints x : forall k i v lb b fe v' lb' b', (i + k <= length ints)%nat ->
  mr_fix i k tol ints x v lb b = Ok (fe, v', lb', b') ->
  same_size b b' /\
  (forall j, (nth j ints false = false \/ j < i \/ i + k <= j)%nat -> nlo b' j = nlo b j /\ nup b' j = nup b j) /\
  (fe = true -> (forall j, (i <= j < i + k)%nat -> nth j ints false = true -> frac tol (nth j x 0) = false /\ fixed_at b' j (rounded x j)) /\
     v' = v ++ filter (posi ints x) (seq i k) /\ lb' == lb - qsum (map (rounded x) (filter (posi ints x) (seq i k)))).
Proof.
  induction k as [|k IH]; intros i v lb b fe v' lb' b' L H.
  - cbn [mr_fix] in H. assert (fe = true /\ v' = v /\ lb' = lb /\ b' = b) as (-> & -> & -> & ->) by (repeat split; congruence).
    split; [apply same_refl|]. split; [auto|]. intros _. split; [intros j Hj; lia|]. cbn [seq filter map qsum]. rewrite app_nil_r. split; [reflexivity|ring].
  - cbn [mr_fix] in H. apply bind_ok in H. destruct H as (t & Et & H). apply (rd_inv _ _ _ false) in Et. destruct Et as (_ & Et).
    destruct t.
    + apply bind_ok in H. destruct H as (w & Ew & H). apply (rd_inv _ _ _ 0) in Ew. destruct Ew as (_ & Ew).
      destruct (frac tol w) eqn:FR.
      { assert (fe = false /\ b' = b) as (-> & ->) by (split; congruence). split; [apply same_refl|]. split; [auto|discriminate]. }
      assert (RW : inject_Z (nearest w) = rounded x i) by (unfold nearest, rounded; rewrite Ew; reflexivity).
      rewrite RW in H. destruct (if Qltb (1 # 2) (rounded x i) then (v ++ [i], lb - rounded x i) else (v, lb)) as (v1, lb1) eqn:EV.
      apply bind_ok in H. destruct H as (b1 & E1 & H). apply bind_ok in H. destruct H as (b2 & E2 & H).
      apply IH in H; [|lia]. destruct H as (SS & OB & FE).
      pose proof (size_up b b b1 _ _ (same_refl b) E1) as S1. pose proof (size_lo b b1 b2 _ _ S1 E2) as S2.
      apply set_up_inv in E1. destruct E1 as (_ & _ & U1 & U2). apply set_lo_inv in E2. destruct E2 as (_ & _ & W1 & W2).
      split; [eapply same_trans; [exact S2|exact SS]|]. split.
      * intros j Hj. destruct (OB j) as (A & B); [destruct Hj as [Hj|[Hj|Hj]]; [left; exact Hj|right; left; lia|right; right; lia]|].
        assert (j <> i) by (intros ->; destruct Hj as [Hj|[Hj|Hj]]; [congruence|lia|lia]).
        rewrite A, B. split.
        -- rewrite W2. rewrite (proj2 (Nat.eqb_neq j i)) by assumption. unfold nlo. rewrite U1. reflexivity.
        -- unfold nup at 1. rewrite W1. fold (nup b1 j). rewrite U2. rewrite (proj2 (Nat.eqb_neq j i)) by assumption. reflexivity.
      * intros F. destruct (FE F) as (A & B & C). split; [|split].
        -- intros j Hj Tj. destruct (Nat.eq_dec j i) as [->|NE]; [|apply A; [lia|exact Tj]].
           split; [rewrite Ew; exact FR|]. destruct (OB i) as (A1 & B1); [right; left; lia|]. unfold fixed_at. fold (nlo b' i). fold (nup b' i). rewrite A1, B1. split.
           ++ rewrite W2, Nat.eqb_refl. reflexivity.
           ++ unfold nup. rewrite W1. fold (nup b1 i). rewrite U2, Nat.eqb_refl. reflexivity.
        -- rewrite B. cbn [seq filter]. unfold posi at 2. rewrite Et. cbn [andb]. destruct (Qltb (1 # 2) (rounded x i)); injection EV as <- <-; [|reflexivity].
           rewrite <- app_assoc. reflexivity.
        -- rewrite C. cbn [seq filter]. unfold posi at 2. rewrite Et. cbn [andb]. destruct (Qltb (1 # 2) (rounded x i)); injection EV as <- <-; cbn [map qsum]; ring.
    + apply IH in H; [|lia]. destruct H as (SS & OB & FE). split; [exact SS|]. split.
      * intros j Hj. apply OB. destruct Hj as [Hj|[Hj|Hj]]; [left; exact Hj|right; left; lia|right; right; lia].
      * intros F. destruct (FE F) as (A & B & C). split; [|split].
        -- intros j Hj Tj. apply A; [|exact Tj]. assert (j <> i) by (intros ->; congruence). lia.
        -- rewrite B. cbn [seq filter]. unfold posi at 2. rewrite Et. reflexivity.
        -- rewrite C. cbn [seq filter]. unfold posi at 2. rewrite Et. reflexivity.
Qed.
Lemma mr_fix_fine tol ints x : forall k i v lb b, (i + k <= length ints)%nat -> length x = length ints -> length (k_lo b) = length ints -> length (k_up b) = length ints ->
  exists r, mr_fix i k tol ints x v lb b = Ok r.
Proof.
  induction k as [|k IH]; intros i v lb b L Lx L1 L2; [eexists; reflexivity|]. cbn [mr_fix].
  rewrite (rd_fine i ints false) by lia. cbn [bind]. destruct (nth i ints false); [|apply IH; [lia|assumption..]].
  rewrite (rd_fine i x 0) by lia. cbn [bind]. destruct (frac tol (nth i x 0)); [eexists; reflexivity|].
  destruct (Qltb _ _).
  - destruct (set_up_fine i (Fin (inject_Z (nearest (nth i x 0)))) b) as (b1 & E1); [lia|]. rewrite E1. cbn [bind]. pose proof (size_up b b b1 _ _ (same_refl b) E1) as (S1 & S1').
    destruct (set_lo_fine i (Fin (inject_Z (nearest (nth i x 0)))) b1) as (b2 & E2); [lia|]. rewrite E2. cbn [bind]. pose proof (size_lo b b1 b2 _ _ (conj S1 S1') E2) as (S2 & S2').
    apply IH; lia.
  - destruct (set_up_fine i (Fin (inject_Z (nearest (nth i x 0)))) b) as (b1 & E1); [lia|]. rewrite E1. cbn [bind]. pose proof (size_up b b b1 _ _ (same_refl b) E1) as (S1 & S1').
    destruct (set_lo_fine i (Fin (inject_Z (nearest (nth i x 0)))) b1) as (b2 & E2); [lia|]. rewrite E2. cbn [bind]. pose proof (size_lo b b1 b2 _ _ (conj S1 S1') E2) as (S2 & S2').
    apply IH; lia.
Qed.

(** ** No-good cuts *)
Lemma satisfies_lb z v lb lb' : lb == lb' -> (satisfies z (mkNg v lb) <-> satisfies z (mkNg v lb')).
Proof. intros E. unfold satisfies. cbn [ng_vars ng_lb]. rewrite E. reflexivity. Qed.
Lemma cut_form tol ints x b v lb b' : mr_fix 0 (length ints) tol ints x [] 1 b = Ok (true, v, lb, b') ->
  v = filter (posi ints x) (seq 0 (length ints)) /\ lb == 1 - qsum (map (rounded x) v).
Proof.
  intros H. apply mr_fix_ok in H; [|lia]. destruct H as (_ & _ & H). destruct (H eq_refl) as (_ & B & C). cbn [app] in B. subst v. split; [reflexivity|exact C].
Qed.
Lemma posi_int ints x i : posi ints x i = true -> nth i ints false = true /\ (1 # 2) < rounded x i.
Proof. unfold posi. rewrite andb_true_iff, Qltb_lt. auto. Qed.
Lemma cut_current tol ints x b v lb b' z : mr_fix 0 (length ints) tol ints x [] 1 b = Ok (true, v, lb, b') -> is_rounding ints x z -> ~ satisfies z (mkNg v lb).
Proof.
  intros H R S. destruct (cut_form _ _ _ _ _ _ _ H) as (EV & EL). unfold satisfies in S. cbn [ng_vars ng_lb] in S.
  assert (E : qsum (map (fun i => nth i z 0) v) == qsum (map (rounded x) v)).
  { apply qsum_ext. intros i Hi. apply R. subst v. apply filter_In in Hi. exact (proj1 (posi_int _ _ _ (proj2 Hi))). }
  rewrite E, EL in S. lra.
Qed.
Lemma ones_sum (z : nat -> Q) : forall v, (forall i, In i v -> z i == 0 \/ z i == 1) ->
  (qsum (map z v) <= inject_Z (Z.of_nat (length v)) - 1 <-> exists i, In i v /\ z i == 0) /\ qsum (map z v) <= inject_Z (Z.of_nat (length v)).
Proof.
  induction v as [|i v IH]; intros B.
  - cbn [map qsum length Z.of_nat]. change (inject_Z 0) with 0. split; [|lra]. split; [lra|]. intros (i & [] & _).
  - destruct IH as (I1 & I2); [intros j Hj; apply B; right; exact Hj|]. cbn [map qsum length].
    assert (E : inject_Z (Z.of_nat (S (length v))) == 1 + inject_Z (Z.of_nat (length v))) by (rewrite Nat2Z.inj_succ, <- Z.add_1_l, inject_Z_plus; reflexivity).
    rewrite E. destruct (B i (or_introl eq_refl)) as [Z|Z].
    + split; [|rewrite Z; lra]. split; [intros _|rewrite Z; lra]. exists i. split; [left; reflexivity|exact Z].
    + split; [|rewrite Z; lra]. rewrite Z. split.
      * intros H. destruct (proj1 I1) as (j & J1 & J2); [lra|]. exists j. split; [right; exact J1|exact J2].
      * intros (j & [->|J1] & J2); [rewrite J2 in Z; discriminate Z|]. assert (Y : qsum (map z v) <= inject_Z (Z.of_nat (length v)) - 1) by (apply I1; eauto). lra.
Qed.
Lemma qsum_const {A} (f : A -> Q) (l : list A) : (forall a, In a l -> f a == 1) -> qsum (map f l) == inject_Z (Z.of_nat (length l)).
Proof.
  induction l as [|a l IH]; intros H; [reflexivity|]. cbn [map qsum length]. rewrite (H a (or_introl eq_refl)), IH by (intros b Hb; apply H; right; exact Hb).
  rewrite Nat2Z.inj_succ, <- Z.add_1_l, inject_Z_plus. reflexivity.
Qed.
Lemma nth_in_len (ints : list bool) i : nth i ints false = true -> (i < length ints)%nat.
Proof. intros H. destruct (Nat.lt_ge_cases i (length ints)) as [L|L]; [exact L|]. rewrite nth_overflow in H by lia. discriminate. Qed.
Lemma cut_binary tol ints x b v lb b' z : mr_fix 0 (length ints) tol ints x [] 1 b = Ok (true, v, lb, b') ->
  (forall i, nth i ints false = true -> rounded x i == 0 \/ rounded x i == 1) -> binary ints z ->
  (satisfies z (mkNg v lb) <-> exists i, nth i ints false = true /\ rounded x i == 1 /\ nth i z 0 == 0).
Proof.
  intros H BX BZ. destruct (cut_form _ _ _ _ _ _ _ H) as (EV & EL). unfold satisfies. cbn [ng_vars ng_lb].
  assert (IV : forall i, In i v <-> nth i ints false = true /\ rounded x i == 1).
  { intros i. subst v. rewrite filter_In, in_seq. split.
    - intros (_ & P). apply posi_int in P. destruct P as (P & G). split; [exact P|]. destruct (BX i P) as [Z|Z]; [rewrite Z in G; discriminate G|exact Z].
    - intros (P & G). pose proof (nth_in_len _ _ P). split; [lia|]. unfold posi. rewrite P. cbn [andb]. apply Qltb_lt. rewrite G. reflexivity. }
  assert (SR : qsum (map (rounded x) v) == inject_Z (Z.of_nat (length v))) by (apply qsum_const; intros i Hi; apply IV in Hi; tauto).
  destruct (ones_sum (fun i => nth i z 0) v) as (S1 & _); [intros i Hi; apply IV in Hi; apply BZ; tauto|].
  rewrite EL, SR. split.
  - intros Hs. destruct (proj1 S1) as (i & I1 & I2); [lra|]. apply IV in I1. exists i. tauto.
  - intros (i & I1 & I2 & I3). assert (Y : exists i, In i v /\ nth i z 0 == 0) by (exists i; split; [apply IV; tauto|exact I3]). apply S1 in Y. lra.
Qed.
Lemma nogood_bad : ~ C42_nogood.
Proof.
  intros H. specialize (H 0 [true] [0] (mkCols [Fin 0] [Fin 1]) [] 1 (mkCols [Fin 0] [Fin 0]) eq_refl eq_refl eq_refl eq_refl [1]).
  assert (A : assignment [true] [1]).
  { split; [reflexivity|]. intros i Hi. pose proof (nth_in_len _ _ Hi) as L. cbn [length] in L. assert (i = O) by lia. subst i. exists 1%Z. reflexivity. }
  destruct (H A) as (_ & H2). assert (R : ~ is_rounding [true] [0] [1]).
  { intros R. specialize (R O eq_refl). vm_compute in R. discriminate. }
  specialize (H2 R). unfold satisfies in H2. vm_compute in H2. apply H2. reflexivity.
Qed.

(** ** One call *)
Lemma mr_matrix_fine sort P x : sort_ok sort -> nlp_ok P -> length x = p_n P -> exists A, mr_matrix sort P x = Ok A.
Proof.
  intros SO OK Lx. unfold mr_matrix.
  destruct (SO (matcomp (p_jst P)) (seq 0 (length (p_jst P))) (strict_weak_matcomp _)) as (PM & OR).
  set (perm := sort _ _) in *. pose proof (perm_range _ _ PM) as PR.
  assert (LP : length perm = length (p_jst P)) by (rewrite <- (Permutation_length PM), seq_length; reflexivity).
  assert (LJ : length (p_jv P x) = length (p_jst P)) by exact (ok_jv P OK x Lx).
  destruct (mr_loop_ok (p_n P) (p_m P) (p_jst P) (p_off P) (lin_index 0 (p_lin P)) (p_jv P x)) with (perm := perm) (i := 0%nat) (pre := @nil ent) (ini := @None nat)
    (A := mkCmat (repeat 0%nat (p_n P)) (repeat 0%nat (p_n P)) [] []) as (A & ini & E & PK & EV).
  - rewrite lin_index_length. apply (ok_lin P OK).
  - exact (ok_jst P OK).
  - exact PR.
  - cbn [Nat.add]. rewrite LP, LJ. reflexivity.
  - apply packed_nil.
  - reflexivity.
  - apply ents_sorted, ordered_before, OR.
  - eauto.
Qed.
(** The cut that goes with the bounds handed to the NLP solver. *)
Definition cut_for (tol : Q) (ints : list bool) (b : cols) (g : nogood) : Prop :=
  exists sol, length sol = length ints /\
    (forall j, nth j ints false = true -> frac tol (nth j sol 0) = false /\ fixed_at b j (rounded sol j)) /\
    ng_vars g = filter (posi ints sol) (seq 0 (length ints)) /\ ng_lb g == 1 - qsum (map (rounded sol) (ng_vars g)).
Lemma call_cases sort M N P tol depth node howOften pass x colsol lpbox b0 cuts val old r :
  nlp_ok P -> honest_milp M -> length (k_lo lpbox) = p_n P ->
  milp_rounding sort M N P tol depth node howOften pass x colsol lpbox b0 cuts val old = Ok r ->
  (h_asked r = None /\ h_found r = false /\ h_value r = val /\ h_better r = old /\ exists l, h_cuts r = cuts ++ l) \/
  (exists b g sol, h_asked r = Some b /\ h_cuts r = cuts ++ [g] /\ cut_for tol (p_int P) b g /\ Forall (satisfies sol) cuts /\ in_box lpbox sol /\
     length sol = p_n P /\ (forall j, nth j (p_int P) false = true -> frac tol (nth j sol 0) = false /\ fixed_at b j (rounded sol j)) /\
     same_size b0 b /\ (forall j, nth j (p_int P) false = false -> nlo b j = nlo b0 j /\ nup b j = nup b0 j) /\
     ((h_found r = true /\ N b = (true, h_better r) /\ h_value r = p_f P (h_better r) /\ h_value r < val) \/
      (h_found r = false /\ h_value r = val /\ h_better r = old))).
Proof.
  intros OK HM LB H. unfold milp_rounding in H.
  destruct (Nat.ltb 1 pass || _)%bool.
  { left. assert (r = mkMR false val old cuts None) by congruence. subst r. repeat split. exists []. rewrite app_nil_r. reflexivity. }
  apply bind_ok in H. destruct H as (A & EA & H). set (m := mkMilp _ _ _ _ _ _ _) in H. destruct (M m) as [sol|] eqn:EM.
  2:{ left. assert (r = mkMR false val old cuts None) by congruence. subst r. repeat split. exists []. rewrite app_nil_r. reflexivity. }
  destruct (HM _ _ EM) as (IB & SC). cbn [m m_box m_cuts] in IB, SC.
  assert (LS : length sol = p_n P). { apply in_box_nth in IB. destruct IB as (L1 & _). congruence. }
  apply bind_ok in H. destruct H as ((((fe, v), lb), b) & EF & H).
  rewrite <- (ok_int P OK) in EF.
  pose proof EF as EF'. apply mr_fix_ok in EF'; [|lia]. destruct EF' as (SS & OB & FE).
  destruct fe.
  2:{ left. assert (r = mkMR false val old (cuts ++ [mkNg v lb]) None) by congruence. subst r. repeat split. eexists. reflexivity. }
  right. destruct (FE eq_refl) as (F1 & F2 & F3). cbn [app] in F2.
  assert (FF : forall j, nth j (p_int P) false = true -> frac tol (nth j sol 0) = false /\ fixed_at b j (rounded sol j)).
  { intros j Hj. apply F1; [|exact Hj]. pose proof (nth_in_len _ _ Hj). lia. }
  destruct (N b) as (ok, xs) eqn:EN.
  assert (CF : cut_for tol (p_int P) b (mkNg v lb)).
  { exists sol. split; [rewrite LS; symmetry; apply (ok_int P OK)|]. split; [exact FF|]. cbn [ng_vars ng_lb]. split; [exact F2|]. rewrite F3, F2. reflexivity. }
  exists b, (mkNg v lb), sol. destruct (ok && Qltb (p_f P xs) val)%bool eqn:OV.
  - apply andb_true_iff in OV. destruct OV as (-> & OV). apply Qltb_lt in OV.
    assert (r = mkMR true (p_f P xs) xs (cuts ++ [mkNg v lb]) (Some b)) by congruence. subst r. cbn [h_asked h_cuts h_found h_value h_better].
    split; [reflexivity|]. split; [reflexivity|]. split; [exact CF|]. split; [exact SC|]. split; [exact IB|]. split; [exact LS|]. split; [exact FF|]. split; [exact SS|].
    split; [intros j Hj; apply OB; left; exact Hj|]. left. auto.
  - assert (r = mkMR false val old (cuts ++ [mkNg v lb]) (Some b)) by congruence. subst r. cbn [h_asked h_cuts h_found h_value h_better].
    split; [reflexivity|]. split; [reflexivity|]. split; [exact CF|]. split; [exact SC|]. split; [exact IB|]. split; [exact LS|]. split; [exact FF|]. split; [exact SS|].
    split; [intros j Hj; apply OB; left; exact Hj|]. right. auto.
Qed.
Lemma call_fine sort M N P tol depth node howOften pass x colsol lpbox b0 cuts val old :
  sort_ok sort -> nlp_ok P -> honest_milp M -> length x = p_n P -> length (k_lo lpbox) = p_n P -> length (k_lo b0) = p_n P -> length (k_up b0) = p_n P ->
  exists r, milp_rounding sort M N P tol depth node howOften pass x colsol lpbox b0 cuts val old = Ok r.
Proof.
  intros SO OK HM Lx LB L1 L2. unfold milp_rounding. destruct (Nat.ltb 1 pass || _)%bool; [eauto|].
  destruct (mr_matrix_fine sort P x SO OK Lx) as (A & EA). rewrite EA. cbn [bind]. set (m := mkMilp _ _ _ _ _ _ _). destruct (M m) as [sol|] eqn:EM; [|eauto].
  destruct (HM _ _ EM) as (IB & _). cbn [m m_box] in IB. apply in_box_nth in IB. destruct IB as (L3 & _).
  destruct (mr_fix_fine tol (p_int P) sol (p_n P) 0 [] 1 b0) as ((((fe, v), lb), b) & E); [rewrite (ok_int P OK); lia..|].
  rewrite E. cbn [bind]. destruct fe; [|eauto]. destruct (N b) as (ok, xs). destruct (ok && _)%bool; eauto.
Qed.

(** ** Successive calls *)
Lemma qsum_below (f g : nat -> Q) tol l : 0 <= tol -> (forall i, In i l -> f i - tol <= g i) ->
  qsum (map f l) - inject_Z (Z.of_nat (length l)) * tol <= qsum (map g l).
Proof.
  intros T. induction l as [|i l IH]; intros H; cbn [map qsum length]; [change (inject_Z (Z.of_nat 0)) with 0; lra|].
  rewrite Nat2Z.inj_succ, <- Z.add_1_l, inject_Z_plus. change (inject_Z 1) with 1. specialize (H i (or_introl eq_refl)) as Hi.
  assert (IHl := IH (fun j Hj => H j (or_intror Hj))). lra.
Qed.
Lemma filter_length {A} (f : A -> bool) l : (length (filter f l) <= length l)%nat.
Proof. induction l as [|a l IH]; cbn [filter length]; [lia|]. destruct (f a); cbn [length]; lia. Qed.
Lemma cut_differs tol ints b g b2 sol2 : 0 <= tol -> inject_Z (Z.of_nat (length ints)) * tol < 1 -> cut_for tol ints b g -> satisfies sol2 g ->
  (forall j, nth j ints false = true -> frac tol (nth j sol2 0) = false /\ fixed_at b2 j (rounded sol2 j)) -> differ ints b b2.
Proof.
  intros T NT (sol & LS & FX & EV & EL) ST FX2.
  destruct (Exists_dec (fun i => ~ rounded sol i == rounded sol2 i) (ng_vars g)) as [EX|NX].
  { intros i. destruct (Qeq_dec (rounded sol i) (rounded sol2 i)); [right; tauto|left; assumption]. }
  - apply Exists_exists in EX. destruct EX as (i & Hi & Di). rewrite EV in Hi. apply filter_In in Hi. destruct Hi as (_ & Pi). apply posi_int in Pi. destruct Pi as (Pi & _).
    exists i, (rounded sol i), (rounded sol2 i). split; [exact Pi|]. split; [apply FX, Pi|]. split; [apply FX2, Pi|exact Di].
  - exfalso. unfold satisfies in ST. rewrite EL in ST.
    assert (B : qsum (map (rounded sol) (ng_vars g)) - inject_Z (Z.of_nat (length (ng_vars g))) * tol <= qsum (map (fun i => nth i sol2 0) (ng_vars g))).
    { apply qsum_below; [exact T|]. intros i Hi. assert (Pi : nth i ints false = true). { rewrite EV in Hi. apply filter_In in Hi. destruct Hi as (_ & Pi). apply posi_int in Pi. tauto. }
      assert (E : rounded sol i == rounded sol2 i). { destruct (Qeq_dec (rounded sol i) (rounded sol2 i)) as [E|E]; [exact E|]. exfalso. apply NX, Exists_exists. exists i. auto. }
      rewrite E. destruct (FX2 i Pi) as (F2 & _). unfold frac in F2. apply Qltb_ge in F2. change (inject_Z (nearest (nth i sol2 0))) with (rounded sol2 i) in F2.
      apply Qabs_Qle_condition in F2. lra. }
    assert (LN : inject_Z (Z.of_nat (length (ng_vars g))) <= inject_Z (Z.of_nat (length ints))).
    { rewrite <- Zle_Qle. apply inj_le. rewrite EV. rewrite <- (seq_length (length ints) 0) at 2. apply filter_length. }
    assert (inject_Z (Z.of_nat (length (ng_vars g))) * tol <= inject_Z (Z.of_nat (length ints)) * tol) by (apply Qmult_le_compat_r; assumption).
    lra.
Qed.
Definition asked (rs : list mresult) : list cols := flat_map (fun r => match h_asked r with Some b => [b] | None => [] end) rs.
Lemma run_differ sort P tol howOften : sort_ok sort -> nlp_ok P -> 0 <= tol -> inject_Z (Z.of_nat (p_n P)) * tol < 1 ->
  forall cs cuts olds rs, Forall (fun c => honest_milp (a_M c) /\ sized P c) cs ->
  Forall (fun b => exists g, In g cuts /\ cut_for tol (p_int P) b g) olds ->
  mr_run sort P tol howOften cs cuts = Ok rs ->
  ForallOrdPairs (differ (p_int P)) (asked rs) /\ Forall (fun b => Forall (differ (p_int P) b) (asked rs)) olds.
Proof.
  intros SO OK T NT. induction cs as [|c cs IH]; intros cuts olds rs FC FO H.
  - cbn [mr_run] in H. assert (rs = []) by congruence. subst rs. split; [constructor|]. apply Forall_forall. intros b _. constructor.
  - apply Forall_cons_iff in FC. destruct FC as ((HM & SZ) & FC). cbn [mr_run] in H. apply bind_ok in H. destruct H as (r & Er & H).
    apply bind_ok in H. destruct H as (rs' & Ers & H). assert (rs = r :: rs') by congruence. subst rs. clear H.
    apply call_cases in Er; [|exact OK|exact HM|apply SZ].
    destruct Er as [(N & _ & _ & _ & (l & EC))|(b & g & sol & AS & EC & CF & SC & IB & LS & FX & _)].
    + cbn [asked flat_map]. rewrite N. cbn [app]. eapply IH; [exact FC| |exact Ers]. rewrite EC. eapply Forall_impl; [|exact FO].
      intros b (g & G1 & G2). exists g. split; [apply in_or_app; left; exact G1|exact G2].
    + cbn [asked flat_map]. rewrite AS. cbn [app]. destruct (IH (h_cuts r) (b :: olds) rs' FC) as (I1 & I2).
      * rewrite EC. constructor; [exists g; split; [apply in_or_app; right; left; reflexivity|exact CF]|]. eapply Forall_impl; [|exact FO].
        intros b1 (g1 & G1 & G2). exists g1. split; [apply in_or_app; left; exact G1|exact G2].
      * exact Ers.
      * apply Forall_cons_iff in I2. destruct I2 as (I2 & I3). split; [constructor; [exact I2|exact I1]|].
        apply Forall_forall. intros b1 Hb1. rewrite Forall_forall in I3, FO. constructor; [|exact (I3 _ Hb1)].
        destruct (FO _ Hb1) as (g1 & G1 & G2). eapply cut_differs; [exact T|rewrite (ok_int P OK); exact NT|exact G2| |exact FX].
        rewrite Forall_forall in SC. exact (SC _ G1).
Qed.
Lemma run_fine sort P tol howOften : sort_ok sort -> nlp_ok P -> forall cs cuts, Forall (fun c => honest_milp (a_M c) /\ sized P c) cs ->
  exists rs, mr_run sort P tol howOften cs cuts = Ok rs.
Proof.
  intros SO OK. induction cs as [|c cs IH]; intros cuts FC; [eexists; reflexivity|].
  apply Forall_cons_iff in FC. destruct FC as ((HM & SZ) & FC). cbn [mr_run]. destruct SZ as (S1 & S2 & S3 & S4 & S5 & S6).
  destruct (call_fine sort (a_M c) (a_N c) P tol (a_depth c) (a_node c) howOften (a_pass c) (a_x c) (a_colsol c) (a_lpbox c) (a_b0 c) cuts (a_val c) (a_old c) SO OK HM S1 S3 S5 S6) as (r & Er).
  rewrite Er. cbn [bind]. destruct (IH (h_cuts r) FC) as (rs & Ers). rewrite Ers. eexists. reflexivity.
Qed.
(** Rounding stays between integer bounds. *)
Lemma round_in l u v : (forall q, l = Fin q -> exists z : Z, q == inject_Z z) -> (forall q, u = Fin q -> exists z : Z, q == inject_Z z) -> lo_ok l v -> up_ok u v ->
  lo_ok l (inject_Z (Qfloor (v + (1 # 2)))) /\ up_ok u (inject_Z (Qfloor (v + (1 # 2)))).
Proof.
  intros IL IU HL HU. split.
  - destruct l as [|q|]; cbn [lo_ok] in *; [exact Logic.I| |exact HL]. destruct (IL q eq_refl) as (z & E). rewrite E in *. rewrite <- Zle_Qle.
    assert (Y : inject_Z z <= v + (1 # 2)) by lra. apply Qfloor_resp_le in Y. rewrite Qfloor_Z in Y. exact Y.
  - destruct u as [|q|]; cbn [up_ok] in *; [exact HU| |exact Logic.I]. destruct (IU q eq_refl) as (z & E). rewrite E in *. rewrite <- Zle_Qle.
    pose proof (Qfloor_le (v + (1 # 2))) as Y. assert (Z : inject_Z (Qfloor (v + (1 # 2))) < inject_Z z + 1) by lra.
    change 1 with (inject_Z 1) in Z. rewrite <- inject_Z_plus, <- Zlt_Qlt in Z. lia.
Qed.
