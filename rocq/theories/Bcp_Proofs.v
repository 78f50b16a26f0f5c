(** Proofs about the parallel driver: numbers, candidates, branches. *)
From Coq Require Import String Sorted.
From Verif Require Import Base Arr Bcp_Model Bcp_Spec.
#[local] Open Scope Q_scope.

(** ** Floors and ceilings *)
Lemma inj_S z : inject_Z (z + 1) == inject_Z z + 1.
Proof. rewrite inject_Z_plus. reflexivity. Qed.
Lemma inj_lt a b : inject_Z a < inject_Z b -> (a < b)%Z.
Proof. intros H. rewrite Zlt_Qlt. exact H. Qed.
Lemma floor_unique q z : inject_Z z <= q -> q < inject_Z z + 1 -> Qfloor q = z.
Proof.
  intros A B. pose proof (Qfloor_le q) as C. pose proof (Qlt_floor q) as D. rewrite inj_S in D.
  assert (inject_Z z < inject_Z (Qfloor q + 1)) as E1 by (rewrite inj_S; lra).
  assert (inject_Z (Qfloor q) < inject_Z (z + 1)) as E2 by (rewrite inj_S; lra).
  apply inj_lt in E1. apply inj_lt in E2. lia.
Qed.
Lemma ceil_unique q z : inject_Z z - 1 < q -> q <= inject_Z z -> Qceiling q = z.
Proof.
  intros A B. unfold Qceiling. rewrite (floor_unique (- q) (- z)); [lia| |]; rewrite inject_Z_opp; lra.
Qed.
Lemma flo_spec q : flo q <= q < flo q + 1.
Proof. unfold flo. pose proof (Qfloor_le q). pose proof (Qlt_floor q) as D. rewrite inj_S in D. lra. Qed.
Lemma cei_spec q : cei q - 1 < q <= cei q.
Proof.
  unfold cei, Qceiling. rewrite inject_Z_opp. pose proof (Qfloor_le (- q)). pose proof (Qlt_floor (- q)) as D.
  rewrite inj_S in D. lra.
Qed.
Lemma flo_integral q : integral (flo q).
Proof. exists (Qfloor q). reflexivity. Qed.
Lemma cei_integral q : integral (cei q).
Proof. exists (Qceiling q). reflexivity. Qed.
Lemma integral_lt a b : integral a -> integral b -> a < b + 1 -> a <= b.
Proof.
  intros [x X] [y Y] H. rewrite X, Y in *.
  assert (inject_Z x < inject_Z (y + 1)) as E by (rewrite inj_S; lra).
  apply inj_lt in E. rewrite <- Zle_Qle. lia.
Qed.
Lemma flo_unique q k : integral k -> k <= q -> q < k + 1 -> flo q == k.
Proof. intros [z Z] A B. unfold flo. rewrite (floor_unique q z) by lra. lra. Qed.
Lemma cei_unique q k : integral k -> k - 1 < q -> q <= k -> cei q == k.
Proof. intros [z Z] A B. unfold cei. rewrite (ceil_unique q z) by lra. lra. Qed.
Lemma Qabs_bounds a b : Qabs a <= b <-> - b <= a /\ a <= b.
Proof. apply Qabs_Qle_condition. Qed.
Lemma Qabs_lt a b : Qabs a < b <-> - b < a /\ a < b.
Proof. apply Qabs_Qlt_condition. Qed.

Lemma infeas_small tol lo up v : osi_infeas tol lo up v <= 1 # 2.
Proof.
  unfold osi_infeas. set (w := qclip lo up v). destruct (Qle_bool _ _); [lra|].
  pose proof (flo_spec (w + half)) as H. unfold half in *. apply Qabs_bounds. lra.
Qed.
Lemma infeas_int tol lo up v : 0 <= tol -> integral (qclip lo up v) -> osi_infeas tol lo up v = 0.
Proof.
  intros T I. unfold osi_infeas. set (w := qclip lo up v) in *.
  assert (flo (w + half) == w) as E by (apply flo_unique; [exact I|unfold half; lra|unfold half; lra]).
  assert (Qle_bool (Qabs (w - flo (w + half))) tol = true) as ->.
  { apply Qle_bool_iff. rewrite E. setoid_replace (w - w) with 0 by ring. exact T. }
  reflexivity.
Qed.
(** An infeasible variable is strictly between its bounds and not integral. *)
Lemma frac_spec tol lo up v : 0 <= tol -> integral lo -> integral up -> lo <= up ->
  0 < osi_infeas tol lo up v -> lo < v < up /\ ~ integral v.
Proof.
  intros T I1 I2 L H.
  assert (N : ~ integral (qclip lo up v)).
  { intros I. rewrite infeas_int in H by assumption. lra. }
  unfold qclip in N. destruct (Qltb v lo) eqn:E1; [contradiction|]. destruct (Qltb up v) eqn:E2; [contradiction|].
  apply Qltb_ge in E1. apply Qltb_ge in E2. split; [|exact N]. split.
  - apply Qle_lteq in E1. destruct E1 as [E1|E1]; [exact E1|]. destruct N. destruct I1 as [z Z]. exists z. lra.
  - apply Qle_lteq in E2. destruct E2 as [E2|E2]; [exact E2|]. destruct N. destruct I2 as [z Z]. exists z. lra.
Qed.
(** A feasible one is near an integer within the bounds. *)
Lemma feas_spec tol lo up v : 0 <= tol < 1 # 2 -> integral lo -> integral up -> lo <= up ->
  lo - (1 # 2) < v < up + (1 # 2) -> ~ 0 < osi_infeas tol lo up v ->
  exists k, integral k /\ Qabs (v - k) < 1 # 2 /\ lo <= k <= up.
Proof.
  intros T I1 I2 L B H. destruct (Qlt_le_dec v lo) as [A|A].
  { exists lo. split; [exact I1|]. split; [apply Qabs_lt; lra|lra]. }
  destruct (Qlt_le_dec up v) as [C|C].
  { exists up. split; [exact I2|]. split; [apply Qabs_lt; lra|lra]. }
  unfold osi_infeas, qclip in H.
  assert (Qltb v lo = false) as E1 by (apply Qltb_ge; exact A).
  assert (Qltb up v = false) as E2 by (apply Qltb_ge; exact C). rewrite E1, E2 in H.
  assert (D : Qabs (v - flo (v + half)) <= tol).
  { destruct (Qle_bool (Qabs (v - flo (v + half))) tol) eqn:E; [apply Qle_bool_iff, E|].
    apply Qleb_gt in E. lra. }
  exists (flo (v + half)). apply Qabs_bounds in D. split; [apply flo_integral|]. split; [apply Qabs_lt; lra|].
  pose proof (flo_integral (v + half)) as IF. split.
  - apply integral_lt; [exact I1|exact IF|lra].
  - apply integral_lt; [exact IF|exact I2|lra].
Qed.
Lemma near_floor v k : integral k -> Qabs (v - k) < 1 # 2 -> flo (v + half) == k.
Proof. intros I A. apply Qabs_lt in A. apply flo_unique; [exact I| |]; unfold half; lra. Qed.
Lemma near_ceil v k : integral k -> Qabs (v - k) < 1 # 2 -> cei (v - half) == k.
Proof. intros I A. apply Qabs_lt in A. apply cei_unique; [exact I| |]; unfold half; lra. Qed.
Lemma integral_plus a z : integral a -> integral (a + inject_Z z).
Proof. intros [x X]. exists (x + z)%Z. rewrite X, inject_Z_plus. reflexivity. Qed.
Lemma near_down v k : integral k -> Qabs (v - k) < 1 # 2 -> flo (v - half) == k - 1.
Proof.
  intros I A. apply Qabs_lt in A. apply flo_unique; [|unfold half; lra|unfold half; lra].
  destruct (integral_plus k (-1) I) as [z Z]. exists z. rewrite <- Z. reflexivity.
Qed.
Lemma near_up v k : integral k -> Qabs (v - k) < 1 # 2 -> cei (v + half) == k + 1.
Proof.
  intros I A. apply Qabs_lt in A. apply cei_unique; [|unfold half; lra|unfold half; lra].
  destruct (integral_plus k 1 I) as [z Z]. exists z. rewrite <- Z. reflexivity.
Qed.

(** ** Lists *)
Lemma put_length {A} i (v : A) l : List.length (put i v l) = List.length l.
Proof. revert i; induction l as [|a l IH]; intros [|i]; simpl; auto. Qed.
Lemma put_nth {A} i j (v d : A) l : (i < List.length l)%nat ->
  nth j (put i v l) d = if Nat.eqb j i then v else nth j l d.
Proof.
  revert i j; induction l as [|a l IH]; intros i j H; simpl in H; [lia|].
  destruct i as [|i], j as [|j]; simpl; auto. apply IH. lia.
Qed.
Lemma put_nth_out {A} i (v : A) l : (List.length l <= i)%nat -> put i v l = l.
Proof. revert i; induction l as [|a l IH]; intros [|i] H; simpl in *; auto; [lia|]. rewrite IH by lia. reflexivity. Qed.
Lemma put_back {A} i (v d : A) l : put i (nth i l d) (put i v l) = l.
Proof. revert i; induction l as [|a l IH]; intros [|i]; simpl; auto. f_equal. apply IH. Qed.
Lemma put_same {A} i (d : A) l : put i (nth i l d) l = l.
Proof. revert i; induction l as [|a l IH]; intros [|i]; simpl; auto. f_equal. apply IH. Qed.
Lemma put_put {A} i (v w : A) l : put i v (put i w l) = put i v l.
Proof. revert i; induction l as [|a l IH]; intros [|i]; simpl; auto. f_equal. apply IH. Qed.
Lemma put_comm {A} i j (v w : A) l : i <> j -> put i v (put j w l) = put j w (put i v l).
Proof.
  revert i j; induction l as [|a l IH]; intros [|i] [|j] N; simpl; auto; try congruence.
  f_equal. apply IH. congruence.
Qed.
Lemma nth_put_other {A} i j (v d : A) l : i <> j -> nth j (put i v l) d = nth j l d.
Proof. revert i j; induction l as [|a l IH]; intros [|i] [|j] N; simpl; auto; congruence. Qed.

Lemma StronglySorted_map {A B} (f : A -> B) R l :
  StronglySorted (fun a b => R (f a) (f b)) l -> StronglySorted R (map f l).
Proof.
  induction 1 as [|a l S IH F]; simpl; [constructor|]. constructor; [exact IH|].
  rewrite Forall_map. exact F.
Qed.
Lemma StronglySorted_weaken {A} (R R' : A -> A -> Prop) l :
  (forall a b, In a l -> In b l -> R a b -> R' a b) -> StronglySorted R l -> StronglySorted R' l.
Proof.
  intros W S. induction S as [|a l S IH F]; constructor.
  - apply IH. intros x y X Y. apply W; right; assumption.
  - rewrite Forall_forall in F |- *. intros x X. apply W; [left; reflexivity|right; exact X|apply F, X].
Qed.
Lemma StronglySorted_app {A} (R : A -> A -> Prop) l1 l2 :
  StronglySorted R l1 -> StronglySorted R l2 -> (forall a b, In a l1 -> In b l2 -> R a b) -> StronglySorted R (l1 ++ l2).
Proof.
  intros S1 S2 H. induction S1 as [|a l S IH F]; simpl; [exact S2|]. constructor.
  - apply IH. intros x y X Y. apply H; [right; exact X|exact Y].
  - apply Forall_app. split; [exact F|]. apply Forall_forall. intros y Y. apply H; [left; reflexivity|exact Y].
Qed.
Lemma flat_map_perm_length {A B} (f : A -> list B) l l' : Permutation l l' -> List.length (flat_map f l) = List.length (flat_map f l').
Proof. induction 1; simpl; rewrite ?app_length; lia. Qed.

(** ** The candidates *)
Section Sort.
Variable s : site.
Hypothesis W : well_formed s.
Notation objs := (x_objs s).
Definition fracb i := Qltb 0 (infeas_of s i).
Definition looseb i := negb (fracb i) && negb (fixed objs (x_lo s) (x_up s) i).
Definition einf i : Q * nat := (inf_use s i, i).
Definition efeas i : Q * nat := (feas_use s i, i).
Definition fbr i := feas_branches objs (x_sol s) (x_lo s) (x_up s) i.
Definition ibr i := inf_branches objs (x_sol s) i.
Notation step := (sort_step objs (x_sol s) (x_lo s) (x_up s) (x_srt s) (infeas_of s) (x_useful s)
    (x_disr s) (x_pseudo s) (x_decr s) (Z.eqb (x_index s) 0)).
Notation scan := (sort_scan objs (x_sol s) (x_lo s) (x_up s) (x_srt s) (infeas_of s) (x_useful s)
    (x_disr s) (x_pseudo s) (x_decr s) (Z.eqb (x_index s) 0)).
Notation tail := (sort_tail (x_srt s) (x_decr s)).

Lemma fracb_iff i : fracb i = true <-> fractional s i.
Proof. apply Qltb_lt. Qed.
Lemma looseb_iff i : looseb i = true <-> loose s i.
Proof.
  unfold looseb, loose, fixed. rewrite andb_true_iff, !negb_true_iff. rewrite Qltb_ge.
  split; intros [A B]; split; try exact B.
  - rewrite <- fracb_iff. congruence.
  - destruct (fracb i) eqn:E; [|reflexivity]. apply fracb_iff in E. contradiction.
Qed.
Lemma tail_perm k l : Permutation l (tail k l).
Proof.
  unfold sort_tail. rewrite <- (firstn_skipn k l) at 1. apply Permutation_app_head. apply (wf_srt s W).
Qed.
Lemma maybe_tail k l : Permutation l (if Nat.ltb k (List.length l) then tail k l else l).
Proof. destruct (Nat.ltb k _); [apply tail_perm|reflexivity]. Qed.
Lemma not_huge i : Qle_bool (inject_Z (10 ^ 50)) (infeas_of s i) = false.
Proof.
  apply Qleb_gt. pose proof (infeas_small (x_tol s) (low s i) (high s i) (value s i)) as H.
  fold (infeas_of s i) in H. eapply Qle_lt_trans; [exact H|]. reflexivity.
Qed.
(** Number of branches of the entries. *)
Definition weight (inf feas : list (Q * nat)) : Z :=
  (2 * Z.of_nat (List.length inf) + Z.of_nat (List.length (flat_map (fun e => fbr (snd e)) feas)))%Z.
Lemma weight_perm a b c d : Permutation a b -> Permutation c d -> weight a c = weight b d.
Proof.
  intros P1 P2. unfold weight. rewrite (Permutation_length P1), (flat_map_perm_length _ _ _ P2). reflexivity.
Qed.
Lemma in_range i : (i < List.length objs)%nat -> integral (low s i) /\ integral (high s i) /\
  low s i <= high s i /\ low s i - (1 # 2) < value s i < high s i + (1 # 2).
Proof. intros L. destruct (wf_int s W i L), (wf_box s W i L). auto. Qed.
Lemma frac_ok i : (i < List.length objs)%nat -> fractional s i -> low s i < value s i < high s i /\ ~ integral (value s i).
Proof.
  intros L F. destruct (in_range i L) as (I1 & I2 & B & _). pose proof (wf_tol s W) as T.
  eapply frac_spec with (tol := x_tol s); try eassumption. lra.
Qed.
Lemma feas_ok i : (i < List.length objs)%nat -> ~ fractional s i ->
  exists k, integral k /\ Qabs (value s i - k) < 1 # 2 /\ low s i <= k <= high s i.
Proof.
  intros L F. destruct (in_range i L) as (I1 & I2 & B & C).
  eapply feas_spec with (tol := x_tol s); try eassumption. apply (wf_tol s W).
Qed.
Lemma loose_wide i : (i < List.length objs)%nat -> loose s i -> low s i + 1 <= high s i.
Proof.
  intros L [_ H]. destruct (in_range i L) as (I1 & I2 & B & _).
  destruct (Qlt_le_dec (high s i) (low s i + 1)) as [C|C]; [|exact C].
  pose proof (integral_lt _ _ I2 I1 C). assert (E : high s i - low s i == 0) by lra.
  rewrite E in H. simpl in H. unfold Qle in H. simpl in H. lia.
Qed.
(** A free feasible variable has one branch, or two when inside its bounds. *)
Lemma fbr_length i : (i < List.length objs)%nat -> loose s i ->
  Z.of_nat (List.length (fbr i)) =
  (1 + (if Qltb (low s i) (flo (value s i + half)) && Qltb (cei (value s i - half)) (high s i) then 1 else 0))%Z.
Proof.
  intros L Lo. destruct (feas_ok i L (proj1 Lo)) as (k & I & A & B). pose proof (loose_wide i L Lo) as Wd.
  unfold fbr, feas_branches. change (olo objs (x_lo s) i) with (low s i). change (oup objs (x_up s) i) with (high s i).
  change (osol objs (x_sol s) i) with (value s i).
  pose proof (near_floor _ _ I A) as F. pose proof (near_ceil _ _ I A) as C.
  destruct (Qltb (low s i) _) eqn:E1; destruct (Qltb (cei _) _) eqn:E2; try reflexivity. exfalso.
  apply Qltb_ge in E1. apply Qltb_ge in E2. lra.
Qed.

Record inv (seen : list nat) (t : sst) : Prop := {
  iv_inf : Permutation (s_inf t) (map einf (filter fracb seen));
  iv_feas : Permutation (s_feas t) (map efeas (filter looseb seen));
  iv_num : s_num t = weight (s_inf t) (s_feas t);
  iv_fb : s_fb t = 0%nat
}.
Lemma step_inv seen i t : (i < List.length objs)%nat -> inv seen t -> exists t', step i t = Some t' /\ inv (seen ++ [i]) t'.
Proof.
  intros L I. unfold sort_step. fold (fracb i). rewrite not_huge. destruct (fracb i) eqn:E.
  - eexists; split; [reflexivity|]. destruct I as [I1 I2 I3 I4].
    assert (P : Permutation (s_inf (new_inf (x_srt s) (x_disr s) (x_decr s) (oprio objs i) t)) (s_inf t) /\
                s_feas (new_inf (x_srt s) (x_disr s) (x_decr s) (oprio objs i) t) = s_feas t /\
                s_num (new_inf (x_srt s) (x_disr s) (x_decr s) (oprio objs i) t) = s_num t /\
                s_fb (new_inf (x_srt s) (x_disr s) (x_decr s) (oprio objs i) t) = s_fb t).
    { unfold new_inf. destruct (x_disr s); [auto|]. destruct (Z.ltb _ _); [|auto].
      destruct (Nat.ltb _ _); [|auto]. cbn [s_inf s_feas s_num s_fb]. split; [|auto].
      apply Permutation_sym, tail_perm. }
    destruct P as (P1 & P2 & P3 & P4). unfold add_inf. constructor; cbn [s_inf s_feas s_num s_fb].
    + rewrite filter_app. simpl. rewrite E. rewrite map_app. apply Permutation_app; [rewrite P1; exact I1|reflexivity].
    + rewrite P2, filter_app. simpl. assert (looseb i = false) as -> by (unfold looseb; rewrite E; reflexivity).
      rewrite app_nil_r. exact I2.
    + rewrite P2, P3, I3. unfold weight. rewrite app_length, (Permutation_length P1). cbn [List.length]. lia.
    + congruence.
  - destruct (fixed objs (x_lo s) (x_up s) i) eqn:Fx.
    + eexists; split; [reflexivity|]. destruct I as [I1 I2 I3 I4].
      constructor; try assumption; rewrite filter_app; simpl.
      * rewrite E, app_nil_r. exact I1.
      * assert (looseb i = false) as -> by (unfold looseb; rewrite E, Fx; reflexivity). rewrite app_nil_r. exact I2.
    + eexists; split; [reflexivity|]. destruct I as [I1 I2 I3 I4].
      assert (Lo : looseb i = true) by (unfold looseb; rewrite E, Fx; reflexivity).
      assert (P : Permutation (s_feas (new_feas (x_srt s) (x_disr s) (x_decr s) (oprio objs i) t)) (s_feas t) /\
                s_inf (new_feas (x_srt s) (x_disr s) (x_decr s) (oprio objs i) t) = s_inf t /\
                s_num (new_feas (x_srt s) (x_disr s) (x_decr s) (oprio objs i) t) = s_num t /\
                s_fb (new_feas (x_srt s) (x_disr s) (x_decr s) (oprio objs i) t) = s_fb t).
      { unfold new_feas. destruct (x_disr s); [auto|]. destruct (Z.ltb _ _); [|auto].
        cbn [s_inf s_feas s_num s_fb]. split; [|auto]. apply Permutation_sym, maybe_tail. }
      destruct P as (P1 & P2 & P3 & P4). unfold add_feas. constructor; cbn [s_inf s_feas s_num s_fb].
      * rewrite P2, filter_app. simpl. rewrite E, app_nil_r. exact I1.
      * rewrite filter_app. simpl. rewrite Lo, map_app. apply Permutation_app; [rewrite P1; exact I2|reflexivity].
      * rewrite P2, P3, I3. unfold weight. rewrite flat_map_app, app_length.
        rewrite (flat_map_perm_length _ _ _ P1). cbn [flat_map]. rewrite app_nil_r. cbn [snd].
        rewrite Nat2Z.inj_add, (fbr_length i L (proj1 (looseb_iff i) Lo)).
        change (olo objs (x_lo s) i) with (low s i). change (oup objs (x_up s) i) with (high s i).
        change (osol objs (x_sol s) i) with (value s i). ring.
      * congruence.
Qed.
Lemma scan_inv l : forall seen t, Forall (fun i => (i < List.length objs)%nat) l -> inv seen t ->
  exists t', scan l t = (true, t') /\ inv (seen ++ l) t'.
Proof.
  induction l as [|i l IH]; intros seen t F I.
  - exists t. split; [reflexivity|]. rewrite app_nil_r. exact I.
  - inversion F as [|? ? L F']; subst. destruct (step_inv seen i t L I) as (t' & E & I').
    cbn [sort_scan]. rewrite E. destruct (IH _ _ F' I') as (t'' & E'' & I''). exists t''. split; [exact E''|].
    rewrite <- app_assoc in I''. exact I''.
Qed.
Lemma order_range : Forall (fun i => (i < List.length objs)%nat) (x_order s).
Proof.
  apply Forall_forall. intros i H. apply (Permutation_in _ (wf_order s W)) in H. apply in_seq in H. lia.
Qed.
Definition sst0 i0 : sst := {| s_last := oprio objs i0; s_ib := 0; s_fb := 0; s_inf := []; s_feas := []; s_num := 0 |}.
Definition fin_inf (t : sst) := if Nat.ltb (s_ib t) (List.length (s_inf t)) then tail (s_ib t) (s_inf t) else s_inf t.
Definition fin_feas (t : sst) := if Nat.ltb (s_fb t) (List.length (s_feas t)) then tail (s_fb t) (s_feas t) else s_feas t.
Lemma candidates_eq : exists i0 r t, x_order s = i0 :: r /\ scan (x_order s) (sst0 i0) = (true, t) /\ inv (x_order s) t /\
  candidates s = Ok {| c_ok := true; c_inf := map snd (fin_inf t); c_feas := map snd (fin_feas t); c_num := s_num t |}.
Proof.
  destruct (x_order s) as [|i0 r] eqn:O.
  { exfalso. pose proof (Permutation_length (wf_order s W)) as H. rewrite O, seq_length in H. simpl in H.
    destruct (x_objs s) as [|o os] eqn:X; [|simpl in H; lia]. apply (wf_some s W). exact X. }
  destruct (scan_inv (x_order s) [] (sst0 i0) order_range) as (t & E & I).
  { constructor; reflexivity. }
  rewrite O in E, I. exists i0, r, t. split; [reflexivity|]. split; [exact E|]. split; [exact I|].
  unfold candidates, sort_objects. rewrite O. fold (sst0 i0). rewrite E. reflexivity.
Qed.
Lemma map_snd_einf l : map snd (map einf l) = l.
Proof. rewrite map_map. simpl. apply map_id. Qed.
Lemma map_snd_efeas l : map snd (map efeas l) = l.
Proof. rewrite map_map. simpl. apply map_id. Qed.
Lemma cand_lists c : candidates s = Ok c -> c_ok c = true /\
  Permutation (c_inf c) (filter fracb (x_order s)) /\ Permutation (c_feas c) (filter looseb (x_order s)) /\
  c_num c = (2 * Z.of_nat (List.length (c_inf c)) + Z.of_nat (List.length (flat_map fbr (c_feas c))))%Z.
Proof.
  intros H. destruct candidates_eq as (i0 & r & t & O & E & [I1 I2 I3 I4] & C). rewrite C in H. injection H as <-.
  cbn [c_ok c_inf c_feas c_num]. split; [reflexivity|].
  assert (P1 : Permutation (fin_inf t) (s_inf t)) by (apply Permutation_sym, maybe_tail).
  assert (P2 : Permutation (fin_feas t) (s_feas t)) by (apply Permutation_sym, maybe_tail).
  split; [rewrite P1, I1, map_snd_einf; reflexivity|]. split; [rewrite P2, I2, map_snd_efeas; reflexivity|].
  rewrite I3. rewrite <- (weight_perm _ _ _ _ P1 P2). unfold weight. rewrite map_length.
  f_equal. f_equal. clear. induction (fin_feas t) as [|e l IH]; simpl; [reflexivity|]. rewrite !app_length. lia.
Qed.
Lemma order_nodup : NoDup (x_order s).
Proof. eapply Permutation_NoDup; [apply Permutation_sym, (wf_order s W)|apply seq_NoDup]. Qed.
Lemma order_in i : In i (x_order s) <-> (i < List.length objs)%nat.
Proof.
  split; intros H.
  - apply (Permutation_in _ (wf_order s W)) in H. apply in_seq in H. lia.
  - apply (Permutation_in _ (Permutation_sym (wf_order s W))). apply in_seq. lia.
Qed.
Lemma lists_ok c : candidates s = Ok c -> the_lists s c.
Proof.
  intros H. destruct (cand_lists c H) as (_ & P1 & P2 & _).
  split; [|split; [|split]].
  - eapply Permutation_NoDup; [apply Permutation_sym, P1|]. apply NoDup_filter, order_nodup.
  - eapply Permutation_NoDup; [apply Permutation_sym, P2|]. apply NoDup_filter, order_nodup.
  - intros i. split; intros G.
    + apply (Permutation_in _ P1), filter_In in G. rewrite order_in, fracb_iff in G. exact G.
    + apply (Permutation_in _ (Permutation_sym P1)), filter_In. rewrite order_in, fracb_iff. exact G.
  - intros i. split; intros G.
    + apply (Permutation_in _ P2), filter_In in G. rewrite order_in, looseb_iff in G. exact G.
    + apply (Permutation_in _ (Permutation_sym P2)), filter_In. rewrite order_in, looseb_iff. exact G.
Qed.

(** The feasible list is sorted on usefulness alone. *)
Lemma feas_sorted c : candidates s = Ok c -> StronglySorted (by_use (x_decr s) (feas_use s)) (c_feas c).
Proof.
  intros H. destruct candidates_eq as (i0 & r & t & O & E & [I1 I2 I3 I4] & C). rewrite C in H. injection H as <-.
  cbn [c_feas]. apply StronglySorted_map. unfold fin_feas. rewrite I4.
  assert (S : StronglySorted (at_least (x_decr s)) (tail 0 (s_feas t))) by (unfold sort_tail; simpl; apply (wf_srt s W)).
  assert (P : Permutation (tail 0 (s_feas t)) (map efeas (filter looseb (x_order s)))).
  { rewrite <- I2. apply Permutation_sym, tail_perm. }
  destruct (Nat.ltb 0 (List.length (s_feas t))) eqn:L.
  - revert S. apply StronglySorted_weaken. intros a b A B R.
    apply (Permutation_in _ P), in_map_iff in A. apply (Permutation_in _ P), in_map_iff in B.
    destruct A as (x & <- & _). destruct B as (y & <- & _). exact R.
  - apply Nat.ltb_ge in L. destruct (s_feas t); [constructor|simpl in L; lia].
Qed.
(** With priorities left out of account so is the other one. *)
Lemma inf_sorted_disr c : x_disr s = true -> candidates s = Ok c -> StronglySorted (by_use (x_decr s) (inf_use s)) (c_inf c).
Proof.
  intros D H. destruct candidates_eq as (i0 & r & t & O & E & [I1 I2 I3 I4] & C). rewrite C in H. injection H as <-.
  cbn [c_inf]. apply StronglySorted_map.
  assert (IB : s_ib t = 0%nat).
  { assert (G : forall l u, s_ib u = 0%nat -> forall v, scan l u = (true, v) -> s_ib v = 0%nat).
    { induction l as [|i l IH]; intros u U v V; cbn [sort_scan] in V; [injection V as <-; exact U|].
      destruct (step i u) as [u'|] eqn:S; [|discriminate]. apply (IH u'); [|exact V].
      unfold sort_step in S. destruct (Qltb 0 _).
      - destruct (Qle_bool _ _); [discriminate|]. injection S as <-. unfold add_inf, new_inf. rewrite D. exact U.
      - destruct (fixed _ _ _ _); injection S as <-; [exact U|]. unfold add_feas, new_feas. rewrite D. exact U. }
    apply (G _ (sst0 i0) eq_refl _ E). }
  unfold fin_inf. rewrite IB.
  assert (S : StronglySorted (at_least (x_decr s)) (tail 0 (s_inf t))) by (unfold sort_tail; simpl; apply (wf_srt s W)).
  assert (P : Permutation (tail 0 (s_inf t)) (map einf (filter fracb (x_order s)))).
  { rewrite <- I1. apply Permutation_sym, tail_perm. }
  destruct (Nat.ltb 0 (List.length (s_inf t))) eqn:L.
  - revert S. apply StronglySorted_weaken. intros a b A B R.
    apply (Permutation_in _ P), in_map_iff in A. apply (Permutation_in _ P), in_map_iff in B.
    destruct A as (x & <- & _). destruct B as (y & <- & _). exact R.
  - apply Nat.ltb_ge in L. destruct (s_inf t); [constructor|simpl in L; lia].
Qed.

(** Blocks: finished levels, sorted, then the entries of the current level. *)
Definition lexr (a b : Q * nat) : Prop :=
  (prio s (snd a) < prio s (snd b))%Z \/ (prio s (snd a) = prio s (snd b) /\ at_least (x_decr s) a b).
Record blocks (t : sst) : Prop := {
  bk_split : exists A B, s_inf t = A ++ B /\ s_ib t = List.length A /\ StronglySorted lexr A /\
    (forall a, In a A -> (prio s (snd a) < s_last t)%Z) /\ (forall b, In b B -> prio s (snd b) = s_last t)
}.
Lemma close_block t : blocks t -> StronglySorted lexr (fin_inf t) /\ (forall a, In a (fin_inf t) -> (prio s (snd a) <= s_last t)%Z).
Proof.
  intros [(A & B & E & L & S & H1 & H2)].
  assert (F : fin_inf t = A ++ x_srt s (x_decr s) B).
  { unfold fin_inf. rewrite E, L. destruct (Nat.ltb (List.length A) (List.length (A ++ B))) eqn:Q0.
    - unfold sort_tail. rewrite firstn_app, Nat.sub_diag, firstn_all, skipn_app, Nat.sub_diag, skipn_all.
      rewrite app_nil_r. reflexivity.
    - apply Nat.ltb_ge in Q0. rewrite app_length in Q0. destruct B as [|b B]; [|simpl in Q0; lia].
      destruct (wf_srt s W (x_decr s) []) as [P _]. apply Permutation_nil in P. rewrite P. reflexivity. }
  destruct (wf_srt s W (x_decr s) B) as [P S2].
  assert (In2 : forall b, In b (x_srt s (x_decr s) B) -> prio s (snd b) = s_last t).
  { intros b G. apply H2. apply (Permutation_in _ (Permutation_sym P)). exact G. }
  rewrite F. split.
  - apply StronglySorted_app; [exact S| |].
    + revert S2. apply StronglySorted_weaken. intros a b G1 G2 R. right. rewrite (In2 a G1), (In2 b G2). auto.
    + intros a b G1 G2. left. rewrite (In2 b G2). apply H1. exact G1.
  - intros a G. apply in_app_iff in G. destruct G as [G|G]; [specialize (H1 a G); lia|rewrite (In2 a G); lia].
Qed.
Lemma step_blocks i t t' : x_disr s = false -> blocks t -> (s_last t <= prio s i)%Z ->
  (~ fractional s i -> loose s i -> (prio s i <= s_last t)%Z) -> step i t = Some t' ->
  blocks t' /\ s_last t' = if fracb i then prio s i else s_last t.
Proof.
  intros D B Le N S. unfold sort_step in S. fold (fracb i) in S. rewrite not_huge in S. destruct (fracb i) eqn:E.
  - injection S as <-. unfold add_inf, new_inf. rewrite D. change (oprio objs i) with (prio s i).
    destruct (Z.ltb (s_last t) (prio s i)) eqn:Lt.
    + apply Z.ltb_lt in Lt. destruct (close_block t B) as [C1 C2]. unfold fin_inf in C1, C2.
      destruct (Nat.ltb (s_ib t) (List.length (s_inf t))) eqn:Q0; cbn [s_last s_inf s_ib]; (split; [|reflexivity]); constructor; cbn [s_inf s_last s_ib].
      * exists (tail (s_ib t) (s_inf t)), [einf i]. split; [reflexivity|].
        split; [apply Permutation_length, tail_perm|]. split; [exact C1|]. split.
        -- intros a G. specialize (C2 a G). lia.
        -- intros b [<-|[]]. reflexivity.
      * exists (s_inf t), [einf i]. split; [reflexivity|]. destruct B as [(A & B & E1 & L1 & _ & _ & _)].
        apply Nat.ltb_ge in Q0. split.
        { rewrite L1, E1, app_length in *. lia. }
        split; [exact C1|]. split.
        -- intros a G. specialize (C2 a G). lia.
        -- intros b [<-|[]]. reflexivity.
    + apply Z.ltb_ge in Lt. assert (Ev : prio s i = s_last t) by lia. cbn [s_last]. split; [|symmetry; exact Ev].
      destruct B as [(A & B & E1 & L1 & S1 & H1 & H2)]. constructor. cbn [s_inf s_ib s_last].
      exists A, (B ++ [einf i]). split; [rewrite E1, app_assoc; reflexivity|]. split; [exact L1|]. split; [exact S1|].
      split; [exact H1|]. intros b G. apply in_app_iff in G. destruct G as [G|[<-|[]]]; [apply H2, G|exact Ev].
  - destruct (fixed objs (x_lo s) (x_up s) i) eqn:Fx.
    + injection S as <-. split; [exact B|reflexivity].
    + injection S as <-. unfold add_feas, new_feas. rewrite D. change (oprio objs i) with (prio s i).
      assert (Lo : loose s i) by (apply looseb_iff; unfold looseb; rewrite E, Fx; reflexivity).
      assert (Nf : ~ fractional s i) by (rewrite <- fracb_iff; congruence).
      specialize (N Nf Lo). assert (Z.ltb (s_last t) (prio s i) = false) as -> by (apply Z.ltb_ge; lia).
      cbn [s_last]. split; [|reflexivity]. destruct B as [B]. constructor. exact B.
Qed.
Lemma scan_blocks l : forall t t', x_disr s = false -> blocks t -> StronglySorted (fun i j => (prio s i <= prio s j)%Z) l ->
  Forall (fun i => (s_last t <= prio s i)%Z) l -> never_first s (s_last t) l -> scan l t = (true, t') -> blocks t'.
Proof.
  induction l as [|i l IH]; intros t t' D B S F N E; cbn [sort_scan] in E; [injection E as <-; exact B|].
  destruct (step i t) as [u|] eqn:Es; [|discriminate].
  inversion S as [|? ? S' Fs]; subst. inversion F as [|? ? Fi F']; subst. destruct N as [N1 N2].
  destruct (step_blocks i t u D B Fi (fun Nf Lo => proj1 (N2 Nf) Lo) Es) as [B' La].
  apply (IH u t' D B' S'); [| |exact E].
  - rewrite La. destruct (fracb i); [exact Fs|exact F'].
  - rewrite La. destruct (fracb i) eqn:Ef.
    + apply fracb_iff in Ef. specialize (N1 Ef). rewrite Z.max_r in N1 by lia. exact N1.
    + apply N2. rewrite <- fracb_iff. congruence.
Qed.
Lemma inf_sorted c : x_disr s = false -> (forall i0, hd_error (x_order s) = Some i0 -> never_first s (prio s i0) (x_order s)) ->
  candidates s = Ok c -> StronglySorted (by_prio s (inf_use s)) (c_inf c).
Proof.
  intros D N H. destruct candidates_eq as (i0 & r & t & O & E & [I1 I2 I3 I4] & C). rewrite C in H. injection H as <-.
  cbn [c_inf]. apply StronglySorted_map.
  assert (B : blocks t).
  { apply (scan_blocks (x_order s) (sst0 i0) t D).
    - constructor. exists [], []. split; [reflexivity|]. split; [reflexivity|]. split; [constructor|]. split; intros a [].
    - apply (wf_sorted s W).
    - pose proof (wf_sorted s W) as S. rewrite O in S |- *. inversion S; subst. constructor; [cbn [sst0 s_last]; unfold oprio, prio; lia|exact H2].
    - apply N. rewrite O. reflexivity.
    - exact E. }
  destruct (close_block t B) as [C1 _].
  assert (P : Permutation (fin_inf t) (map einf (filter fracb (x_order s)))).
  { rewrite <- I1. apply Permutation_sym, maybe_tail. }
  revert C1. apply StronglySorted_weaken. intros a b Ga Gb R.
  apply (Permutation_in _ P), in_map_iff in Ga. apply (Permutation_in _ P), in_map_iff in Gb.
  destruct Ga as (x & <- & _). destruct Gb as (y & <- & _). exact R.
Qed.

(** ** The branches *)
Lemma branches_len c : candidates s = Ok c -> Z.of_nat (List.length (branches s c)) = c_num c.
Proof.
  intros H. destruct (cand_lists c H) as (_ & _ & _ & ->). unfold branches, all_branches. rewrite app_length.
  assert (E : List.length (flat_map (inf_branches objs (x_sol s)) (c_inf c)) = (2 * List.length (c_inf c))%nat).
  { generalize (c_inf c). induction l as [|i l IH]; simpl; [reflexivity|]. simpl in IH. lia. }
  rewrite E. change (flat_map fbr (c_feas c)) with (flat_map (feas_branches objs (x_sol s) (x_lo s) (x_up s)) (c_feas c)). lia.
Qed.
Lemma in_branches c b : In b (branches s c) <->
  (exists i, In i (c_inf c) /\ In b (ibr i)) \/ (exists i, In i (c_feas c) /\ In b (fbr i)).
Proof. unfold branches, all_branches. rewrite in_app_iff, !in_flat_map. reflexivity. Qed.
Lemma ibr_in i b : In b (ibr i) -> b_obj b = i /\ b_col b = col s i /\ b_val b = value s i /\
  b_bd b = if b_up b then cei (value s i) else flo (value s i).
Proof. intros [<-|[<-|[]]]; cbn; auto. Qed.
Lemma fbr_in i b : In b (fbr i) -> b_obj b = i /\ b_col b = col s i /\ b_val b = value s i /\
  if b_up b then b_bd b = cei (value s i + half) /\ cei (value s i - half) < high s i
  else b_bd b = flo (value s i - half) /\ low s i < flo (value s i + half).
Proof.
  unfold fbr, feas_branches. rewrite in_app_iff. change (olo objs (x_lo s) i) with (low s i).
  change (oup objs (x_up s) i) with (high s i). change (osol objs (x_sol s) i) with (value s i).
  intros [G|G].
  - destruct (Qltb (low s i) _) eqn:E; [|destruct G]. apply Qltb_lt in E. destruct G as [<-|[]]. cbn. auto.
  - destruct (Qltb (cei _) _) eqn:E; [|destruct G]. apply Qltb_lt in E. destruct G as [<-|[]]. cbn. auto.
Qed.
Lemma C219_ok c : candidates s = Ok c -> C219_spec s c.
Proof.
  intros H. destruct (lists_ok c H) as (_ & _ & LI & LF).
  assert (FI : forall i b, In i (c_inf c) -> In b (ibr i) -> inside s b /\ ~ keeps b (b_val b)).
  { intros i b I B. apply LI in I. destruct I as [L F]. destruct (frac_ok i L F) as [X N].
    destruct (in_range i L) as (I1 & I2 & _). apply ibr_in in B. destruct B as (B1 & B2 & B3 & B4).
    unfold inside, keeps. rewrite B1, B3, B4. pose proof (flo_spec (value s i)) as Fl. pose proof (cei_spec (value s i)) as Ce.
    pose proof (flo_integral (value s i)) as Fi. pose proof (cei_integral (value s i)) as Ci. destruct (b_up b).
    - split; [split; [|split; [exact Ci|exact B2]]|].
      + split; [lra|]. apply integral_lt; [exact Ci|exact I2|lra].
      + intros G. apply N. destruct Ci as [z Z]. exists z. rewrite <- Z. lra.
    - split; [split; [|split; [exact Fi|exact B2]]|].
      + split; [|lra]. apply integral_lt; [exact I1|exact Fi|lra].
      + intros G. apply N. destruct Fi as [z Z]. exists z. rewrite <- Z. lra. }
  assert (FF : forall i b, In i (c_feas c) -> In b (fbr i) -> inside s b /\ ~ keeps b (b_val b)).
  { intros i b I B. apply LF in I. destruct I as [L F]. destruct (feas_ok i L (proj1 F)) as (k & K & A & KB).
    destruct (in_range i L) as (I1 & I2 & _). apply fbr_in in B. destruct B as (B1 & B2 & B3 & B4).
    pose proof (near_floor _ _ K A) as NF. pose proof (near_ceil _ _ K A) as NC.
    pose proof (near_down _ _ K A) as ND. pose proof (near_up _ _ K A) as NU. apply Qabs_lt in A.
    unfold inside, keeps. rewrite B1, B3. destruct (b_up b).
    - destruct B4 as [-> Lt]. split; [split; [|split; [apply cei_integral|exact B2]]|lra].
      split; [lra|]. destruct (Qlt_le_dec (high s i) (cei (value s i + half))) as [G|G]; [|exact G].
      assert (high s i <= k) by (apply integral_lt; [exact I2|exact K|lra]). lra.
    - destruct B4 as [-> Lt]. split; [split; [|split; [apply flo_integral|exact B2]]|lra].
      split; [|lra]. destruct (Qlt_le_dec (flo (value s i - half)) (low s i)) as [G|G]; [|exact G].
      assert (k <= low s i) by (apply integral_lt; [exact K|exact I1|lra]). lra. }
  split; [|split; [|split; [apply branches_len, H|split]]].
  - apply Forall_forall. intros b B. apply in_branches in B. destruct B as [(i & I & B)|(i & I & B)]; [apply (FI i b I B)|apply (FF i b I B)].
  - apply Forall_forall. intros b B. apply in_branches in B. destruct B as [(i & I & B)|(i & I & B)]; [apply (FI i b I B)|apply (FF i b I B)].
  - intros i z I Iz. destruct (Qlt_le_dec (flo (value s i)) z) as [G|G].
    + eexists. split; [apply in_branches; left; exists i; split; [exact I|right; left; reflexivity]|].
      cbn [b_obj]. split; [reflexivity|]. unfold keeps. cbn [b_up b_bd]. change (osol objs (x_sol s) i) with (value s i).
      pose proof (cei_spec (value s i)). pose proof (flo_spec (value s i)). apply integral_lt; [apply cei_integral|exact Iz|].
      assert (flo (value s i) + 1 <= z).
      { destruct (Qlt_le_dec z (flo (value s i) + 1)) as [G'|G']; [|exact G'].
        pose proof (integral_lt _ _ Iz (flo_integral (value s i)) G'). lra. }
      lra.
    + eexists. split; [apply in_branches; left; exists i; split; [exact I|left; reflexivity]|].
      cbn [b_obj]. split; [reflexivity|]. unfold keeps. cbn [b_up b_bd]. exact G.
  - intros i I. pose proof I as I0. apply LF in I. destruct I as [L F]. destruct (feas_ok i L (proj1 F)) as (k & K & A & KB).
    destruct (in_range i L) as (I1 & I2 & _).
    exists k. split; [exact K|]. split; [exact A|]. split; [exact KB|]. intros z Iz Bz Nz.
    pose proof (near_floor _ _ K A) as NF. pose proof (near_ceil _ _ K A) as NC.
    pose proof (near_down _ _ K A) as ND. pose proof (near_up _ _ K A) as NU.
    destruct (Qlt_le_dec z k) as [G|G].
    + exists {| b_up := false; b_obj := i; b_col := col s i; b_val := value s i; b_bd := flo (value s i - half) |}.
      split; [|split; [reflexivity|]].
      * apply in_branches. right. exists i. split; [exact I0|]. unfold fbr, feas_branches. apply in_app_iff. left.
        change (olo objs (x_lo s) i) with (low s i). change (osol objs (x_sol s) i) with (value s i).
        assert (Qltb (low s i) (flo (value s i + half)) = true) as -> by (apply Qltb_lt; lra). left. reflexivity.
      * unfold keeps. cbn. assert (z <= k - 1); [|lra].
        destruct (integral_plus k (-1) K) as [y Y]. apply integral_lt; [exact Iz| |lra].
        exists y. rewrite <- Y. reflexivity.
    + exists {| b_up := true; b_obj := i; b_col := col s i; b_val := value s i; b_bd := cei (value s i + half) |}.
      assert (k < z) by (apply Qle_lteq in G; destruct G as [G|G]; [exact G|exfalso; apply Nz; lra]).
      split; [|split; [reflexivity|]].
      * apply in_branches. right. exists i. split; [exact I0|]. unfold fbr, feas_branches. apply in_app_iff. right.
        change (oup objs (x_up s) i) with (high s i). change (osol objs (x_sol s) i) with (value s i).
        assert (Qltb (cei (value s i - half)) (high s i) = true) as -> by (apply Qltb_lt; lra). left. reflexivity.
      * unfold keeps. cbn. assert (k + 1 <= z); [|lra].
        destruct (Qlt_le_dec z (k + 1)) as [G'|G']; [|exact G'].
        pose proof (integral_lt _ _ Iz K G'). lra.
Qed.
End Sort.
