(** * Choosing among sets: theorems *)
From Coq Require Import List Arith ZArith QArith Qabs Bool Permutation Sorting.Sorted Lia Lqa.
From Verif Require Import Base Arr Nwc_Model Nwc_Spec Nwc_Proofs.
Import ListNotations.
Open Scope Q_scope.

(** ** C328: the list of candidate sets *)
Theorem C328_list : forall srt root strong start cs, sorter srt -> prios cs ->
  exists r, setup srt root strong start cs = Ok r /\ good_list strong start cs r.
Proof.
  intros srt root strong start cs Sr Pr.
  destruct (setup_spec srt root strong start cs Sr Pr) as (onl & oth & bp & r & T & I1 & E & Eu & Eo & El).
  exists r. split; [exact E |].
  destruct I1 as (Nd & Mem & On & Mn & Em & Ot).
  destruct (Sr (negs onl)) as [Sp _].
  set (s := map snd (srt (negs onl))) in *.
  assert (Ps : Permutation s (map fst onl)).
  { unfold s. rewrite (Permutation_map snd Sp). unfold negs. rewrite map_map. reflexivity. }
  assert (Ls : length s = length onl) by (rewrite (Permutation_length Ps); apply map_length).
  exists (s ++ oth).
  assert (Ll : length (s ++ oth) = r_uns r) by (rewrite app_length; lia).
  assert (Pa : Permutation (s ++ oth) (map fst onl ++ oth)) by (now apply Permutation_app_tail).
  repeat apply conj.
  - rewrite El. apply firstn_exact. rewrite map_length. now symmetry.
  - exact Ll.
  - apply (Permutation_NoDup (Permutation_sym Pa)). exact Nd.
  - intros o. rewrite <- Mem. split; apply Permutation_in; [exact Pa | now apply Permutation_sym].
  - intros o c O S1.
    assert (O1 : In o s).
    { destruct strong; [| rewrite Eo in O; destruct O]. rewrite Eo, <- Ls in O.
      rewrite firstn_exact in O by reflexivity. exact O. }
    apply (Permutation_in _ Ps) in O1. apply in_map_iff in O1. destruct O1 as ([o' v] & <- & O1). cbn [fst] in *.
    destruct (On o' v O1) as (d & S2 & _ & Pd). rewrite (isset_fun _ _ _ _ _ S1 S2), Pd.
    assert (U : unsat start cs o').
    { apply Mem. apply in_or_app. left. apply in_map_iff. now exists (o', v). }
    destruct U as (d' & S3 & P3). rewrite (isset_fun _ _ _ _ _ S3 S2) in P3.
    split; [| intros x X; apply Mn; exact X].
    exists d. split; [destruct S2 as [_ S2]; eapply nth_error_In; eauto | auto].
  - intros -> N. rewrite Eo. destruct onl as [| q onl]; [| cbn; lia].
    destruct (Em eq_refl) as [-> _]. destruct s; [now destruct N | discriminate Ls].
  - rewrite Eo, app_length. destruct strong; lia.
  - intros ->. exact Eo.
Qed.
Print Assumptions C328_list.

(** A sorter, so that the contract is not empty: insertion. *)
Fixpoint ins (x : Q * nat) (l : list (Q * nat)) : list (Q * nat) :=
  match l with
  | [] => [x]
  | y :: l => if Qle_bool (fst x) (fst y) then x :: y :: l else y :: ins x l
  end.
Definition isort (l : list (Q * nat)) : list (Q * nat) := fold_right ins [] l.

Lemma ins_perm x l : Permutation (ins x l) (x :: l).
Proof.
  induction l as [| y l IH]; [reflexivity |]. cbn [ins]. destruct (Qle_bool (fst x) (fst y)); [reflexivity |].
  rewrite IH. apply perm_swap.
Qed.
Lemma ins_sorted x l : StronglySorted (fun a b => fst a <= fst b) l ->
  StronglySorted (fun a b : Q * nat => fst a <= fst b) (ins x l).
Proof.
  induction 1 as [| y l S1 IH F]; [repeat constructor |]. cbn [ins].
  destruct (Qle_bool (fst x) (fst y)) eqn:E.
  - apply Qle_bool_iff in E. constructor; [constructor; assumption |]. constructor; [exact E |].
    eapply Forall_impl; [| exact F]. intros z Z. cbn in *. lra.
  - constructor; [exact IH |].
    assert (L : fst y <= fst x).
    { destruct (Qlt_le_dec (fst y) (fst x)) as [H | H]; [lra |]. apply Qle_bool_iff in H. congruence. }
    apply (Permutation_Forall (Permutation_sym (ins_perm x l))). constructor; [exact L | exact F].
Qed.
Example isort_sorter : sorter isort.
Proof.
  intros l. split; induction l as [| x l IH]; cbn; try constructor.
  - rewrite ins_perm. now constructor.
  - now apply ins_sorted.
Qed.

Example C328_ex :
  setup isort false true 5
    [Cand 1 2 7; Cand 0 1 9; Cand 1 1 3; Cand 1 1 8; Cand 1 2 4; Cand 1 1 (-1)]
  = Ok (Res [Some 8; Some 7; Some 10; Some 9; Some 5; Some 5]%nat [-8; -(3); 0; 0; 0; 0] 2 5).
Proof. vm_compute. reflexivity. Qed.

(** ** C329: the most useful set comes first *)
Theorem C329_refuted : ~ C329_full.
Proof.
  intros H. specialize (H isort false true O [Cand 1 1 (-5); Cand 1 1 (-1)]
    (Res [Some 0; Some 1]%nat [5; 0] 1 2) isort_sorter).
  assert (P : prios [Cand 1 1 (-5); Cand 1 1 (-1)]) by (repeat constructor; cbn; lia).
  specialize (H P eq_refl 1%Z).
  destruct H as (o & c & E & S1 & _ & _ & M).
  - split; [exists (Cand 1 1 (-5)); cbn; repeat split; auto; lra |].
    intros d [<- | [<- | []]] _; cbn; lia.
  - cbn in E. injection E as <-. destruct S1 as [_ S1]. cbn in S1. injection S1 as <-.
    specialize (M 1%nat (Cand 1 1 (-1))).
    assert (X : -1 <= -5).
    { apply M; [split; [lia | reflexivity] | cbn; lra | reflexivity]. }
    lra.
Qed.
Print Assumptions C329_refuted.

Theorem C329_partial : forall srt root strong start cs r, sorter srt -> prios cs ->
  (forall c, In c cs -> 0 < c_inf c -> best_prio cs (c_prio c) -> 0 <= value root c) ->
  setup srt root strong start cs = Ok r -> best_first root start cs r.
Proof.
  intros srt root strong start cs r Sr Pr V E.
  destruct (setup_spec srt root strong start cs Sr Pr) as (onl & oth & bp & r1 & T & I1 & E1 & _ & _ & El).
  rewrite E in E1. injection E1 as <-.
  destruct I1 as (Nd & Mem & On & Mn & Em & Ot).
  intros p Bp. pose proof Bp as [(c0 & C0 & P0 & Q0) Bmin].
  assert (Hs : exists o0, isset start cs o0 c0).
  { apply In_nth_error in C0. destruct C0 as [k K]. exists (k + start)%nat. split; [lia |].
    now replace (k + start - start)%nat with k by lia. }
  destruct Hs as (o0 & S0).
  assert (O0 : In o0 (map fst onl ++ oth)) by (apply Mem; exists c0; auto).
  destruct onl as [| q onl].
  { destruct (Em eq_refl) as [-> _]. destruct O0. }
  destruct (Sr (negs (q :: onl))) as [Sp Ss].
  destruct (srt (negs (q :: onl))) as [| [k o] s] eqn:Es.
  { apply Permutation_nil in Sp. discriminate Sp. }
  inversion Ss as [| ? ? Ss1 Ss2]; subst.
  assert (InO : In (k, o) (negs (q :: onl))) by (apply (Permutation_in _ Sp); left; reflexivity).
  apply in_map_iff in InO. destruct InO as ([o1 v1] & X & InO). cbn [fst snd] in X. injection X as Xk Xo. subst o1.
  destruct (On o v1 InO) as (c & S1 & Ev & Pc).
  assert (Bb : (bp = c_prio c0)%Z).
  { assert (A : (bp <= c_prio c0)%Z) by (apply Mn; auto).
    assert (Oin : In o (map fst (q :: onl) ++ oth)).
    { apply in_or_app. left. apply in_map_iff. now exists (o, v1). }
    apply Mem in Oin. destruct Oin as (d & S2 & Pd). rewrite (isset_fun _ _ _ _ _ S2 S1) in Pd.
    assert (B : (c_prio c0 <= c_prio c)%Z).
    { apply Bmin; [destruct S1 as [_ S1]; eapply nth_error_In; eauto | exact Pd]. }
    lia. }
  assert (Pi : 0 < c_inf c).
  { assert (Oin : In o (map fst (q :: onl) ++ oth)).
    { apply in_or_app. left. apply in_map_iff. now exists (o, v1). }
    apply Mem in Oin. destruct Oin as (d & S2 & Pd). now rewrite (isset_fun _ _ _ _ _ S2 S1) in Pd. }
  exists o, c. split; [now rewrite El |]. split; [exact S1 |]. split; [congruence |]. split; [exact Pi |].
  intros o' c' S' P' Q'.
  assert (V0 : 0 <= value root c).
  { apply V; [destruct S1 as [_ S1]; eapply nth_error_In; eauto | exact Pi |]. rewrite Pc, Bb. exact Bp. }
  assert (O' : In o' (map fst (q :: onl) ++ oth)) by (apply Mem; exists c'; auto).
  apply in_app_or in O'. destruct O' as [O' | O'].
  - apply in_map_iff in O'. destruct O' as ([o2 v2] & <- & O'). cbn [fst] in *.
    destruct (On o2 v2 O') as (d & S2 & Ed & _). rewrite (isset_fun _ _ _ _ _ S' S2), <- Ed, <- Ev.
    assert (Y : In (- v2, o2) ((k, o) :: s)).
    { apply (Permutation_in _ (Permutation_sym Sp)). apply in_map_iff. now exists (o2, v2). }
    destruct Y as [Y | Y].
    + injection Y as Y1 Y2. assert (Z : - v2 == - v1) by (rewrite <- Y1, <- Xk; reflexivity). lra.
    + rewrite Forall_forall in Ss2. specialize (Ss2 _ Y). cbn [fst] in Ss2.
      rewrite <- Xk in Ss2. lra.
  - assert (Z : value root c' <= 0) by (apply (Ot o' c' O' S'); congruence). lra.
Qed.
Print Assumptions C329_partial.

(** In particular at the root. *)
Theorem C329_root_partial : forall srt strong start cs r, sorter srt -> prios cs ->
  setup srt true strong start cs = Ok r -> best_first true start cs r.
Proof.
  intros srt strong start cs r Sr Pr. apply C329_partial; auto. intros c _ P _. cbn. lra.
Qed.
Print Assumptions C329_root_partial.

(** ** C330: usefulness *)
Theorem C330_refuted : ~ C330_full.
Proof.
  intros H.
  specialize (H true (1#1000) (-10) 3 (-12) [Memb 0 1 (1#2) 2 (-11)] [Memb 0 1 (1#2) 2 (-11)] (-18) (-18)).
  destruct H as [H _]; try (vm_compute; reflexivity); try (vm_compute; discriminate).
  - repeat constructor. vm_compute. discriminate.
  - repeat constructor; vm_compute; discriminate.
  - vm_compute in H. now apply H.
Qed.
Print Assumptions C330_refuted.

Theorem C330_partial : forall geo tol cutoff mult obj ms ms' r r',
  obj <= cutoff * mult -> Forall sane ms -> Forall2 better ms ms' ->
  usefulness geo tol cutoff mult obj ms = Ok r ->
  usefulness geo tol cutoff mult obj ms' = Ok r' -> 0 <= r /\ r <= r'.
Proof.
  intros geo tol cutoff mult obj ms ms' r r' C Sa B E E'. unfold usefulness in *.
  apply (useful_mono geo tol (cutoff * mult) obj C ms ms' B Sa
    (if geo then 1 else 0) (if geo then 1 else 0) r r'); auto; destruct geo; lra.
Qed.
Print Assumptions C330_partial.

(** With arithmetical means a better set is never less useful, whatever the signs. *)
Theorem C330_sum_partial : forall tol cutoff mult obj ms ms' r r',
  Forall2 better ms ms' ->
  usefulness false tol cutoff mult obj ms = Ok r ->
  usefulness false tol cutoff mult obj ms' = Ok r' -> r <= r'.
Proof.
  intros tol cutoff mult obj ms ms' r r' B E E'. unfold usefulness in *.
  apply (useful_sum_mono tol (cutoff * mult) obj ms ms' B 0 0 r r'); auto. lra.
Qed.
Print Assumptions C330_sum_partial.

(** Once the multiplied cutoff is below the node's objective, usefulness knows only the number
    of free members. *)
Theorem C330_blind : forall geo tol cutoff mult obj ms r,
  cutoff * mult < obj -> Forall sane ms -> Forall (fun m => m_x m <= m_up m) ms ->
  usefulness geo tol cutoff mult obj ms = Ok r ->
  r == if geo then (cutoff * mult - obj) ^ Z.of_nat (free tol ms)
       else inject_Z (Z.of_nat (free tol ms)) * (cutoff * mult - obj).
Proof.
  intros geo tol cutoff mult obj ms r C Sa Xa E. unfold usefulness in E.
  rewrite (useful_low geo tol (cutoff * mult) obj C ms Sa Xa _ _ E). destruct geo; ring.
Qed.
Print Assumptions C330_blind.

Example C330_ex :
  (usefulness true (1#1000) 10 3 4 [Memb 0 1 (1#2) 2 6; Memb 0 1 (1#4) 4 3; Memb 0 0 0 9 9],
   usefulness true (1#1000) 10 3 4 [Memb 0 1 (1#2) 6 6; Memb 0 1 (1#4) 4 40; Memb 0 0 0 9 9],
   usefulness true (1#1000) (-10) 3 (-12) [Memb 0 1 (1#2) 2 (-11); Memb 0 1 (1#4) 4 0])
  = (Ok (24#4), Ok (156#2), Ok 324).
Proof. vm_compute. reflexivity. Qed.

(** ** C331: the estimates *)
Theorem C331_refuted : ~ C331_full.
Proof.
  intros H. specialize (H (fun a _ => a) true 1%nat [Obs false [2] true] 0%nat).
  assert (X : mean (fun a _ => a) true
    (nth 0 (fold_left (learn true) [Obs false [2] true] (pc_init 1)) (0, 0%nat)) ==
    the_mean (fun a _ => a) true (seen 0 [Obs false [2] true] [])).
  { apply H; [auto | repeat constructor | lia | discriminate]. }
  vm_compute in X. discriminate X.
Qed.
Print Assumptions C331_refuted.

Theorem C331_partial : forall (root : Q -> nat -> Q) geo n os k,
  (forall a b m, a == b -> root a m == root b m) ->
  fits n os -> (k < n)%nat -> seen k os [] <> [] ->
  (geo = false \/ exists o, In o os /\ o_root o = true) ->
  mean root geo (nth k (fold_left (learn geo) os (pc_init n)) (0, O))
  == the_mean root geo (seen k os []).
Proof.
  intros root geo n os k Hr F K N [-> | (o & O & R)].
  - assert (A : nth k (pc_init n) (0, O) = (0, O)).
    { unfold pc_init. apply nth_repeat. }
    destruct (learn_all false n k K os (pc_init n) [] F) as [B C];
      [apply repeat_length | now rewrite A | rewrite A; reflexivity |].
    now apply mean_eq.
  - apply in_split in O. destruct O as (a & b & ->).
    destruct (learn_rooted geo n k a o b (pc_init n) [] K F) as [B C]; [apply repeat_length | exact R |].
    now apply mean_eq.
Qed.
Print Assumptions C331_partial.

(** With geometrical means a set not tried at the root never learns anything. *)
Theorem C331_stuck : forall n os k, fits n os -> (k < n)%nat ->
  Forall (fun o => o_root o = false) os ->
  fst (nth k (fold_left (learn true) os (pc_init n)) (0, O)) == 0.
Proof.
  intros n os k F K R.
  assert (G : forall os p, fits n os -> Forall (fun o => o_root o = false) os -> length p = n ->
    fst (nth k p (0, O)) == 0 -> fst (nth k (fold_left (learn true) os p) (0, O)) == 0).
  { clear - K. induction os as [| o os IH]; intros p F R L Z; [exact Z |].
    pose proof (Forall_inv F) as F1. pose proof (Forall_inv_tail F) as F2. pose proof (Forall_inv R) as R1.
    pose proof (Forall_inv_tail R) as R2. cbn beta in F1, R1. cbn [fold_left].
    apply IH; [exact F2 | exact R2 | now apply learn_length |].
    rewrite (learn_nth true n) by auto. cbv zeta. rewrite R1.
    destruct (_ && _)%bool; cbn [fst]; [rewrite Z; ring | exact Z]. }
  apply G; auto; [apply repeat_length |]. unfold pc_init. rewrite nth_repeat. reflexivity.
Qed.
Print Assumptions C331_stuck.

Example C331_ex :
  let os := [Obs true [2; unset] true; Obs false [4; 0] true; Obs false [7; 7] false; Obs false [6; -(1)] true] in
  (fold_left (learn false) os (pc_init 2), seen 0 os []) = ([(12, 3%nat); (unset, 1%nat)], [2; 4; 6]).
Proof. vm_compute. reflexivity. Qed.
