(** C164-C171: branching on sets of variables of which exactly one is at its upper bound. *)
From Verif Require Import Base Arr Nwy_Model Nwy_Spec Nwy_Proofs.
#[local] Open Scope Q_scope.

Definition idl : list (Q * nat) -> list (Q * nat) := fun l => l.
Lemma idl_permutes : permutes idl.
Proof. intros l. apply Permutation_refl. Qed.
Definition nil_f : point -> Q := fun _ => 0.
(** Four binaries, one set. *)
Definition b4 : box := mkBox [0; 0; 0; 0] [1; 1; 1; 1].
Definition o4 : nway := make [0; 1; 2; 3]%nat.
Definition at_ (s : nat) : point := fun c => if Nat.eqb c s then 1 else 0.
Definition i4 (d : nat) : binfo := mkInfo [1 # 2; 1 # 2; 0; 0] (1 # 1000000) 100 d 0.
Lemma lt4 : forall c : nat, (c < 4)%nat -> c = 0%nat \/ c = 1%nat \/ c = 2%nat \/ c = 3%nat.
Proof. lia. Qed.
Lemma in_mem4 : forall c, In c (n_mem o4) -> (c < 4)%nat.
Proof. cbn. intros c H. lia. Qed.
Lemma wf4 : wf o4 b4.
Proof.
  constructor; try reflexivity.
  - intros c I. apply in_mem4 in I. auto.
  - cbn. repeat constructor; cbn; lia.
  - cbn. discriminate.
  - cbn. intros s c [].
  - cbn. intros s c _ [].
Qed.
Ltac four H := apply lt4 in H; destruct H as [-> |[-> |[-> | ->]]].
Lemma sane4 : sane o4 b4.
Proof. intros c I. apply in_mem4 in I. four I; cbn; (split; [lra|split; intros; lra]). Qed.
Lemma apart4 : apart o4.
Proof. intros s s' c _ []. Qed.
Lemma bnd4 : forall f cutoff, bnd_ok o4 b4 f cutoff.
Proof. intros f cutoff s d E. destruct s; discriminate. Qed.
Lemma inside4 : forall s, (s < 4)%nat -> inside b4 (at_ s).
Proof. intros s L c C. four L; cbn in C; four C; vm_compute; split; congruence. Qed.
Lemma choice4 : forall s, (s < 4)%nat -> choice o4 b4 (at_ s) s.
Proof.
  intros s L. split.
  - exists s. four L; vm_compute; repeat split; congruence.
  - intros s' c' N E _. unfold at_. assert (c' = s'). { do 4 (destruct s' as [|s']; [inv E; auto|]). destruct s'; discriminate. }
    subst c'. apply Nat.eqb_neq in N. rewrite N. assert (L' : (s' < 4)%nat) by (change 4%nat with (length (n_mem o4)); apply nth_error_Some; congruence). four L'; reflexivity.
Qed.
Lemma obeys4 : forall s x, obeys o4 b4 x s.
Proof. intros s x c []. Qed.

(** ** C164 *)
(** With two members fractional below the root the branch where the second is up is replaced by the one for the skipped members. *)
Theorem C164_refuted : ~ C164_full.
Proof.
  intros H. destruct (H idl o4 (i4 1) b4 ([0; 1], [2; 3])%nat nil_f (at_ 1) 1%nat idl_permutes wf4 sane4 apart4 (bnd4 _ _) eq_refl (inside4 1 ltac:(lia)) (choice4 1 ltac:(lia)) (obeys4 _ _)) as (k & b' & L & E & I).
  { vm_compute. congruence. }
  cbn in L. assert (K : k = 0%nat \/ k = 1%nat \/ k = 2%nat) by lia.
  destruct K as [-> |[-> | ->]]; vm_compute in E; inv E; destruct (I 1%nat ltac:(cbn; lia)) as [_ U]; vm_compute in U; congruence.
Qed.
Print Assumptions C164_refuted.
(** The point is in a branch exactly when no member is skipped, or its member is branched on and not the last one, or its member is skipped
    and some member is branched on. *)
Theorem C164_exact_partial : forall srt o i b r f x s, permutes srt -> wf o b -> sane o b -> apart o -> bnd_ok o b f (i_cutoff i) ->
  createBranch srt o i b = Ok r -> inside b x -> choice o b x s -> obeys o b x s -> f x <= i_cutoff i ->
  ((exists k b', (k < numberBranches r)%nat /\ branchNext o r k b = Ok b' /\ inside b' x) <->
   snd r = [] \/ (exists p, nth_error (fst r) p = Some s /\ (S p < length (fst r))%nat) \/ (In s (snd r) /\ fst r <> [])).
Proof.
  intros srt o i b r f x s P W Sa Ap Bo H I Ch Ob Fx. destruct (cb_ok _ _ _ _ _ P H) as (N & M & _).
  assert (Is : In s (fst r ++ snd r)).
  { apply M. destruct Ch as [(c & C & Fr & X) Ch]. exists c. split; auto. split; auto. intros (d & E & L). specialize (Bo s d E L x I). apply (Qlt_irrefl (f x)). eapply Qle_lt_trans; [apply Fx|].
    apply Bo; auto. split; eauto. }
  assert (N1 : NoDup (fst r)) by (clear - N; induction (fst r); [constructor|]; inv N; constructor; [intros J; apply H1; apply in_or_app; auto|auto]).
  assert (N2 : forall t, In t (fst r) -> ~ In t (snd r)).
  { clear - N. induction (fst r) as [|a l IH]; [intros t []|]. inv N. intros t [-> |J]; [intros K; apply H1; apply in_or_app; auto|auto]. }
  assert (Free : forall t, In t (fst r ++ snd r) -> exists c, nth_error (n_mem o) t = Some c /\ lo b c < up b c) by (intros t J; apply M in J; destruct J as (c & A & B & _); eauto).
  assert (Cons : forall k, nth_error (fst r) k = Some s \/ which_of r k <> Some k -> exists b', branchNext o r k b = Ok b').
  { intros k D. eapply branch_runs; eauto. intros t d E Wk J. destruct D as [D|D]; [|contradiction]. assert (t = s) by congruence. subst t. apply Ob; auto. }
  destruct Ch as [(c & C & Fr & X) Ch]. assert (Ch' : choice o b x s) by (split; eauto). split.
  - intros (k & b' & L & E & J). destruct (snd r) as [|a sk] eqn:Sk; [auto|]. right. assert (Ne : snd r <> []) by (rewrite Sk; discriminate). rewrite <- Sk in *. apply in_app_or in Is. destruct Is as [Is|Is].
    + left. apply In_nth_error in Is. destruct Is as [p Ep]. exists p. split; auto. assert (Lp : (p < length (fst r))%nat) by (apply nth_error_Some; congruence).
      destruct (Nat.eq_dec (S p) (length (fst r))) as [El|]; [|lia]. exfalso.
      assert (Wk : which_of r k <> Some p). { intros Z. pose proof (which_some _ _ _ Z). subst k. assert (which_of r p = None) by (apply which_none; auto). congruence. }
      pose proof (branch_out _ _ _ _ _ _ _ _ _ W N1 E Ep C Wk J). lra.
    + right. split; auto. intros Z. assert (Wk : which_of r k <> None) by (intros K; apply which_none in K; destruct K as [_ K]; rewrite Z in K; discriminate).
      pose proof (branch_sk _ _ _ _ _ _ _ _ W N E Is C Wk J). lra.
  - assert (Arm : forall p, nth_error (fst r) p = Some s -> which_of r p = Some p -> exists k b', (k < numberBranches r)%nat /\ branchNext o r k b = Ok b' /\ inside b' x).
    { intros p Ep Wp. assert (Lp : (p < length (fst r))%nat) by (apply nth_error_Some; congruence). destruct (Cons p) as (b' & E); auto. exists p, b'. split; [unfold numberBranches; lia|]. split; auto.
      eapply branch_in; eauto. }
    intros [Z|[(p & Ep & L)|(J & Ne)]].
    + rewrite Z, app_nil_r in Is. apply In_nth_error in Is. destruct Is as [p Ep]. apply (Arm p Ep). unfold which_of. rewrite Z. reflexivity.
    + apply (Arm p Ep). destruct (which_of r p) as [w|] eqn:Wp; [apply which_some in Wp; congruence|]. apply which_none in Wp. lia.
    + set (k := (length (fst r) - 1)%nat). assert (Ln : (0 < length (fst r))%nat) by (destruct (fst r); [congruence|cbn; lia]).
      assert (Wk : which_of r k = None) by (apply which_none; split; [intros Z; rewrite Z in J; destruct J|unfold k; lia]).
      destruct (Cons k) as (b' & E); [right; congruence|]. exists k, b'. split; [unfold numberBranches, k; lia|]. split; auto. eapply branch_in; eauto. right. split; auto. intros K. eapply N2; eauto.
Qed.
Print Assumptions C164_exact_partial.
(** Down to the depth below which only fractional members are branched on, and in particular at the root, no point is lost. *)
Theorem C164_partial : forall srt o i b r f x s, permutes srt -> wf o b -> sane o b -> apart o -> bnd_ok o b f (i_cutoff i) -> (i_depth i <= n_frac o)%nat ->
  createBranch srt o i b = Ok r -> inside b x -> choice o b x s -> obeys o b x s -> f x <= i_cutoff i ->
  exists k b', (k < numberBranches r)%nat /\ branchNext o r k b = Ok b' /\ inside b' x.
Proof.
  intros srt o i b r f x s P W Sa Ap Bo D H I Ch Ob Fx. eapply C164_exact_partial; eauto. left. destruct (cb_ok _ _ _ _ _ P H) as (_ & _ & Sk & _). auto.
Qed.
Print Assumptions C164_partial.
Example C164_ex : exists k b', branchNext o4 ([0; 1; 2; 3]%nat, []) k b4 = Ok b' /\ inside b' (at_ 1).
Proof.
  destruct (C164_partial idl o4 (i4 0) b4 ([0; 1; 2; 3]%nat, []) nil_f (at_ 1) 1%nat idl_permutes wf4 sane4 apart4 (bnd4 _ _) ltac:(cbn; lia) eq_refl (inside4 1 ltac:(lia)) (choice4 1 ltac:(lia)) (obeys4 _ _)) as (k & b' & _ & A & B); eauto.
  vm_compute. congruence.
Qed.

(** ** C165 *)
Definition zero4 : point := fun _ => 0.
(** The last two branches both hold the point where every member is down. *)
Theorem C165_refuted : ~ C165_full.
Proof.
  intros H. apply (H idl o4 (i4 1) b4 ([0; 1], [2; 3])%nat 1%nat 2%nat (mkBox [0; 0; 0; 0] [0; 0; 1; 1]) (mkBox [0; 0; 0; 0] [0; 0; 0; 0]) zero4 idl_permutes wf4 eq_refl); try (cbn; lia); try reflexivity.
  split; intros c L; cbn in L; four L; vm_compute; split; congruence.
Qed.
Print Assumptions C165_refuted.
(** Any other two branches have no point in common. *)
Theorem C165_partial : forall srt o i b r k1 k2 b1 b2 x, permutes srt -> wf o b ->
  createBranch srt o i b = Ok r -> (k1 < k2)%nat -> (k2 < numberBranches r)%nat -> snd r = [] \/ S k1 <> length (fst r) ->
  branchNext o r k1 b = Ok b1 -> branchNext o r k2 b = Ok b2 -> ~ (inside b1 x /\ inside b2 x).
Proof.
  intros srt o i b r k1 k2 b1 b2 x P W H Lk Lr D E1 E2 [I1 I2]. destruct (cb_ok _ _ _ _ _ P H) as (N & M & _).
  assert (N1 : NoDup (fst r)) by (clear - N; induction (fst r); [constructor|]; inv N; constructor; [intros J; apply H1; apply in_or_app; auto|auto]).
  assert (L1 : (k1 < length (fst r))%nat) by (unfold numberBranches in Lr; destruct (snd r); lia).
  destruct (nth_error (fst r) k1) as [s|] eqn:Es; [|apply nth_error_None in Es; lia]. destruct (proj1 (M s)) as (c & C & Fr & _); [apply in_or_app; left; eapply nth_error_In; eauto|].
  assert (W2 : which_of r k2 <> Some k1) by (intros Z; apply which_some in Z; lia).
  pose proof (branch_out _ _ _ _ _ _ _ _ _ W N1 E2 Es C W2 I2) as X.
  assert (W1 : which_of r k1 = Some k1). { destruct (which_of r k1) as [w|] eqn:Z; [apply which_some in Z; congruence|]. apply which_none in Z. destruct Z, D; contradiction. }
  unfold branchNext, branchOn in E1. bnd E1 b3 E3. rewrite W1 in *. pose proof (arms_fix o (wf_nd _ _ W) (wf_own _ _ W) _ _ _ _ _ E3 N1 _ _ _ Es C) as F. cbn [Nat.add] in F.
  rewrite (proj2 (is_up_iff (Some k1) k1) eq_refl) in F. destruct F as (F1 & F2 & _). destruct (skips_ok o _ _ _ E1) as ((K1 & _ & K) & _). destruct (K c (up b c) F1 F2) as [G1 G2].
  pose proof (arms_keeps _ _ _ _ _ _ E3) as (K3 & _). destruct (I1 c) as [J1 J2]; [rewrite K1, K3; apply (wf_mem _ _ W); eapply nth_error_In; eauto|]. rewrite G1 in J1. lra.
Qed.
Print Assumptions C165_partial.
Example C165_ex : ~ (inside (mkBox [1; 0; 0; 0] [1; 0; 0; 0]) zero4 /\ inside (mkBox [0; 1; 0; 0] [0; 1; 0; 0]) zero4).
Proof. apply (C165_partial idl o4 (i4 0) b4 ([0; 1; 2; 3]%nat, []) 0 1 _ _ _ idl_permutes wf4 eq_refl); auto; cbn; lia. Qed.

(** ** C166 *)
(** One member 1/100 above its lower bound, one 1/100 below its upper bound: the two distances cancel. *)
Definition b2 : box := mkBox [0; 0] [1; 1].
Definition o2 : nway := make [0; 1]%nat.
Definition x2 : list Q := [1 # 100; 99 # 100].
Lemma wf2 : wf o2 b2.
Proof.
  constructor; try reflexivity.
  - cbn. lia.
  - cbn. repeat constructor; cbn; lia.
  - cbn. discriminate.
  - cbn. intros s c [].
  - cbn. intros s c _ [].
Qed.
Lemma ordered2 : ordered o2 b2.
Proof. intros c I. assert (K : c = 0%nat \/ c = 1%nat) by (cbn in I; lia). destruct K as [-> | ->]; vm_compute; congruence. Qed.
Lemma settled2 : settled o2 (1 # 10) x2 b2.
Proof. intros c I. assert (K : c = 0%nat \/ c = 1%nat) by (cbn in I; lia). destruct K as [-> | ->]; [left|right]; vm_compute; congruence. Qed.
Theorem C166_refuted : ~ C166_full.
Proof.
  intros H. destruct (H o2 (1 # 10) x2 b2 wf2 ordered2 eq_refl ltac:(vm_compute; congruence) settled2) as (_ & b' & r & E & _ & R).
  vm_compute in E. inv E. vm_compute in R. discriminate.
Qed.
Print Assumptions C166_refuted.
(** Everything but the distance; the value returned is at most the distance.  A set that is not satisfied is reported as such, and the
    feasible region cannot be asked for. *)
Theorem C166_partial : forall o tol x b, wf o b -> ordered o b -> length x = length (b_lo b) -> 0 <= tol ->
  (settled o tol x b -> infeasibility o tol x b = Ok 0 /\ exists b' r, feasibleRegion o tol x b = Ok (b', r) /\ region_ok o tol x b b' /\ Qabs r <= moved o x b b') /\
  ((exists c, In c (n_mem o) /\ ~ (close_to tol x b c (lo b c) \/ close_to tol x b c (up b c))) ->
   (exists r, infeasibility o tol x b = Ok r /\ tol < r) /\ feasibleRegion o tol x b = AssertFail).
Proof.
  intros o tol x b W Or Lx T.
  assert (F : forall c, In c (n_mem o) -> (c < length x)%nat /\ (c < length (b_lo b))%nat /\ (c < length (b_up b))%nat /\ lo b c <= up b c).
  { intros c I. pose proof (wf_mem _ _ W c I). rewrite (wf_box _ _ W), Lx. auto. }
  destruct (region_ok_ tol x (n_mem o) b 0 (wf_nd _ _ W) F) as [R1 R2]. split.
  - intros St. split; [apply infeas_settled; auto|]. destruct (R1 St) as (b' & r & E & G & A). exists b', r. split; auto. split.
    + destruct G as [G1 G2 G3]. constructor; auto. intros c I. destruct (G2 c I) as (e & E1 & E2 & E3 & E4). exists e. rewrite E1, E2. split; [reflexivity|]. split; [reflexivity|]. split; auto.
      destruct E3 as [-> | ->]; [left|right]; reflexivity.
    + unfold moved. eapply Qle_trans; [|apply A]. assert (Z : r - 0 == r) by lra. rewrite Z. apply Qle_refl.
  - intros (c & I & Ns). split; [|apply R2; eauto]. eapply infeas_un; eauto.
Qed.
Print Assumptions C166_partial.
Example C166_ex : exists b' r, feasibleRegion o2 (1 # 10) x2 b2 = Ok (b', r) /\ region_ok o2 (1 # 10) x2 b2 b'.
Proof.
  destruct (C166_partial o2 (1 # 10) x2 b2 wf2 ordered2 eq_refl ltac:(vm_compute; congruence)) as [A _]. destruct (A settled2) as (_ & b' & r & E & R & _). eauto.
Qed.

(** ** C167 *)
Definition oA : nway := make [0; 1]%nat.
Definition oB : nway := make [2; 3]%nat.
Definition xAB : point := fun c => match c with 0%nat | 2%nat => 1 | _ => 0 end.
Definition iR : binfo := mkInfo [1 # 2; 1 # 2; 1; 0] (1 # 1000000) 10 0 0.
Definition p2 : opts := mkOpts 3 1 2.
Definition good : nat -> nat -> box -> answer := fun _ _ _ => Opt 0.
Definition any : point -> Prop := fun _ => True.
Lemma wfA : wf oA b4 /\ wf oB b4.
Proof. split; constructor; try reflexivity; cbn; try discriminate; try tauto; try lia; repeat constructor; cbn; lia. Qed.
Lemma goodh : forall k, honest any nil_f (good k).
Proof. intros k j b x _ _. apply Qle_refl. Qed.
Lemma solAB : solution any [oA; oB] b4 xAB.
Proof.
  split; [exact Logic.I|]. split.
  - intros c L. cbn in L. four L; vm_compute; split; congruence.
  - intros o [<- |[<- |[]]]; exists 0%nat; split; try (intros c []).
    + split; [exists 0%nat; split; [reflexivity|]; vm_compute; split; congruence|]. intros s c N E _. destruct s as [|[|[|s]]]; try congruence; try discriminate E. inv E. reflexivity.
    + split; [exists 2%nat; split; [reflexivity|]; vm_compute; split; congruence|]. intros s c N E _. destruct s as [|[|[|s]]]; try congruence; try discriminate E. inv E. reflexivity.
Qed.
(** The second set is satisfied at the root, so the bounds kept for it are the cutoff there; once a better solution is known they exceed the cutoff and
    all its members get fixed at zero. *)
Theorem C167_refuted : ~ C167_full.
Proof.
  intros H. destruct (H idl p2 iR good [0%nat] [oA; oB] [mkNway [0; 1]%nat None [0; 0] false 0; oB] [[0; 0]; [10; 10]] b4 b4 any nil_f idl_permutes goodh eq_refl eq_refl) as [_ K].
  - repeat constructor. intros [].
  - destruct wfA. intros o [<- |[<- |[]]]; auto.
  - reflexivity.
  - specialize (K [1%nat] 5 b4 (mkBox [0; 0; 0; 0] [1; 1; 0; 0]) ltac:(vm_compute; congruence)). assert (B : below b4 b4) by (repeat split; intros; lra).
    pose proof solAB as S0. destruct (K B eq_refl xAB S0 (proj1 (proj2 S0)) ltac:(vm_compute; congruence) 2%nat ltac:(cbn; lia)) as [_ U]. vm_compute in U. congruence.
Qed.
Print Assumptions C167_refuted.
(** The fixings of strong branching lose nothing; those made later by the bounds of the root lose nothing if they are for sets tested there and
    every solve there was optimal or infeasible.  If every branch of some set was closed there is no solution. *)
Theorem C167_partial : forall srt p i ans lst objs rows res b0 feas f,
  permutes srt -> (forall k, honest feas f (ans k)) -> i_depth i = 0%nat -> NoDup lst ->
  (forall o, In o objs -> wf o b0 /\ n_bnd o = []) ->
  strong_all srt p i ans lst objs rows b0 = Ok res ->
  match res with
  | None => forall x, solution feas objs b0 x -> ~ f x <= i_cutoff i
  | Some (objs', rows', b) =>
      (forall x, solution feas objs b0 x -> f x <= i_cutoff i -> inside b x) /\
      ((forall j k b, match ans j k b with Other _ => False | _ => True end) ->
       forall lst' cutoff b1 b2, incl lst' lst -> cutoff <= i_cutoff i -> below b1 b0 -> quick_fix objs' rows' cutoff lst' b1 = Ok b2 ->
       forall x, solution feas objs b0 x -> inside b1 x -> f x <= cutoff -> inside b2 x)
  end.
Proof.
  intros srt p i ans lst objs rows res b0 feas f P Ho D N Wo H.
  assert (W0 : forall k o, nth_error objs k = Some o -> wf o b0 /\ (In k lst -> n_bnd o = [])) by (intros k o E; destruct (Wo o (nth_error_In _ _ E)); auto).
  assert (Hi : forall x, solution feas objs b0 x -> f x <= i_cutoff i -> inside b0 x) by (intros x (_ & I & _) _; auto).
  pose proof (strong_all_ok _ _ _ _ _ _ _ P Ho D _ _ _ _ _ N W0 (sub_refl _) Hi H) as R. destruct res as [[[objs' rows'] b]|]; [|intros x So Fx; eapply R; eauto].
  destruct R as (Al1 & Al2 & _ & R1 & _ & R2). split; auto. intros NO lst' cutoff b1 b2 Inc Cc (Bl & Bu & Bw) E x So I1 Fx.
  assert (W' : forall o, In o objs' -> wf o b0).
  { intros o Io. apply In_nth_error in Io. destruct Io as [k K]. destruct Al2 as [_ Al2]. destruct (Al2 _ _ K) as (o' & K' & Mm & Cm).
    destruct (W0 _ _ K') as [[V1 V2 V3 V4 V5 V6] _]. constructor; unfold consequences in *; rewrite <- ?Mm, <- ?Cm; auto. }
  eapply (quick_in objs' rows' cutoff (i_cutoff i) objs b0 feas f x); eauto.
  - intros c L. apply Bw; auto.
  - intros k o' Ik K. destruct Al2 as [_ Al2]. destruct (Al2 _ _ K) as (o & K' & Mm & Cm). destruct (R2 NO k o (Inc _ Ik) K') as (row & Er & G). exists row. split; auto.
    intros y Sy Fy s Ch Ob. apply (G y Sy Fy); auto; [unfold choice in *; rewrite Mm; auto|unfold obeys, consequences in *; rewrite Cm; auto].
Qed.
Print Assumptions C167_partial.
(** The second member of the first set is closed by its value; the solution keeps the first. *)
Definition mixed : nat -> nat -> box -> answer := fun _ k _ => match k with O => Opt 2 | _ => Infeas end.
Definition feas0 : point -> Prop := fun x => x 0%nat == 1.
Example C167_ex : exists objs' rows' b, strong_all idl p2 iR mixed [0%nat] [oA; oB] (root_rows 2 10) b4 = Ok (Some (objs', rows', b)) /\ up b 1 = 0 /\ up b 0 = 1 /\
  quick_fix objs' rows' 5 [0%nat] b4 = Ok (mkBox [0; 0; 0; 0] [1; 0; 1; 1]).
Proof. eexists _, _, _. split; [vm_compute; reflexivity|]. split; [reflexivity|]. split; reflexivity. Qed.

(** ** C168 *)
(** The weights of the first constraint are used for all of them. *)
Theorem C168_refuted : ~ C168_full.
Proof.
  intros H. destruct (addNWays [0; 1; 1; 0]%Z [[0; 1]; [2; 3]]%nat) as [objs| | | | | | | ] eqn:E; vm_compute in E; try discriminate. inv E.
  edestruct (H [0; 1; 1; 0]%Z [[0; 1]; [2; 3]]%nat) with (i := 0%nat) (j := 0%nat) as (o & Eo & _ & K); try reflexivity.
  inv Eo. destruct (proj1 (K 2%nat)) as (_ & i' & j' & cols' & Ei & Ej & Ew); [vm_compute; auto|].
  destruct i' as [|[|i']]; [| |destruct i'; discriminate]; inv Ei.
  - destruct j' as [|[|j']]; try discriminate Ej. destruct j'; discriminate.
  - destruct j' as [|[|j']]; try discriminate; destruct j'; discriminate.
Qed.
Print Assumptions C168_refuted.
(** Exactly: the weight of a column is taken to be the one at its position in its constraint. *)
Theorem C168_exact_partial : forall w sets objs, addNWays w sets = Ok objs -> length objs = length sets /\
  forall i j cols c z, nth_error sets i = Some cols -> nth_error cols j = Some c -> nth_error w j = Some z ->
  exists o, nth_error objs i = Some o /\ n_mem o = cols /\ n_bnd o = [] /\ forall d, In d (consequences o j) <->
    d <> c /\ exists i' cols' j', nth_error sets i' = Some cols' /\ nth_error cols' j' = Some d /\ nth_error w j' = Some z.
Proof. exact addNWays_ok. Qed.
Print Assumptions C168_exact_partial.
Lemma start_same : forall A n (w0 : list A), length (concat (repeat w0 n)) = (n * length w0)%nat.
Proof. induction n as [|n IH]; intros; cbn; auto. rewrite app_length, IH. auto. Qed.
Lemma nth_same : forall A n (w0 : list A) i j, (i < n)%nat -> (j < length w0)%nat -> nth_error (concat (repeat w0 n)) (i * length w0 + j) = nth_error w0 j.
Proof.
  intros A. induction n as [|n IH]; intros w0 i j L Lj; [lia|]. cbn [repeat concat]. destruct i as [|i].
  - cbn [Nat.mul Nat.add]. apply nth_error_app1. auto.
  - rewrite nth_error_app2 by (cbn; lia). replace (S i * length w0 + j - length w0)%nat with (i * length w0 + j)%nat by (cbn; lia). apply IH; lia.
Qed.
Lemma start_len : forall n sets i, (forall cols, In cols sets -> length cols = n) -> (i <= length sets)%nat -> start sets i = (i * n)%nat.
Proof.
  intros n. unfold start. induction sets as [|cols sets IH]; intros i L Li; cbn in Li; [assert (i = 0)%nat by lia; subst; auto|]. destruct i as [|i]; [auto|]. cbn [firstn concat].
  rewrite app_length, IH by (try lia; intros; apply L; right; auto). rewrite (L cols (or_introl eq_refl)). auto.
Qed.
(** When all constraints have the same weights, at least zero and at most the number of constraints, the sets are made and right. *)
Theorem C168_partial : forall w0 sets, (forall cols, In cols sets -> length cols = length w0) -> (forall z, In z w0 -> (0 <= z <= Z.of_nat (length sets))%Z) -> sets <> [] ->
  let w := concat (repeat w0 (length sets)) in exists objs, addNWays w sets = Ok objs /\
  forall i j cols c z, nth_error sets i = Some cols -> nth_error cols j = Some c -> nth_error w (start sets i + j) = Some z ->
  exists o, nth_error objs i = Some o /\ n_mem o = cols /\ forall d, In d (consequences o j) <->
    d <> c /\ exists i' j' cols', nth_error sets i' = Some cols' /\ nth_error cols' j' = Some d /\ nth_error w (start sets i' + j') = Some z.
Proof.
  intros w0 sets L Wz Ne w. destruct (addNWays_runs w sets) as (objs & E).
  - intros cols I. rewrite (L _ I). unfold w. destruct sets; [congruence|]. cbn [length repeat concat]. rewrite app_length. lia.
  - intros z I. apply Wz. unfold w in I. apply in_concat in I. destruct I as (l & Il & Iz). apply repeat_spec in Il. subst l. auto.
  - exists objs. split; auto.
    assert (Wn : forall i j cols c, nth_error sets i = Some cols -> nth_error cols j = Some c -> nth_error w (start sets i + j) = nth_error w j /\ nth_error w j = nth_error w0 j).
    { intros i j cols c Ei Ej. assert (Li : (i < length sets)%nat) by (apply nth_error_Some; congruence). assert (Lj : (j < length w0)%nat) by (rewrite <- (L _ (nth_error_In _ _ Ei)); apply nth_error_Some; congruence).
      rewrite (start_len (length w0)) by (auto; lia). unfold w. rewrite nth_same by auto. assert (Z : nth_error (concat (repeat w0 (length sets))) j = nth_error w0 j) by (apply (nth_same _ _ w0 0 j); lia).
      rewrite Z. auto. }
    destruct (addNWays_ok _ _ _ E) as [_ K]. intros i j cols c z Ei Ej Ew. destruct (Wn _ _ _ _ Ei Ej) as [W1 _]. rewrite W1 in Ew. destruct (K _ _ _ _ _ Ei Ej Ew) as (o & Eo & Em & _ & Ed).
    exists o. split; auto. split; auto. intros d. rewrite Ed. split; intros (Nd & X); (split; [auto|]).
    + destruct X as (i' & cols' & j' & A & B & C). exists i', j', cols'. split; auto. split; auto. destruct (Wn _ _ _ _ A B) as [-> _]. auto.
    + destruct X as (i' & j' & cols' & A & B & C). exists i', cols', j'. split; auto. split; auto. destruct (Wn _ _ _ _ A B) as [<- _]. auto.
Qed.
Print Assumptions C168_partial.
Example C168_ex : exists objs, addNWays [0; 1; 2; 0; 1; 2]%Z [[0; 1; 2]; [3; 4; 5]]%nat = Ok objs /\ map (fun o => consequences o 1) objs = [[4]; [1]]%nat.
Proof. eexists. split; [vm_compute; reflexivity|reflexivity]. Qed.

(** ** C169 *)
Definition oC : nway := mkNway [0; 1]%nat None [50; 0] false 0.
Definition iC : binfo := mkInfo [1 # 2; 1 # 2] (1 # 1000000) 10 0 0.
(** A copy forgets the bounds and branches on a member the original leaves out; assigning to a set with fewer consequences reads past their end. *)
Theorem C169_refuted : ~ C169_full.
Proof. intros H. destruct (H idl oC oC iC b2) as [A _]. vm_compute in A. discriminate. Qed.
Print Assumptions C169_refuted.
Theorem C169_assign_refuted : exists o t, assign o t = OutOfBounds.
Proof. exists o4, (mkNway [0%nat] (Some [None]) [] false 0). reflexivity. Qed.
Print Assumptions C169_assign_refuted.
Lemma collect_plain : forall o o' i b, n_quick o = n_quick o' -> n_frac o = n_frac o' ->
  (forall s d, nth_error (n_bnd o) s = Some d -> d <= i_cutoff i) -> (forall s d, nth_error (n_bnd o') s = Some d -> d <= i_cutoff i) ->
  forall mem s, n_bnd o = [] \/ (s + length mem <= length (n_bnd o))%nat -> n_bnd o' = [] \/ (s + length mem <= length (n_bnd o'))%nat -> collect o i b s mem = collect o' i b s mem.
Proof.
  intros o o' i b Eq0 Ef B B'. assert (Fa : forall o0 s n, (forall s d, nth_error (n_bnd o0) s = Some d -> d <= i_cutoff i) -> n_bnd o0 = [] \/ (s + S n <= length (n_bnd o0))%nat ->
    match n_bnd o0 with [] => Ok false | _ => do d <- rd s (n_bnd o0); Ok (Qltb (i_cutoff i) d) end = Ok false).
  { intros o0 s n Bo L. destruct (n_bnd o0) as [|d0 l0] eqn:E; auto. destruct L as [L|L]; [discriminate|]. destruct (nth_error (d0 :: l0) s) as [d|] eqn:En; [|apply nth_error_None in En; lia].
    unfold rd. rewrite En. cbn [bind]. f_equal. apply Qltb_ge. eauto. }
  induction mem as [|c mem IH]; intros s L L'; cbn [collect]; auto. cbn [length] in *. rewrite !(Fa _ s (length mem)) by auto. cbn [bind]. rewrite (IH (S s)) by (destruct L, L'; auto; right; lia). rewrite Eq0, Ef. auto.
Qed.
Lemma same_moves o o' : n_mem o = n_mem o' -> n_cons o = n_cons o' -> forall r k b, branchNext o r k b = branchNext o' r k b.
Proof.
  intros Em Ec. assert (A : forall which l j b, arms o which j l b = arms o' which j l b).
  { intros which. induction l as [|s l IH]; intros j b; cbn [arms]; auto. unfold applyConsequence. rewrite Em, Ec.
    destruct (rd s (n_mem o')); cbn [bind]; auto. match goal with |- bind ?x _ = bind ?y _ => destruct x; cbn [bind]; auto end. }
  assert (K : forall l b, skips o l b = skips o' l b).
  { induction l as [|s l IH]; intros b; cbn [skips]; auto. rewrite Em. destruct (rd s (n_mem o')); cbn [bind]; auto.
    destruct (getLo _ b); cbn [bind]; auto. destruct (getUp _ b); cbn [bind]; auto. destruct (chk _); cbn [bind]; auto. destruct (setUp _ _ b); cbn [bind]; auto. }
  intros r k b. unfold branchNext, branchOn. rewrite A. destruct (arms o' _ _ _ b); cbn [bind]; auto. destruct (which_of r k); auto.
Qed.
(** When no bound kept on either side closes a member, and the assigned set has room, copy and assignment branch the same. *)
Theorem C169_partial : forall srt o t i b,
  (forall s d, nth_error (n_bnd o) s = Some d -> d <= i_cutoff i) -> n_bnd o = [] \/ length (n_bnd o) = length (n_mem o) ->
  (createBranch srt (copy o) i b = createBranch srt o i b /\ forall r k b', branchNext (copy o) r k b' = branchNext o r k b') /\
  ((forall s d, nth_error (n_bnd t) s = Some d -> d <= i_cutoff i) -> n_bnd t = [] \/ (length (n_mem o) <= length (n_bnd t))%nat ->
   (forall l, n_cons t = Some l -> (length (n_mem o) <= length l)%nat) ->
   exists o', assign o t = Ok o' /\ createBranch srt o' i b = createBranch srt o i b /\ n_mem o' = n_mem o /\ (forall s, consequences o' s = consequences o s) /\
     forall r k b', branchNext o' r k b' = branchNext o r k b').
Proof.
  intros srt o t i b B L. assert (L' : n_bnd o = [] \/ (0 + length (n_mem o) <= length (n_bnd o))%nat) by (destruct L as [L|L]; auto; right; lia). split; [split; [|apply same_moves; reflexivity]|].
  - unfold createBranch. cbn [copy n_mem]. rewrite (collect_plain (copy o) o i b eq_refl eq_refl) with (s := 0%nat); auto. intros s d E. destruct s; discriminate.
  - intros Bt Lt Ct. unfold assign. assert (A : match n_cons t with None => Ok tt | Some l => if Nat.leb (length (n_mem o)) (length l) then Ok tt else OutOfBounds end = Ok tt).
    { destruct (n_cons t) as [l|]; auto. specialize (Ct l eq_refl). apply Nat.leb_le in Ct. rewrite Ct. auto. }
    rewrite A. cbn [bind]. eexists. split; [reflexivity|]. split; [|split; [reflexivity|split; [reflexivity|apply same_moves; reflexivity]]]. unfold createBranch. cbn [n_mem].
    rewrite (collect_plain (mkNway (n_mem o) (n_cons o) (n_bnd t) (n_quick o) (n_frac o)) o i b eq_refl eq_refl) with (s := 0%nat); auto.
Qed.
Print Assumptions C169_partial.
Example C169_ex : createBranch idl (copy (mkNway [0; 1]%nat None [5; 0] false 0)) iC b2 = Ok ([0; 1]%nat, []) /\ createBranch idl (mkNway [0; 1]%nat None [5; 0] false 0) iC b2 = Ok ([0; 1]%nat, []).
Proof. split; reflexivity. Qed.

(** ** C170 *)
(** With no strong branching allowed nothing is tested, and "normal termination" is returned with no set. *)
Theorem C170_refuted : ~ C170_full.
Proof.
  intros H. destruct (H true 0%nat 0%nat false [0%nat] [] 0%nat 0%Z None) as (s & E & _); auto; [exists [0%nat]; reflexivity|]. discriminate.
Qed.
Print Assumptions C170_refuted.
Theorem C170_partial : forall fixing depth sbd trusted lst k0 q0 t0 v0 tests nfixed code k, (0 <= q0)%Z ->
  (exists rest, lst = map (fun t => fst (fst (fst t))) ((k0, q0, t0, v0) :: tests) ++ rest) ->
  choose fixing depth sbd trusted lst ((k0, q0, t0, v0) :: tests) nfixed = Ok (code, k) ->
  (code <> (-1)%Z -> exists s, k = Some s /\ In s lst) /\
  (code = (-1)%Z -> exists t, In t ((k0, q0, t0, v0) :: tests) /\ snd (fst t) = Infeasible) /\
  ((forall t, In t ((k0, q0, t0, v0) :: tests) -> snd (fst (fst t)) = q0 /\ (snd (fst t) = Fixed \/ snd (fst t) = Nothing)) -> (depth <= sbd)%nat \/ trusted = false ->
   exists s q c v, k = Some s /\ In (s, q, c, v) ((k0, q0, t0, v0) :: tests) /\ forall t, In t ((k0, q0, t0, v0) :: tests) -> snd t <= v).
Proof.
  intros fixing depth sbd trusted lst k0 q0 t0 v0 tests nfixed code k Q0 (rest & El) H. unfold choose in H. subst lst. cbn [map app fst] in *. destruct (_ && _)%bool eqn:Tr.
  - inv H. split; [intros _; exists k0; split; auto; left; auto|]. split; [destruct (Nat.ltb 0 nfixed); discriminate|]. intros _ D. apply andb_true_iff in Tr. destruct Tr as [T1 T2]. apply Nat.ltb_lt in T1. destruct D; [lia|congruence].
  - injection H as H. split; [|split].
    + intros Nc. pose proof H as H'. cbn [pick] in H'. destruct (Z.ltb_spec q0 0) as [|_]; [lia|]. destruct t0; [inv H'; congruence| | |].
      * apply pick_some in H'; [|discriminate]. destruct H' as (s & -> & [(w & E)|I]); exists s; (split; [auto|]); [inv E; left; auto|right; apply in_or_app; auto].
      * apply pick_some in H'; [|discriminate]. destruct H' as (s & -> & [(w & E)|I]); exists s; (split; [auto|]); [inv E; left; auto|right; apply in_or_app; auto].
      * inv H'. exists k0. split; auto. left. auto.
    + intros ->. eapply (pick_neg fixing (Nat.eqb depth 0) ((k0, q0, t0, v0) :: tests) 0 None 0 (Some k0) k); [exact H|discriminate].
    + intros Al _. destruct (Al _ (or_introl eq_refl)) as [_ T0]. cbn [fst snd] in T0.
      assert (Al' : forall t, In t tests -> snd (fst (fst t)) = q0 /\ (snd (fst t) = Fixed \/ snd (fst t) = Nothing)) by (intros; apply Al; right; auto).
      assert (H' : exists code', pick fixing (Nat.eqb depth 0) tests q0 (Some (k0, v0)) code' (Some k0) = (code, k)).
      { cbn [pick] in H. destruct (Z.ltb_spec q0 0) as [|_]; [lia|]. destruct T0; subst t0; eauto. }
      destruct H' as (code' & H'). destruct (pick_best _ _ _ _ _ _ _ _ _ _ Al' H') as (s & v & E & O & Lv & A).
      assert (Fin : forall t, In t ((k0, q0, t0, v0) :: tests) -> snd t <= v) by (intros t [<- |I]; auto).
      destruct O as [[-> ->]|(q & c & I)]; [exists k0, q0, t0, v0|exists s, q, c, v]; (split; [auto|]); (split; [|auto]); [left|right]; auto.
Qed.
Print Assumptions C170_partial.
(** Without a set there is none to branch on, which is reported as such; and only then. *)
Theorem C170_none_partial : forall fixing depth sbd trusted lst tests nfixed code k, choose fixing depth sbd trusted lst tests nfixed = Ok (code, k) ->
  (lst = [] -> code = 1%Z /\ k = None) /\ (lst <> [] -> code <> 1%Z).
Proof.
  assert (P : forall fixing root tests q best code first, code <> 1%Z -> fst (pick fixing root tests q best code first) <> 1%Z).
  { intros fixing root. induction tests as [|[[[k q'] c] v] tests IH]; intros q best code first N; cbn [pick]; [exact N|]. destruct (Z.ltb _ _); [exact N|].
    destruct c; try discriminate; apply IH; auto. destruct (_ && _)%bool; auto. discriminate. }
  intros fixing depth sbd trusted lst tests nfixed code k H. split.
  - intros ->. cbn in H. inv H. auto.
  - intros N. destruct lst as [|k0 lst]; [congruence|]. cbn [choose] in H. destruct (_ && _)%bool; [inv H; destruct (Nat.ltb 0 nfixed); discriminate|].
    injection H as H. intros ->. eapply (P fixing (Nat.eqb depth 0) tests 0%Z None 0%Z (Some k0)); [discriminate|]. rewrite H. reflexivity.
Qed.
Print Assumptions C170_none_partial.
Example C170_ex : choose true 0 2 false [4; 7; 9]%nat [(4%nat, 1%Z, Nothing, 1); (7%nat, 1%Z, Fixed, 3); (9%nat, 1%Z, Nothing, 3)] 0 = Ok (2%Z, Some 7%nat).
Proof. reflexivity. Qed.

(** ** C171 *)
(** One set of two members: the arrays have one entry. *)
Theorem C171_refuted : ~ C171_full.
Proof. intros H. apply (H idl (mkOpts 3 1 1) iC o2 [10] (good 0) false b2 idl_permutes wf2 eq_refl eq_refl eq_refl). reflexivity. Qed.
Print Assumptions C171_refuted.
(** With at most as many members as sets and no member skipped. *)
Theorem C171_partial : forall srt p i o row ans late b, permutes srt -> wf o b -> length (i_x i) = length (b_lo b) -> n_bnd o = [] ->
  length row = p_nobj p -> (length (n_mem o) <= p_nobj p)%nat -> (i_depth i <= n_frac o)%nat -> strong srt p o i row ans late b <> OutOfBounds.
Proof.
  intros srt p i o row ans late b P W Lx Bn Lr Lm D. change (safe (strong srt p o i row ans late b)). assert (Dm : dim (length (b_lo b)) b) by (split; auto; apply (wf_box _ _ W)). unfold strong. apply safe_bind.
  - unfold createBranch. apply safe_bind; [eapply collect_safe; eauto; apply (wf_mem _ _ W)|]. intros r _. destruct (snd r) as [|? [|? ?]]; apply safe_ok.
  - intros r Er. destruct (cb_ok _ _ _ _ _ P Er) as (_ & M & Sk & _). specialize (Sk D). cbv zeta. apply safe_bind.
    + eapply sb_safe; eauto; [|unfold numberBranches; rewrite Sk; lia]. intros s I. destruct (proj1 (M s)) as (c & C & _); [rewrite Sk, app_nil_r; auto|]. apply nth_error_Some. congruence.
    + intros [[row1 fixed] b1] _. apply safe_ok.
Qed.
Print Assumptions C171_partial.
Example C171_ex : exists r, strong idl (mkOpts 3 1 2) o2 iC [10; 10] (good 0) false b2 = Ok r.
Proof. eexists. vm_compute. reflexivity. Qed.
