(** * When the primal heuristics do something: proofs *)
From Coq Require Import List NArith Bool Lia.
From Verif Require Import Whn_Model Whn_Spec.
Import ListNotations.
Open Scope N_scope.

Lemma window h a : 0 < h -> exists k, k < h /\ (a + k) mod h = 0.
Proof.
  intros Hh. destruct (N.eq_dec (a mod h) 0) as [E | E].
  - exists 0. rewrite N.add_0_r. auto.
  - assert (B := N.mod_upper_bound a h ltac:(lia)).
    pose proof (N.div_mod a h ltac:(lia)) as D.
    set (m := a mod h) in *. set (q := a / h) in *. clearbody m q.
    exists (h - m). split; [lia |].
    replace (a + (h - m)) with ((q + 1) * h) by nia.
    apply N.mod_mul. lia.
Qed.

Lemma run_cons step s i l :
  run step s (i :: l)
  = (fst (step s i) :: fst (run step (snd (step s i)) l), snd (run step (snd (step s i)) l)).
Proof. simpl. destruct (step s i) as [a s1]. simpl. destruct (run step s1 l). reflexivity. Qed.

Lemma run_length step : forall l s, length (fst (run step s l)) = length l.
Proof. induction l as [| i l IH]; intros s; [reflexivity |]. rewrite run_cons. simpl. now rewrite IH. Qed.

Lemma run_app step : forall p l s,
  run step s (p ++ l)
  = (fst (run step s p) ++ fst (run step (snd (run step s p)) l), snd (run step (snd (run step s p)) l)).
Proof.
  induction p as [| i p IH]; intros l s.
  - simpl. now destruct (run step s l).
  - rewrite <- app_comm_cons, !run_cons. cbn [fst snd]. rewrite IH. reflexivity.
Qed.

Lemma rins_range h i : 1 <= h <= 10000 -> 1 <= snd (rins h i) <= 10000.
Proof.
  intros H. unfold rins. destruct (_ || _); [exact H |]. destruct (negb _); [exact H |].
  cbv zeta. cbn [snd].
  pose proof (N.div_lt h 2 ltac:(lia) ltac:(lia)).
  destruct (i_all i / 10 <? i_fix i); [destruct (i_found i) |]; lia.
Qed.

Lemma run_range : forall l h, 1 <= h <= 10000 -> 1 <= snd (run rins h l) <= 10000.
Proof.
  induction l as [| i l IH]; intros h H; [exact H |]. rewrite run_cons. cbn [snd].
  apply IH. now apply rins_range.
Qed.

Lemma rins_skip h i : fst (rins h i) = Skip -> snd (rins h i) = h.
Proof.
  unfold rins. destruct (_ || _); [reflexivity |]. destruct (negb _); [reflexivity |].
  cbv zeta. cbn [fst]. destruct (_ <? _); discriminate.
Qed.

Lemma rins_acts h i : 0 < h -> i_node i mod h = 0 -> i_best i = true -> fst (rins h i) <> Skip.
Proof.
  intros H E B. unfold rins. rewrite E, B. replace (h =? 0) with false by (symmetry; apply N.eqb_neq; lia). cbn [N.eqb negb orb].
  destruct (_ <? _); discriminate.
Qed.

Lemma rins_window : forall l h, 0 < h ->
  (exists i, In i l /\ i_node i mod h = 0 /\ i_best i = true) ->
  acts (fst (run rins h l)).
Proof.
  induction l as [| i l IH]; intros h H (j & Hj & E & B); [destruct Hj |].
  rewrite run_cons. cbn [fst].
  destruct (fst (rins h i)) eqn:A.
  - destruct Hj as [-> | Hj].
    + exfalso. now apply (rins_acts h j).
    + rewrite (rins_skip _ _ A). destruct (IH h H) as (a & Ha & N); [now exists j |].
      exists a. split; [now right | exact N].
  - exists Tried. split; [now left | discriminate].
  - exists Search. split; [now left | discriminate].
Qed.

(** ** Spacing *)

Lemma doing_cons i l a r :
  doing (i :: l) (a :: r) = match a with Skip => doing l r | _ => i :: doing l r end.
Proof. unfold doing. simpl. now destruct a. Qed.

Lemma rins_acts_at h i : fst (rins h i) <> Skip -> i_node i mod h = 0 /\ 0 < h.
Proof.
  unfold rins. destruct (h =? 0) eqn:Z; [intros N; now destruct N |].
  destruct (i_node i mod h =? 0) eqn:M; [| intros N; now destruct N].
  apply N.eqb_eq in M. apply N.eqb_neq in Z. intros _. split; [exact M | lia].
Qed.

Lemma mult10 n h : h mod 10 = 0 -> 0 < h -> n mod h = 0 -> n mod 10 = 0.
Proof.
  intros H P E. apply N.mod_divides in H; [| lia]. apply N.mod_divides in E; [| lia].
  destruct H as [c ->]. destruct E as [d ->].
  apply N.mod_divides; [lia |]. exists (c * d). lia.
Qed.

(** The frequencies met while unsuccessful. *)
Lemma rins_fail_10 h i :
  h mod 10 = 0 -> (fst (rins h i) = Search -> i_found i = false) -> snd (rins h i) mod 10 = 0.
Proof.
  intros H. unfold rins. destruct (_ || _); [auto |]. destruct (negb _); [auto |].
  cbv zeta. cbn [fst snd].
  assert (M : N.min 10000 (2 * h) mod 10 = 0).
  { destruct (N.min_spec 10000 (2 * h)) as [[_ ->] | [_ ->]]; [reflexivity |].
    apply N.mod_divides in H; [| lia]. destruct H as [c ->].
    apply N.mod_divides; [lia |]. exists (2 * c). lia. }
  destruct (_ <? _); intros F; [rewrite (F eq_refl) |]; exact M.
Qed.

Lemma rins_never_found : forall l h, h mod 10 = 0 ->
  Forall (fun i => i_found i = false) l ->
  Forall (fun i => i_node i mod 10 = 0) (doing l (fst (run rins h l))).
Proof.
  induction l as [| i l IH]; intros h H F; [constructor |].
  inversion F as [| ? ? F1 F2]; subst. rewrite run_cons. cbn [fst]. rewrite doing_cons.
  pose proof (IH _ (rins_fail_10 h i H (fun _ => F1)) F2) as T.
  destruct (fst (rins h i)) eqn:A; [exact T | |];
    (constructor; [| exact T]; destruct (rins_acts_at h i ltac:(rewrite A; discriminate)) as [E P];
     now apply (mult10 _ h)).
Qed.

Lemma rins_pow : forall l h k, h = 10 * 2 ^ k ->
  k + failures l (fst (run rins h l)) < 10 ->
  Forall (fun i => i_node i mod 10 = 0) (doing l (fst (run rins h l))).
Proof.
  induction l as [| i l IH]; intros h k H K; [constructor |].
  rewrite run_cons in *. cbn [fst] in *. rewrite doing_cons.
  assert (P : 1 <= 2 ^ k) by (pose proof (N.pow_nonzero 2 k); lia).
  assert (M : h mod 10 = 0) by (subst h; apply N.mod_divides; [lia | eexists; reflexivity]).
  assert (Step : exists k', snd (rins h i) = 10 * 2 ^ k' /\
     k' + failures l (fst (run rins (snd (rins h i)) l)) < 10).
  { assert (K9 : k < 10) by lia.
    unfold failures in K. cbn [combine filter snd fst] in K.
    destruct (fst (rins h i)) eqn:A.
    - rewrite (rins_skip _ _ A) in *. exists k. split; [exact H | exact K].
    - cbn [length] in K. exists (N.succ k). split; [| unfold failures; lia].
      revert A. unfold rins. destruct (_ || _); [discriminate |]. destruct (negb _); [discriminate |].
      cbv zeta. cbn [fst snd]. destruct (_ <? _); [discriminate |]. intros _.
      assert (2 ^ k <= 2 ^ 8) by (apply N.pow_le_mono_r; lia).
      change (2 ^ 8) with 256 in *.
      rewrite N.min_r by lia. rewrite N.pow_succ_r'. lia.
    - destruct (i_found i) eqn:F; cbn [negb] in K.
      + exists (N.pred k). split; [| unfold failures; lia].
        revert A. unfold rins. destruct (_ || _); [discriminate |]. destruct (negb _); [discriminate |].
        cbv zeta. cbn [fst snd]. destruct (_ <? _); [| discriminate]. intros _. rewrite F.
        destruct (N.zero_or_succ k) as [-> | [k0 ->]]; [| rewrite N.pred_succ; rename k0 into j].
        * subst h. reflexivity.
        * assert (1 <= 2 ^ j) by (pose proof (N.pow_nonzero 2 j); lia).
          assert (E : h / 2 = 10 * 2 ^ j).
          { subst h. rewrite N.pow_succ_r'. replace (10 * (2 * 2 ^ j)) with ((10 * 2 ^ j) * 2) by lia.
            apply N.div_mul. lia. }
          rewrite E. lia.
      + cbn [length] in K. exists (N.succ k). split; [| unfold failures; lia].
        revert A. unfold rins. destruct (_ || _); [discriminate |]. destruct (negb _); [discriminate |].
        cbv zeta. cbn [fst snd]. destruct (_ <? _); [| discriminate]. intros _. rewrite F.
        assert (2 ^ k <= 2 ^ 8) by (apply N.pow_le_mono_r; lia).
        change (2 ^ 8) with 256 in *.
        rewrite N.min_r by lia. rewrite N.pow_succ_r'. lia. }
  destruct Step as (k' & E & B). pose proof (IH _ k' E B) as T.
  destruct (fst (rins h i)) eqn:A; [exact T | |];
    (constructor; [| exact T]; destruct (rins_acts_at h i ltac:(rewrite A; discriminate)) as [E1 P1];
     now apply (mult10 _ h)).
Qed.

Lemma apart l : Forall (fun i => i_node i mod 10 = 0) l ->
  forall i j, In i l -> In j l -> i_node i < i_node j -> i_node i + 10 <= i_node j.
Proof.
  intros F i j Hi Hj L. rewrite Forall_forall in F.
  pose proof (F _ Hi) as A. pose proof (F _ Hj) as B.
  apply N.mod_divides in A; [| lia]. apply N.mod_divides in B; [| lia].
  destruct A as [a A]. destruct B as [b B]. lia.
Qed.

(** A search with one call per node, ten failures and nine successes. *)
Definition winners : list N := [10000; 15000; 17500; 18750; 19375; 19656; 19812; 19890; 19929].

Fixpoint wl (n : nat) (a : N) : list iv :=
  match n with
  | O => []
  | S n => Iv a 1 5 1 true 10 10 (existsb (N.eqb a) winners) true :: wl n (a + 1)
  end.

Lemma wl_order : forall n a, in_order a (wl n a).
Proof. induction n as [| n IH]; intros a; cbn; auto. Qed.

Definition wlist := wl (N.to_nat 19932) 0.

Lemma wlist_order : in_order 0 wlist.
Proof. unfold wlist. apply wl_order. Qed.

Lemma wl_nodes :
  map i_node (doing wlist (fst (run rins 10 wlist)))
  = [0; 20; 40; 80; 160; 320; 640; 1280; 2560; 5120; 10000; 15000; 17500; 18750; 19375; 19656;
     19812; 19890; 19929; 19931].
Proof. vm_compute. reflexivity. Qed.

Lemma node_in l n : In n (map i_node l) -> exists i, In i l /\ i_node i = n.
Proof. intros H. apply in_map_iff in H. destruct H as (i & E & I1). now exists i. Qed.

(** Calls with too few variables to fix. *)
Definition idle (a : N) : iv := Iv a 1 5 1 true 1 10 true true.

Lemma idle_visits n : exists l, visits l 0 n /\ Forall (fun i => i_best i = true) l /\
  forall h a, In a (fst (run rins h l)) -> a <> Search.
Proof.
  exists (map (fun k => idle (N.of_nat k)) (seq 0 (N.to_nat n))).
  split; [| split].
  - intros k K. exists (idle k). split; [| cbn; lia].
    apply in_map_iff. exists (N.to_nat k). rewrite Nnat.N2Nat.id. split; [reflexivity |].
    apply in_seq. lia.
  - apply Forall_forall. intros x X. apply in_map_iff in X. destruct X as (y & <- & _). reflexivity.
  - generalize (seq 0 (N.to_nat n)). clear. intros l.
    induction l as [| i l IH]; intros h a; [intros [] |].
    cbn [map]. rewrite run_cons. cbn [fst]. intros [<- | Hi]; [| now apply (IH _ _ Hi)].
    unfold rins. destruct (_ || _); [discriminate |]. cbn. discriminate.
Qed.

(** ** Local branching *)

Lemma lb_followed : forall l s, sane l ->
  Forall (fun i => i_found i = true -> i_kept i = true) l ->
  counted s l (fst (run local_branching s l)) ->
  followed s l (fst (run local_branching s l)).
Proof.
  induction l as [| i l IH]; intros s W Kp C; [exact Logic.I |].
  inversion W as [| ? ? W1 W2]; subst. inversion Kp as [| ? ? K1 K2]; subst.
  rewrite run_cons in *. cbn [fst] in *. cbn [counted followed] in *. destruct C as [C1 C2].
  assert (E : snd (local_branching s i) = after i (fst (local_branching s i)) /\
              (fst (local_branching s i) = Search <-> s < i_nsol i)).
  { unfold local_branching. destruct (i_nsol i <=? s) eqn:L.
    - apply N.leb_le in L. cbn. split; [lia |]. split; [discriminate | lia].
    - apply N.leb_gt in L. rewrite W1. replace (0 <? i_nsol i) with true by (symmetry; apply N.ltb_lt; lia).
      cbn. split; [| tauto].
      destruct (i_found i); [rewrite (K1 eq_refl) |]; cbn; lia. }
  destruct E as [E1 E2]. split; [exact E2 |]. rewrite <- E1 in *. apply IH; assumption.
Qed.

