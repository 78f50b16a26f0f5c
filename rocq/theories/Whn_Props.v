(** * When the primal heuristics do something: theorems *)
From Coq Require Import List NArith Bool Lia.
From Verif Require Import Whn_Model Whn_Spec Whn_Proofs.
Import ListNotations.
Open Scope N_scope.

(** ** C323: RINS is never given up *)
Theorem C323_partial : forall hist l a,
  visits l a 10000 -> Forall (fun i => i_best i = true) l ->
  acts (fst (run rins (snd (run rins 10 hist)) l)).
Proof.
  intros hist l a V B. pose proof (run_range hist 10 ltac:(lia)) as R.
  set (h := snd (run rins 10 hist)) in *. clearbody h.
  destruct (window h a ltac:(lia)) as (k & K & M).
  destruct (V k ltac:(lia)) as (i & I1 & E).
  apply rins_window; [lia |]. exists i. rewrite E. split; [exact I1 |]. split; [exact M |].
  rewrite Forall_forall in B. now apply B.
Qed.
Print Assumptions C323_partial.

(** What it does need not be a search: with too few variables fixed there is none, ever. *)
Theorem C323_refuted : ~ C323_full.
Proof.
  intros H. destruct (idle_visits 10000) as (l & V & B & T).
  destruct (H [] l 0 V B) as (a & Ha & E). exact (T _ _ Ha E).
Qed.
Print Assumptions C323_refuted.

Theorem C323_off : forall l, Forall (fun a => a = Skip) (fst (run rins 0 l)).
Proof.
  induction l as [| i l IH]; [constructor |]. rewrite run_cons. cbn [fst].
  constructor; [reflexivity | exact IH].
Qed.
Print Assumptions C323_off.

Theorem C323_range : forall l, 10 <= snd (run rins 10 l) <= 10000.
Proof.
  assert (G : forall l h, 10 <= h <= 10000 -> 10 <= snd (run rins h l) <= 10000).
  { induction l as [| i l IH]; intros h H; [exact H |]. rewrite run_cons. cbn [snd]. apply IH.
    unfold rins. destruct (_ || _); [exact H |]. destruct (negb _); [exact H |]. cbv zeta. cbn [snd].
    pose proof (N.div_lt h 2 ltac:(lia) ltac:(lia)).
    destruct (i_all i / 10 <? i_fix i); [destruct (i_found i) |]; lia. }
  intros l. apply G. lia.
Qed.
Print Assumptions C323_range.

(** ** C324: attempts of RINS are at least ten nodes apart *)
Theorem C324_refuted : ~ C324_full.
Proof.
  intros H. specialize (H wlist wlist_order).
  destruct (node_in (doing wlist (fst (run rins 10 wlist))) 19929) as (i & Hi & Ei).
  { rewrite wl_nodes. repeat (first [left; reflexivity | right]). }
  destruct (node_in (doing wlist (fst (run rins 10 wlist))) 19931) as (j & Hj & Ej).
  { rewrite wl_nodes. repeat (first [left; reflexivity | right]). }
  specialize (H i j Hi Hj). rewrite Ei, Ej in H. lia.
Qed.
Print Assumptions C324_refuted.

Theorem C324_partial : forall l,
  Forall (fun i => i_found i = false) l \/ failures l (fst (run rins 10 l)) < 10 ->
  forall i j, In i (doing l (fst (run rins 10 l))) ->
              In j (doing l (fst (run rins 10 l))) ->
              i_node i < i_node j -> i_node i + 10 <= i_node j.
Proof.
  intros l [F | F]; apply apart.
  - now apply rins_never_found.
  - apply (rins_pow l 10 0); [reflexivity | lia].
Qed.
Print Assumptions C324_partial.

Example C324_ex :
  let l := map (fun p => Iv (fst p) 1 3 1 true 9 10 (snd p) true)
               [(0, false); (10, false); (20, true); (30, false); (40, false); (50, true); (60, false)] in
  (map i_node (doing l (fst (run rins 10 l))), failures l (fst (run rins 10 l)), snd (run rins 10 l))
  = ([0; 20; 30; 40], 3, 40).
Proof. vm_compute. reflexivity. Qed.

(** ** C325: fix and solve is for the start of a search without solutions *)
Theorem C325_exact : forall i,
  (fix_and_solve i <> Skip <-> i_nsol i = 0 /\ exists k, k <= 10 /\ i_node i = 100 * k) /\
  (fix_and_solve i = Search -> i_all i < 3 * (i_fix i + 1)) /\
  (fix_and_solve i = Tried -> 3 * (i_fix i + 1) <= i_all i).
Proof.
  intros i.
  pose proof (N.div_mod (i_all i) 3 ltac:(lia)) as D. pose proof (N.mod_upper_bound (i_all i) 3 ltac:(lia)) as U.
  set (q := i_all i / 3) in *. set (m := i_all i mod 3) in *.
  unfold fix_and_solve. fold q. clearbody q m.
  destruct (N.ltb_spec 0 (i_nsol i)) as [A | A].
  { split; [split; [intros X; now destruct X | intros (X & _); lia] |]. split; discriminate. }
  destruct (N.ltb_spec 1000 (i_node i)) as [B | B].
  { split; [split; [intros X; now destruct X | intros (_ & k & K & E); lia] |]. split; discriminate. }
  destruct (N.eqb_spec (i_node i mod 100) 0) as [C | C]; cbn [negb].
  - apply N.mod_divides in C; [| lia]. destruct C as [c C].
    destruct (N.ltb_spec (i_fix i) q) as [E | E];
      (split; [split; [intros _; split; [lia |]; exists c; split; lia | intros _; discriminate] |];
       split; intros X; [discriminate X || lia | discriminate X || lia]).
  - split; [split; [intros X; now destruct X |] | split; discriminate].
    intros (_ & k & K & E). exfalso. apply C. rewrite E, N.mul_comm. apply N.mod_mul. lia.
Qed.
Print Assumptions C325_exact.

Example C325_ex :
  map fix_and_solve [Iv 0 1 0 0 false 2 9 true true; Iv 100 1 0 0 false 3 9 true true;
                     Iv 150 1 0 0 false 9 9 true true; Iv 200 1 0 1 true 9 9 true true;
                     Iv 1100 1 0 0 false 9 9 true true]
  = [Tried; Search; Skip; Skip; Skip].
Proof. reflexivity. Qed.

(** ** C326: local branching follows up the others' solutions *)
Theorem C326_refuted : ~ C326_full.
Proof.
  intros H.
  specialize (H [Iv 3 1 3 1 true 0 0 true false; Iv 8 1 4 2 true 0 0 false false]).
  assert (F : followed 0 [Iv 3 1 3 1 true 0 0 true false; Iv 8 1 4 2 true 0 0 false false]
                [Search; Skip]).
  { apply H; [repeat constructor |]. cbn. lia. }
  cbn in F. destruct F as (_ & (_ & F) & _). discriminate (F ltac:(lia)).
Qed.
Print Assumptions C326_refuted.

Theorem C326_partial : forall l, sane l ->
  Forall (fun i => i_found i = true -> i_kept i = true) l ->
  counted 0 l (fst (run local_branching 0 l)) ->
  followed 0 l (fst (run local_branching 0 l)).
Proof. intros l. apply lb_followed. Qed.
Print Assumptions C326_partial.

Example C326_ex :
  fst (run local_branching 0
    [Iv 0 1 0 0 false 0 0 false false; Iv 3 1 3 1 true 0 0 true true; Iv 8 1 4 2 true 0 0 false false;
     Iv 9 1 4 3 true 0 0 false false; Iv 10 1 4 3 true 0 0 false false])
  = [Skip; Search; Skip; Search; Skip].
Proof. reflexivity. Qed.

(** ** C327: dives every hundred nodes, roundings every twenty and near the root *)
Theorem C327_exact : forall i,
  (dive i = Search <-> i_pass i <= 1 /\ exists k, i_node i = 100 * k) /\
  (milp_rounding i = Search <->
     i_pass i <= 1 /\ (i_depth i <= 2 \/ exists k, i_node i = 20 * k)).
Proof.
  assert (Md : forall n b, b <> 0 -> (n mod b = 0 <-> exists k, n = b * k)).
  { intros n b Hb. apply N.mod_divides. exact Hb. }
  intros i. unfold dive, milp_rounding. split.
  - rewrite <- (Md _ 100) by lia.
    destruct (N.eqb_spec (i_node i mod 100) 0); destruct (N.ltb_spec 1 (i_pass i)); cbn [negb orb];
      (split; [intros X; solve [discriminate X | split; [lia | assumption]]
              | intros [X Y]; first [reflexivity | exfalso; first [contradiction | lia]]]).
  - rewrite <- (Md _ 20) by lia.
    destruct (N.ltb_spec 1 (i_pass i)).
    { split; [discriminate | intros [X _]; lia]. }
    destruct (N.ltb_spec 2 (i_depth i)); destruct (N.eqb_spec (i_node i mod 20) 0); cbn [negb andb];
      (split; [intros X; solve [discriminate X | split; auto]
              | intros [X [Y | Y]]; first [reflexivity | exfalso; first [contradiction | lia]]]).
Qed.
Print Assumptions C327_exact.

Theorem C327_window : forall l a,
  Forall (fun i => i_pass i <= 1) l ->
  (visits l a 100 -> exists i, In i l /\ dive i = Search) /\
  (visits l a 20 -> exists i, In i l /\ milp_rounding i = Search).
Proof.
  intros l a P. rewrite Forall_forall in P. split; intros V.
  - destruct (window 100 a ltac:(lia)) as (k & K & M). destruct (V k K) as (i & I1 & E).
    exists i. split; [exact I1 |]. apply C327_exact. split; [now apply P |].
    rewrite E. apply N.mod_divides; [lia | exact M].
  - destruct (window 20 a ltac:(lia)) as (k & K & M). destruct (V k K) as (i & I1 & E).
    exists i. split; [exact I1 |]. apply C327_exact. split; [now apply P |]. right.
    rewrite E. apply N.mod_divides; [lia | exact M].
Qed.
Print Assumptions C327_window.

Example C327_ex :
  (map dive [Iv 200 1 9 0 false 0 0 false false; Iv 200 2 9 0 false 0 0 false false; Iv 210 1 9 0 false 0 0 false false],
   map milp_rounding [Iv 7 1 2 0 false 0 0 false false; Iv 7 1 3 0 false 0 0 false false; Iv 40 1 9 0 false 0 0 false false])
  = ([Search; Skip; Skip], [Search; Skip; Search]).
Proof. reflexivity. Qed.
