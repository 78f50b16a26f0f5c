From Verif Require Import Base Arr Cts_Model Cts_Spec Cts_Proofs.

(** C303.  A collection of cuts behaves as a list of values: what a client may do is done, in finite time.  It is not: inserting a
    collection into itself does not come to an end. *)
Theorem C303_refuted : ~ C303_full.
Proof.
  intros F. destruct (F nat nat [New; InsVal 0 7; InsAll 0 0] _ eq_refl) as [N H]. destruct (H N (le_n N)) as (w & R & _).
  apply run_back in R; [|apply inv_start]. destruct R as (_ & (_ & _ & (S & _)) & _). specialize (S 0 _ eq_refl eq_refl). discriminate.
Qed.
Print Assumptions C303_refuted.
Theorem C303_list_partial : forall A R (ops : list (op A R)) s, all_calls ops nothing = Some s -> never_self ops nothing ->
  exists N, forall fuel, N <= fuel -> exists w, run fuel ops start = Ok w /\ see w = s.
Proof. intros A R ops s. apply (run_sim ops start s inv_start). Qed.
Print Assumptions C303_list_partial.
(** Nothing else is done: a sequence of calls that comes to its end was allowed, and no collection was inserted into itself. *)
Theorem C303_exact : forall A R fuel (ops : list (op A R)) w, run fuel ops start = Ok w -> all_calls ops nothing = Some (see w) /\ never_self ops nothing.
Proof. intros A R fuel ops w E. destruct (run_back fuel ops start w inv_start E) as (C & N & _). auto. Qed.
Print Assumptions C303_exact.
(** What the functions that look at a collection say. *)
Theorem C303_access : forall A R fuel (ops : list (op A R)) w i c k, run fuel ops start = Ok w -> nth i (colls w) None = Some c ->
  exists rows quads, there i (see w) = Some (rows, quads) /\ size_quads c = length quads /\ size_cuts c = length quads + length rows /\
    (forall v, quad (heap w) k c = Ok v <-> nth k quads None = Some v) /\ quad (heap w) k c <> Dangling.
Proof.
  intros A R fuel ops w i c k E C. exists (c_rows c), (map (look (heap w)) (c_quads c)). rewrite (there_is _ _ _ C), map_length.
  repeat split.
  - unfold quad, quad_at. destruct (nth_error (c_quads c) k) as [p|] eqn:P; cbn [bind]; [|discriminate]. intros D.
    change None with (look (heap w) None). rewrite map_nth. erewrite nth_error_nth by eauto. destruct p as [n|]; [|discriminate]. cbn in *.
    destruct (nth n (heap w) None); [congruence|discriminate].
  - intros D. destruct (nth_map_look _ _ _ _ D) as (n & E1 & E2). unfold quad, quad_at. rewrite E1. cbn. rewrite E2. reflexivity.
  - unfold quad, quad_at. destruct (nth_error (c_quads c) k) as [p|] eqn:P; cbn [bind]; [|discriminate].
    destruct p as [n|]; [|discriminate]. destruct (inv_goods w i c (inv_run _ _ _ E) C (Some n) (nth_error_In _ _ P) n eq_refl) as [v V]. cbn. rewrite V. discriminate.
Qed.
Print Assumptions C303_access.
(** Two collections, a cut handed over by pointer, one collection inserted into the other, a cut erased. *)
Example C303_example :
  let ops := [New; New; InsVal 0 5; NewCut 6; InsPtr 0 0; InsVal 1 8; AddRow 1 3; InsAll 0 1; Erase 0 0; Write 1 0 9; CopyOf 0] in
  all_calls ops nothing = Some (mkSeen [Some ([3], [Some 6; Some 8]); Some ([3], [Some 9]); Some ([3], [Some 6; Some 8])] [None]) /\
  never_self ops nothing /\ (do w <- run 5 ops start; Ok (see w)) = Ok (mkSeen [Some ([3], [Some 6; Some 8]); Some ([3], [Some 9]); Some ([3], [Some 6; Some 8])] [None]).
Proof.
  split; [reflexivity|]. split; [|vm_compute; reflexivity].
  cbn. repeat split; intros i c E; try discriminate E; try (injection E as E1 E2; congruence).
Qed.

(** C304.  A call changes the collection it is made on and no other; copies are independent. *)
Theorem C304_frame : forall A R fuel (ops : list (op A R)) w o w' i, run fuel ops start = Ok w -> step fuel w o = Ok w' -> changes o <> Some i ->
  i < length (colls w) -> there i (see w') = there i (see w).
Proof.
  intros A R fuel ops w o w' i E S N L. destruct (sim_back fuel w w' o (inv_run _ _ _ E) S) as (C & _ & _).
  apply (calls_frame _ _ o i C N). unfold see; simpl. rewrite map_length. exact L.
Qed.
Print Assumptions C304_frame.
Example C304_example : let ops := [New; InsVal 0 5; CopyOf 0] in
  (do w <- run 5 ops start; do w' <- step 5 w (Write 1 0 9); Ok (@there nat nat 0 (see w'), there 1 (see w'))) = Ok (Some ([], [Some 5]), Some ([], [Some 9])).
Proof. vm_compute. reflexivity. Qed.

(** C305.  Every quadratic cut that is allocated is held once, by one collection or by the client; every pointer kept is to an allocated
    cut; when all collections are destroyed and the client holds nothing, everything is released. *)
Theorem C305_held_once : forall A R fuel (ops : list (op A R)) w n, run fuel ops start = Ok w ->
  (allocated w n -> times n (all_ptrs w) = 1) /\ (~ allocated w n -> times n (all_ptrs w) = 0).
Proof.
  intros A R fuel ops w n E. pose proof (inv_run _ _ _ E n) as I. rewrite all_ptrs_times, I. unfold allocated, live. split.
  - intros [v ->]. reflexivity.
  - destruct (nth n (heap w) None) as [v|]; auto. intros X. destruct X. eauto.
Qed.
Print Assumptions C305_held_once.
Theorem C305_no_leak : forall A R fuel (ops : list (op A R)) w, run fuel ops start = Ok w -> all_gone w -> forall n, ~ allocated w n.
Proof.
  intros A R fuel ops w E [G1 G2] n Al. destruct (C305_held_once A R fuel ops w n E) as [H _]. specialize (H Al). rewrite all_ptrs_times in H.
  assert (Z : times n (vars w) = 0).
  { clear H. generalize (vars w) G2. intros l. induction l as [|p l IH]; intros G; auto. rewrite times_cons, IH by (intros x; apply (G (S x))).
    specialize (G 0). simpl in G. subst. reflexivity. }
  assert (Y : tot n (colls w) = 0).
  { clear H Z. generalize (colls w) G1. intros l. induction l as [|p l IH]; intros G; auto. rewrite tot_cons, IH by (intros x; apply (G (S x))).
    specialize (G 0). simpl in G. subst. reflexivity. }
  lia.
Qed.
Print Assumptions C305_no_leak.
Example C305_example : let ops := [New; InsVal 0 5; NewCut 6; InsPtr 0 0; CopyOf 0; Erase 1 0; Assign 0 1; Destroy 0; Destroy 1] in
  (do w <- run 5 ops start; Ok (heap w, colls w, vars w)) = Ok ([None; None; None; None; @None nat], [None; @None (coll nat)], [None]).
Proof. vm_compute. reflexivity. Qed.

(** C306.  Every collection can be copied.  Not one that was given a null pointer, as insert leaves in the client's variable. *)
Theorem C306_refuted : ~ C306_full.
Proof.
  intros F. destruct (F nat nat 5 [New; NewCut 6; InsPtr 0 0; InsPtr 0 0] _ 0 _ eq_refl eq_refl) as [w' E]. vm_compute in E. discriminate.
Qed.
Print Assumptions C306_refuted.
Theorem C306_copies_partial : forall A R fuel (ops : list (op A R)) w i c, run fuel ops start = Ok w -> nth i (colls w) None = Some c ->
  ((exists w', step fuel w (CopyOf i) = Ok w') <-> ~ In None (c_quads c)) /\
  (In None (c_quads c) -> step fuel w (CopyOf i) = NullDeref).
Proof.
  intros A R fuel ops w i c E C. pose proof (inv_goods w i c (inv_run _ _ _ E) C) as G.
  assert (X : forall ps H, goods H ps -> In None ps -> @dup A ps H = NullDeref).
  { induction ps as [|p ps IH]; intros H Gp []; [subst; reflexivity|]. cbn [dup]. destruct p as [n|]; [|reflexivity].
    destruct (Gp (Some n) ltac:(simpl; auto) n eq_refl) as [v V]. cbn [deref]. rewrite V. cbn [bind alloc]. rewrite IH; auto.
    intros q I m ->. destruct (Gp (Some m) ltac:(simpl; auto) m eq_refl) as [u U]. exists u. apply nth_app_l; auto. }
  cbn [step]. unfold coll_at. rewrite C. cbn [bind]. split; [split|].
  - intros [w' S] I. rewrite X in S by auto. discriminate.
  - intros N. assert (V : exists vs, map (look (heap w)) (c_quads c) = map Some vs).
    { apply no_null_values. apply forallb_forall. intros y Y. apply in_map_iff in Y as [p [<- I]]. destruct p as [n|]; [|contradiction].
      destruct (G (Some n) I n eq_refl) as [v V]. cbn. rewrite V. reflexivity. }
    destruct V as [vs V]. rewrite (dup_ok _ _ vs V G). cbn [bind]. eauto.
  - intros I. rewrite X by auto. reflexivity.
Qed.
Print Assumptions C306_copies_partial.
Example C306_example : (do w <- run 5 [New; InsVal 0 5; AddRow 0 2] start; do w' <- step 5 w (CopyOf 0); Ok (@there nat nat 1 (see w'))) = Ok (Some ([2], [Some 5])).
Proof. vm_compute. reflexivity. Qed.
