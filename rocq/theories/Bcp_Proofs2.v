(** Proofs about the parallel driver: evaluation of the branches on several processes. *)
From Coq Require Import String Sorted.
From Verif Require Import Base Arr Bcp_Model Bcp_Spec Bcp_Proofs.
#[local] Open Scope Q_scope.

(** ** Solving branches *)
Lemma solve_branches_eq solve l u bs : solve_branches solve l u bs = (map (answer solve l u) bs, (l, u)).
Proof.
  induction bs as [|b bs IH]; [reflexivity|]. cbn [solve_branches map].
  assert (A : put (b_col b) (nth (b_col b) l 0) (if b_up b then put (b_col b) (b_bd b) l else l) = l).
  { destruct (b_up b); [apply put_back|apply put_same]. }
  assert (B : put (b_col b) (nth (b_col b) u 0) (if b_up b then u else put (b_col b) (b_bd b) u) = u).
  { destruct (b_up b); [apply put_same|apply put_back]. }
  rewrite A, B, IH. unfold answer at 2. fold (changed_lo l b). fold (changed_up u b).
  destruct (solve (changed_lo l b) (changed_up u b)) as [st v]. reflexivity.
Qed.

(** ** Storing the results *)
Definition key (b : branch) : nat * bool := (b_obj b, b_up b).
Definition regs (l : list (branch * ans)) (tab : list sbres) : list sbres :=
  fold_left (fun t p => register1 (fst p) (snd p) t) l tab.
Lemma register_regs bs : forall al tab, register bs al tab = regs (combine bs al) tab.
Proof.
  induction bs as [|b bs IH]; intros [|a al] tab; try reflexivity. cbn [register combine]. rewrite IH. reflexivity.
Qed.
Lemma register1_length b a tab : List.length (register1 b a tab) = List.length tab.
Proof. apply put_length. Qed.
Lemma regs_cons p l tab : regs (p :: l) tab = regs l (register1 (fst p) (snd p) tab).
Proof. reflexivity. Qed.
Lemma regs_length l : forall tab, List.length (regs l tab) = List.length tab.
Proof. induction l as [|p l IH]; intros tab; [reflexivity|]. rewrite regs_cons. rewrite IH. apply register1_length. Qed.
Lemma register1_comm b a b' a' tab : key b <> key b' ->
  register1 b a (register1 b' a' tab) = register1 b' a' (register1 b a tab).
Proof.
  intros N. unfold register1. destruct (Nat.eq_dec (b_obj b) (b_obj b')) as [E|E].
  - rewrite E. destruct (Nat.lt_ge_cases (b_obj b') (List.length tab)) as [L|L].
    + rewrite !put_put. rewrite !put_nth, !Nat.eqb_refl by exact L.
      assert (b_up b <> b_up b') as N' by (intros G; apply N; unfold key; congruence).
      destruct (b_up b), (b_up b'); try congruence; reflexivity.
    + rewrite !put_put. rewrite !put_nth_out by (rewrite ?put_length; exact L). reflexivity.
  - rewrite !nth_put_other by congruence. apply put_comm. exact E.
Qed.
Lemma regs_perm l l' : Permutation l l' -> NoDup (map (fun p => key (fst p)) l) -> forall tab, regs l tab = regs l' tab.
Proof.
  induction 1 as [|x l l' P IH|x y l|l l' l'' P1 IH1 P2 IH2]; intros N tab.
  - reflexivity.
  - rewrite !regs_cons. apply IH. inversion N; assumption.
  - rewrite !regs_cons. f_equal. apply register1_comm. inversion N as [|? ? N1 N2]; subst. intros E. apply N1. left. exact E.
  - rewrite IH1 by exact N. apply IH2. eapply Permutation_NoDup; [apply Permutation_map, P1|exact N].
Qed.
Definition gs (w : bool) (r : sbres) : bool * option side := if w then (r_e1 r, r_d1 r) else (r_e0 r, r_d0 r).
Definition sside (b : branch) (a : ans) : side := {| d_st := fst a; d_val := snd a; d_chg := Qabs (b_val b - b_bd b) |}.
Lemma reg1_get w i b a tab : (i < List.length tab)%nat ->
  gs w (nth i (register1 b a tab) dres) =
  if Nat.eqb (b_obj b) i && Bool.eqb (b_up b) w then (true, Some (sside b a)) else gs w (nth i tab dres).
Proof.
  intros L. unfold register1. destruct (Nat.eqb (b_obj b) i) eqn:E; cbn [andb].
  - apply Nat.eqb_eq in E. subst i. rewrite put_nth, Nat.eqb_refl by exact L.
    destruct (b_up b), w; reflexivity.
  - apply Nat.eqb_neq in E. rewrite nth_put_other by exact E. reflexivity.
Qed.
Lemma reg1_col i b a tab : r_col (nth i (register1 b a tab) dres) = r_col (nth i tab dres).
Proof.
  destruct (Nat.lt_ge_cases i (List.length tab)) as [L|L].
  - unfold register1. destruct (Nat.eq_dec (b_obj b) i) as [E|E].
    + subst i. rewrite put_nth, Nat.eqb_refl by exact L. destruct (b_up b); reflexivity.
    + rewrite nth_put_other by exact E. reflexivity.
  - rewrite !nth_overflow by (rewrite ?register1_length; exact L). reflexivity.
Qed.
Lemma regs_col l : forall i tab, r_col (nth i (regs l tab) dres) = r_col (nth i tab dres).
Proof.
  induction l as [|p l IH]; intros i tab; [reflexivity|]. rewrite regs_cons.
  rewrite IH. apply reg1_col.
Qed.
Lemma regs_get w i l : forall tab, (i < List.length tab)%nat -> NoDup (map (fun p => key (fst p)) l) ->
  (forall b a, In (b, a) l -> b_obj b = i -> b_up b = w -> gs w (nth i (regs l tab) dres) = (true, Some (sside b a))) /\
  ((forall b a, In (b, a) l -> ~ (b_obj b = i /\ b_up b = w)) -> gs w (nth i (regs l tab) dres) = gs w (nth i tab dres)).
Proof.
  induction l as [|[b0 a0] l IH]; intros tab L N.
  { split; [intros b a []|reflexivity]. }
  cbn [map fst] in N. inversion N as [|? ? N1 N2]; subst. rewrite regs_cons. cbn [fst snd].
  destruct (IH (register1 b0 a0 tab)) as [A B]; [rewrite register1_length; exact L|exact N2|]. split.
  - intros b a [G|G] E1 E2.
    + injection G as <- <-. rewrite B.
      * rewrite reg1_get by exact L. rewrite E1, Nat.eqb_refl, E2, Bool.eqb_reflx. reflexivity.
      * intros b' a' G [F1 F2]. apply N1. apply in_map_iff. exists (b', a'). split; [|exact G]. unfold key. cbn [fst]. congruence.
    + apply A; assumption.
  - intros H. rewrite B by (intros b a G; apply (H b a); right; exact G). rewrite reg1_get by exact L.
    destruct (Nat.eqb (b_obj b0) i && Bool.eqb (b_up b0) w) eqn:E; [|reflexivity]. exfalso.
    apply andb_true_iff in E. destruct E as [E1 E2]. apply Nat.eqb_eq in E1. apply Bool.eqb_prop in E2.
    apply (H b0 a0); [left; reflexivity|auto].
Qed.

(** ** Shares *)
Fixpoint total (l : list nat) : nat := match l with [] => 0%nat | x :: r => (x + total r)%nat end.
Lemma chunks_zero n : chunks 0 n = ([], n).
Proof. reflexivity. Qed.
Lemma chunks_fair p : forall q r, (r < p)%nat -> exists ns,
  chunks p (q * p + r) = (ns, 0%nat) /\ total ns = (q * p + r)%nat /\ List.length ns = p /\
  Forall (fun m => m = q \/ (m = S q /\ 0 < r)%nat) ns.
Proof.
  induction p as [|p IH]; intros q r L; [lia|]. cbn [chunks].
  assert (D : ((q * S p + r) / S p = q)%nat).
  { rewrite Nat.div_add_l by lia. rewrite Nat.div_small by exact L. lia. }
  rewrite D. destruct (Nat.ltb (q * S p) (q * S p + r)) eqn:E.
  - apply Nat.ltb_lt in E. assert (R : (0 < r)%nat) by lia.
    replace (q * S p + r - S q)%nat with (q * p + (r - 1))%nat by nia.
    destruct (IH q (r - 1)%nat) as (ns & A & B & C & F); [lia|]. rewrite A.
    exists (S q :: ns). split; [reflexivity|]. split; [cbn [total]; rewrite B; nia|]. split; [simpl; lia|].
    constructor; [right; lia|]. eapply Forall_impl; [|exact F]. simpl. intros m [G|[G _]]; [left; exact G|right; auto].
  - apply Nat.ltb_ge in E. assert (R : r = 0%nat) by lia. subst r.
    replace (q * S p + 0 - q)%nat with (q * p + 0)%nat by nia.
    destruct p as [|p].
    + exists [q]. cbn [chunks]. replace (q * 0 + 0)%nat with 0%nat by lia. split; [reflexivity|].
      split; [cbn [total]; lia|]. split; [reflexivity|]. constructor; [left; reflexivity|constructor].
    + destruct (IH q 0%nat) as (ns & A & B & C & F); [lia|]. rewrite A.
      exists (q :: ns). split; [reflexivity|]. split; [cbn [total]; rewrite B; nia|]. split; [simpl; lia|].
      constructor; [left; reflexivity|exact F].
Qed.
Lemma chunks_all p n : (0 < p)%nat -> exists ns, chunks p n = (ns, 0%nat) /\ total ns = n /\ List.length ns = p /\
  Forall (fun m => m = (n / p)%nat \/ m = S (n / p)) ns /\ ((p <= n)%nat -> Forall (fun m => (0 < m)%nat) ns).
Proof.
  intros L. destruct (chunks_fair p (n / p) (n mod p)) as (ns & A & B & C & D).
  { apply Nat.mod_upper_bound. lia. }
  assert (E : (n / p * p + n mod p)%nat = n) by (rewrite (Nat.mul_comm (n / p)); symmetry; apply Nat.div_mod; lia).
  rewrite E in *. exists ns. split; [exact A|]. split; [exact B|]. split; [exact C|]. split.
  - eapply Forall_impl; [|exact D]. simpl. intros m [G|[G _]]; auto.
  - intros P. eapply Forall_impl; [|exact D]. simpl.
    assert (0 < n / p)%nat by (apply Nat.div_str_pos; lia). intros m [G|[G _]]; lia.
Qed.

Lemma skip_skip {A} n : forall k (l : list A), skipn n (skipn k l) = skipn (n + k) l.
Proof.
  intros k. revert n. induction k as [|k IH]; intros n l; [rewrite Nat.add_0_r; reflexivity|].
  destruct l as [|a l]; [rewrite !skipn_nil; reflexivity|]. replace (n + S k)%nat with (S (n + k)) by lia. cbn [skipn]. apply IH.
Qed.

(** ** Pieces of the array of branches *)
Section Pieces.
Variable L : list branch.
Lemma slice_ok n : forall k, (k + n <= List.length L)%nat -> slice k n (map Some L) = Ok (firstn n (skipn k L)).
Proof.
  induction n as [|n IH]; intros k H; [reflexivity|]. cbn [slice]. unfold aget.
  destruct (skipn k L) as [|b r] eqn:E.
  { assert (List.length (skipn k L) = 0%nat) as G by (rewrite E; reflexivity). rewrite skipn_length in G. lia. }
  assert (N : nth_error L k = Some b).
  { rewrite <- (firstn_skipn k L), E. rewrite nth_error_app2; rewrite firstn_length; [|lia].
    replace (k - Nat.min k (List.length L))%nat with 0%nat by lia. reflexivity. }
  rewrite nth_error_map, N. cbn [option_map bind]. rewrite IH by lia.
  assert (skipn (S k) L = r) as ->.
  { replace (S k) with (1 + k)%nat by lia. rewrite <- (skip_skip 1 k L), E. reflexivity. }
  reflexivity.
Qed.
Fixpoint pieces (k : nat) (ns : list nat) : list (nat * list branch) :=
  match ns with [] => [] | n :: r => (k, firstn n (skipn k L)) :: pieces (k + n) r end.
Lemma slices_ok ns : forall k, (k + total ns <= List.length L)%nat -> slices k ns (map Some L) = Ok (pieces k ns).
Proof.
  induction ns as [|n ns IH]; intros k H; [reflexivity|]. cbn [slices total pieces] in *.
  rewrite slice_ok by lia. cbn [bind]. rewrite IH by lia. reflexivity.
Qed.
Lemma pieces_concat ns : forall k, concat (map snd (pieces k ns)) = firstn (total ns) (skipn k L).
Proof.
  induction ns as [|n ns IH]; intros k; [reflexivity|]. cbn [pieces map concat snd total]. rewrite IH.
  assert (E : skipn (k + n) L = skipn n (skipn k L)) by (rewrite skip_skip; f_equal; lia).
  rewrite E. clear. generalize (skipn k L) as M. intros M. revert M. induction n as [|n IH]; intros M; [reflexivity|].
  destruct M as [|m M]; cbn [skipn firstn app Nat.add]; [destruct (total ns); reflexivity|]. f_equal. apply IH.
Qed.
Lemma pieces_in ns : forall k m, (k + total ns <= List.length L)%nat -> In m (pieces k ns) ->
  (fst m + List.length (snd m) <= List.length L)%nat /\ snd m = firstn (List.length (snd m)) (skipn (fst m) L).
Proof.
  induction ns as [|n ns IH]; intros k m H G; [destruct G|]. cbn [pieces total] in *. destruct G as [<-|G].
  - cbn [fst snd]. rewrite firstn_length, skipn_length.
    replace (Nat.min n (List.length L - k)) with n by lia. split; [lia|reflexivity].
  - apply (IH (k + n)%nat); [lia|exact G].
Qed.
Lemma pieces_lengths ns : forall k, (k + total ns <= List.length L)%nat -> map (fun m => List.length (snd m)) (pieces k ns) = ns.
Proof.
  induction ns as [|n ns IH]; intros k H; [reflexivity|]. cbn [pieces map snd total] in *. rewrite IH by lia.
  rewrite firstn_length, skipn_length. f_equal. lia.
Qed.
End Pieces.
Lemma concat_perm {A} (l l' : list (list A)) : Permutation l l' -> Permutation (concat l) (concat l').
Proof.
  induction 1; simpl; [reflexivity|apply Permutation_app_head; assumption| |etransitivity; eassumption].
  rewrite !app_assoc. apply Permutation_app_tail, Permutation_app_comm.
Qed.
Lemma total_app a b : total (a ++ b) = (total a + total b)%nat.
Proof. induction a as [|x a IH]; simpl; [reflexivity|]. rewrite IH. lia. Qed.
Lemma total_perm a b : Permutation a b -> total a = total b.
Proof. induction 1; simpl; lia. Qed.

Section Messages.
Variable solve : list Q -> list Q -> ans.
Variable lo up : list Q.
Variable L : list branch.
Definition rep (m : nat * list branch) : nat * list ans := (fst m, map (answer solve lo up) (snd m)).
Definition pair_up (bs : list branch) : list (branch * ans) := map (fun b => (b, answer solve lo up b)) bs.
Lemma combine_map (f : branch -> ans) bs : combine bs (map f bs) = map (fun b => (b, f b)) bs.
Proof. induction bs as [|b bs IH]; simpl; [reflexivity|]. f_equal. exact IH. Qed.
Lemma register_pairs bs tab : register bs (map (answer solve lo up) bs) tab = regs (pair_up bs) tab.
Proof. rewrite register_regs, combine_map. reflexivity. Qed.
Lemma regs_app l l' tab : regs (l ++ l') tab = regs l' (regs l tab).
Proof. apply fold_left_app. Qed.
Lemma regs_zero ms tab : Forall (fun m : nat * list branch => snd m = []) ms -> regs (pair_up (concat (map snd ms))) tab = tab.
Proof. induction 1 as [|m ms E F IH]; [reflexivity|]. cbn [map concat]. rewrite E. exact IH. Qed.
Lemma total_zero (ms : list (nat * list branch)) : total (map (fun m => List.length (snd m)) ms) = 0%nat ->
  Forall (fun m : nat * list branch => snd m = []) ms.
Proof.
  induction ms as [|m ms IH]; intros H; [constructor|]. cbn [map total] in H. constructor; [|apply IH; lia].
  destruct (snd m); [reflexivity|simpl in H; lia].
Qed.
Lemma receive_ok n ms : forall have tab,
  (forall m, In m ms -> (fst m + List.length (snd m) <= List.length L)%nat /\ snd m = firstn (List.length (snd m)) (skipn (fst m) L)) ->
  (have + total (map (fun m => List.length (snd m)) ms) = n)%nat ->
  exists un, receive have n (map rep ms) (map Some L) tab = Ok (regs (pair_up (concat (map snd ms))) tab, un) /\
    Forall (fun m => snd m = []) un /\ (Forall (fun m : nat * list branch => snd m <> []) ms -> un = []) /\
    exists pre, map rep ms = pre ++ un.
Proof.
  induction ms as [|m ms IH]; intros have tab H T.
  - cbn [map total] in T. exists []. cbn [map receive]. assert (Nat.ltb have n = false) as -> by (apply Nat.ltb_ge; lia).
    split; [reflexivity|]. split; [constructor|]. split; [reflexivity|]. exists []. reflexivity.
  - cbn [map receive]. destruct (Nat.ltb have n) eqn:E.
    + cbn [rep]. rewrite map_length. destruct (H m (or_introl eq_refl)) as [H1 H2].
      rewrite slice_ok by exact H1. cbn [bind]. rewrite <- H2. rewrite register_pairs.
      cbn [map total] in T.
      destruct (IH (have + List.length (snd m))%nat (regs (pair_up (snd m)) tab)) as (un & A & B & C & pre & D).
      { intros m' G. apply H. right. exact G. }
      { lia. }
      exists un. split.
      { rewrite A. cbn [concat]. unfold pair_up. rewrite map_app. rewrite regs_app. reflexivity. }
      split; [exact B|]. split.
      { intros F. apply C. inversion F; assumption. }
      exists (rep m :: pre). rewrite D. reflexivity.
    + apply Nat.ltb_ge in E. exists (map rep (m :: ms)). cbn [map total] in T.
      assert (Z0 : Forall (fun m : nat * list branch => snd m = []) (m :: ms)) by (apply total_zero; cbn [map total]; lia).
      split; [|split; [|split]].
      * pose proof (regs_zero (m :: ms) tab Z0) as R. cbn [map] in R. rewrite R. reflexivity.
      * rewrite Forall_map. eapply Forall_impl; [|exact Z0]. simpl. intros a G. rewrite G. reflexivity.
      * intros F. exfalso. inversion F as [|? ? F1 F2]; subst. inversion Z0 as [|? ? Y1 Y2]; subst. contradiction.
      * exists []. reflexivity.
Qed.
End Messages.

(** ** Evaluation *)
Section Eval.
Variable s : site.
Hypothesis W : well_formed s.
Variable c : cand.
Hypothesis C : candidates s = Ok c.
Notation B := (branches s c).
Lemma collect_full n : (n <= List.length B)%nat -> collect (x_objs s) (x_sol s) (x_lo s) (x_up s) n (c_inf c) (c_feas c) = map Some (firstn n B).
Proof.
  intros L. unfold collect. fold (branches s c). rewrite firstn_length.
  replace (n - Nat.min n (List.length B))%nat with 0%nat by lia. apply app_nil_r.
Qed.
Lemma num_len : List.length B = Z.to_nat (c_num c).
Proof. pose proof (branches_len s W c C). lia. Qed.
Lemma nodup_keys_side (f : nat -> list branch) l : NoDup l -> (forall i, NoDup (map key (f i))) ->
  (forall i b, In b (f i) -> b_obj b = i) -> NoDup (map key (flat_map f l)).
Proof.
  intros N F O. induction N as [|i l N1 N2 IH]; [constructor|]. cbn [flat_map]. rewrite map_app.
  assert (G : forall k, In k (map key (f i)) -> ~ In k (map key (flat_map f l))).
  { intros k G1 G2. apply in_map_iff in G1. apply in_map_iff in G2. destruct G1 as (b & <- & G1). destruct G2 as (b' & E & G2).
    apply in_flat_map in G2. destruct G2 as (j & J & G2). apply O in G1. apply O in G2. unfold key in E. injection E as E1 E2.
    apply N1. congruence. }
  revert G. generalize (F i). generalize (map key (f i)). clear - IH. intros a Na. induction Na as [|x a N1 N2 IHa]; intros G; [exact IH|].
  simpl. constructor.
  - rewrite in_app_iff. intros [H|H]; [exact (N1 H)|]. apply (G x); [left; reflexivity|exact H].
  - apply IHa. intros k K. apply G. right. exact K.
Qed.
Lemma nodup_app {A} (a b : list A) : NoDup a -> NoDup b -> (forall x, In x a -> ~ In x b) -> NoDup (a ++ b).
Proof.
  intros Na Nb D. induction Na as [|x a N1 N2 IH]; [exact Nb|]. simpl. constructor.
  - rewrite in_app_iff. intros [H|H]; [contradiction|]. apply (D x); [left; reflexivity|exact H].
  - apply IH. intros y Y. apply D. right. exact Y.
Qed.
Lemma keys_nodup : NoDup (map key B).
Proof.
  destruct (lists_ok s W c C) as (N1 & N2 & LI & LF). unfold branches, all_branches. rewrite map_app. apply nodup_app.
  - apply nodup_keys_side; [exact N1| |].
    + intros i. cbn. constructor; [|constructor; [intros []|constructor]]. intros [G|[]]. discriminate.
    + intros i b [<-|[<-|[]]]; reflexivity.
  - apply nodup_keys_side; [exact N2| |].
    + intros i. unfold feas_branches. destruct (Qltb _ _), (Qltb _ _); cbn; repeat constructor; cbn; intuition discriminate.
    + intros i b G. apply fbr_in in G. apply G.
  - intros k G1 G2. apply in_map_iff in G1. apply in_map_iff in G2. destruct G1 as (b & <- & G1). destruct G2 as (b' & E & G2).
    apply in_flat_map in G1. apply in_flat_map in G2. destruct G1 as (i & I & G1). destruct G2 as (j & J & G2).
    apply ibr_in in G1. apply fbr_in in G2. destruct G1 as (G1 & _). destruct G2 as (G2 & _). unfold key in E. injection E as E1 E2.
    assert (H : i = j) by congruence. subst j. apply LI in I. apply LF in J. destruct I as [_ I]. destruct J as [_ [J _]]. rewrite H in I. exact (J I).
Qed.
Lemma nodup_firstn {A} n (l : list A) : NoDup l -> NoDup (firstn n l).
Proof.
  intros N. rewrite <- (firstn_skipn n l) in N. revert N. generalize (firstn n l) (skipn n l). intros a b.
  induction a as [|x a IH]; intros N; [constructor|]. simpl in N. inversion N; subst. constructor.
  - intros G. apply H1. apply in_app_iff. left. exact G.
  - apply IH. assumption.
Qed.
Notation pairs := (pair_up (x_solve s) (x_lo s) (x_up s)).
Lemma pair_keys bs : map (fun p => key (fst p)) (pairs bs) = map key bs.
Proof. unfold pair_up. rewrite map_map. reflexivity. Qed.
Lemma one_process_regs n : one_process s n c = regs (pairs (firstn n B)) (clear (x_tab s)).
Proof. unfold one_process. apply register_pairs. Qed.

(** What an evaluation gives when the assertion on the share of the local
    process does not stop it. *)
Lemma evaluate_eq n : (0 < n <= Z.to_nat (c_num c))%nat ->
  (x_ndebug s = false /\ (0 < x_pids s)%nat /\ (x_pids s + 1 <= n)%nat /\ evaluate s n (c_inf c) (c_feas c) = AssertFail) \/
  ((x_ndebug s = true \/ x_pids s = 0%nat \/ (n < x_pids s + 1)%nat) /\
   exists un, evaluate s n (c_inf c) (c_feas c) = Ok (one_process s n c, un) /\
    ((x_pids s <= n)%nat -> un = []) /\ Forall (fun m => snd m = []) un).
Proof.
  intros L. rewrite <- num_len in L. unfold evaluate, do_distributed_SB. rewrite collect_full by lia.
  set (M := firstn n B). assert (LM : List.length M = n) by (unfold M; rewrite firstn_length; lia).
  destruct (x_pids s) as [|p] eqn:Ep.
  - cbn [chunks slices bind]. right. split; [auto|].
    replace (n / (0 + 1))%nat with n by (rewrite Nat.div_1_r; reflexivity). rewrite Nat.eqb_refl, orb_true_r. cbn [chk bind].
    replace (n - n)%nat with 0%nat by lia. rewrite slice_ok by lia. cbn [bind skipn map].
    pose proof (wf_net s W []) as PN. apply Permutation_nil in PN. rewrite PN.
    rewrite (firstn_all2 M) by lia. rewrite solve_branches_eq. cbn [fst].
    exists []. split; [|split; [reflexivity|constructor]].
    assert (E : receive n n [] (map Some M) (register M (map (answer (x_solve s) (x_lo s) (x_up s)) M) (clear (x_tab s)))
              = Ok (register M (map (answer (x_solve s) (x_lo s) (x_up s)) M) (clear (x_tab s)), [])).
    { cbn [receive]. rewrite Nat.ltb_irrefl. reflexivity. }
    exact E.
  - destruct (chunks_all (S p) n) as (ns & A & T & LN & _ & Pos); [lia|]. rewrite A. rewrite slices_ok by lia. cbn [bind].
    destruct (x_ndebug s || Nat.eqb (n / (S p + 1)) 0) eqn:Dbg.
    + right. split.
      { apply orb_true_iff in Dbg. destruct Dbg as [Dbg|Dbg]; [left; exact Dbg|]. right. right.
        apply Nat.eqb_eq in Dbg. apply Nat.div_small_iff in Dbg; lia. }
      cbn [chk bind]. replace (n - 0)%nat with n by lia. cbn [slice bind solve_branches fst register].
      assert (R : map (reply (x_lo s) (x_up s) (x_solve s)) (pieces M 0 ns) = map (rep (x_solve s) (x_lo s) (x_up s)) (pieces M 0 ns)).
      { apply map_ext. intros m. unfold reply, rep. rewrite solve_branches_eq. reflexivity. }
      rewrite R. set (rs := map (rep (x_solve s) (x_lo s) (x_up s)) (pieces M 0 ns)).
      destruct (Permutation_map_inv _ _ (Permutation_sym (wf_net s W rs))) as (ms & Ems & Pms).
      rewrite Ems.
      destruct (receive_ok (x_solve s) (x_lo s) (x_up s) M n ms 0 (clear (x_tab s))) as (un & E & F & G & pre & D).
      { intros m I. apply (Permutation_in _ (Permutation_sym Pms)) in I. eapply pieces_in; [|exact I]. lia. }
      { rewrite <- (total_perm _ _ (Permutation_map (fun m => List.length (snd m)) Pms)). rewrite pieces_lengths by lia. exact T. }
      exists un. split; [|split; [|exact F]].
      * rewrite E. f_equal. f_equal. rewrite one_process_regs. fold M. symmetry.
        assert (PC : Permutation M (concat (map snd ms))).
        { rewrite <- (concat_perm _ _ (Permutation_map snd Pms)). rewrite pieces_concat. cbn [skipn]. rewrite T.
          rewrite (firstn_all2 M) by lia. reflexivity. }
        apply regs_perm; [apply Permutation_map, PC|]. rewrite pair_keys. unfold M. rewrite <- firstn_map. apply nodup_firstn, keys_nodup.
      * intros Le. apply G. specialize (Pos Le). apply Forall_forall. intros m I.
        apply (Permutation_in _ (Permutation_sym Pms)) in I. intros Z0.
        assert (I2 : In (List.length (snd m)) (map (fun m => List.length (snd m)) (pieces M 0 ns))) by (apply in_map_iff; eauto).
        rewrite pieces_lengths in I2 by lia. rewrite Forall_forall in Pos. specialize (Pos _ I2). rewrite Z0 in Pos. simpl in Pos. lia.
    + left. apply orb_false_iff in Dbg. destruct Dbg as [D1 D2]. apply Nat.eqb_neq in D2. split; [exact D1|]. split; [lia|].
      split; [|reflexivity]. destruct (Nat.lt_ge_cases n (S p + 1)) as [G|G]; [|exact G].
      exfalso. apply D2. apply Nat.div_small. exact G.
Qed.

(** What the table holds. *)
Lemma tab_length : List.length (x_tab s) = List.length (x_objs s).
Proof. rewrite <- (map_length r_col), (wf_tab s W), map_length. reflexivity. Qed.
Lemma clear_length t : List.length (clear t) = List.length t.
Proof. apply map_length. Qed.
Lemma clear_get w i : fst (gs w (nth i (clear (x_tab s)) dres)) = false.
Proof.
  unfold clear. set (f := fun r : sbres => _). change dres with (f dres). rewrite map_nth. destruct w; reflexivity.
Qed.
Lemma one_col n i : (i < List.length (x_objs s))%nat -> r_col (nth i (one_process s n c) dres) = col s i.
Proof.
  intros L. rewrite one_process_regs, regs_col. transitivity (nth i (map r_col (x_tab s)) 0%nat).
  - change 0%nat with (r_col dres). rewrite map_nth. unfold clear. set (f := fun r : sbres => _).
    change dres with (f dres) at 1. rewrite (map_nth f). reflexivity.
  - rewrite (wf_tab s W). change 0%nat with (o_col dobj). rewrite map_nth. reflexivity.
Qed.
Lemma one_get n i w : (i < List.length (x_objs s))%nat -> fst (gs w (nth i (one_process s n c) dres)) = true ->
  exists b, In b (firstn n B) /\ b_obj b = i /\ b_up b = w /\
    snd (gs w (nth i (one_process s n c) dres)) = Some (sside b (answer (x_solve s) (x_lo s) (x_up s) b)).
Proof.
  intros L E. rewrite one_process_regs in *.
  destruct (regs_get w i (pairs (firstn n B)) (clear (x_tab s))) as [A Bn].
  { rewrite clear_length, tab_length. exact L. }
  { rewrite pair_keys, <- firstn_map. apply nodup_firstn, keys_nodup. }
  destruct (find (fun b => Nat.eqb (b_obj b) i && Bool.eqb (b_up b) w) (firstn n B)) as [b|] eqn:F.
  - apply find_some in F. destruct F as [I F]. apply andb_true_iff in F. destruct F as [F1 F2]. apply Nat.eqb_eq in F1.
    apply Bool.eqb_prop in F2. exists b. split; [exact I|]. split; [exact F1|]. split; [exact F2|].
    rewrite (A b (answer (x_solve s) (x_lo s) (x_up s) b)); [reflexivity| |exact F1|exact F2].
    apply in_map_iff. exists b. auto.
  - exfalso. rewrite Bn in E.
    + rewrite clear_get in E. discriminate.
    + intros b a I [F1 F2]. apply in_map_iff in I. destruct I as (b' & Eb & I). injection Eb as -> <-.
      pose proof (find_none _ _ F b I) as G. cbn beta in G. rewrite F1, F2, Nat.eqb_refl, Bool.eqb_reflx in G. discriminate.
Qed.
Lemma one_set n b : In b (firstn n B) ->
  gs (b_up b) (nth (b_obj b) (one_process s n c) dres) = (true, Some (sside b (answer (x_solve s) (x_lo s) (x_up s) b))).
Proof.
  intros I. rewrite one_process_regs. apply (regs_get (b_up b) (b_obj b)).
  - rewrite clear_length, tab_length. assert (In b B) as J by (rewrite <- (firstn_skipn n B); apply in_app_iff; left; exact I).
    destruct (lists_ok s W c C) as (_ & _ & LI & LF). apply in_branches in J. destruct J as [(i & J & K)|(i & J & K)].
    + apply ibr_in in K. destruct K as (-> & _). apply LI in J. apply J.
    + apply fbr_in in K. destruct K as (-> & _). apply LF in J. apply J.
  - rewrite pair_keys, <- firstn_map. apply nodup_firstn, keys_nodup.
  - apply in_map_iff. exists b. auto.
  - reflexivity.
  - reflexivity.
Qed.
Lemma ibr_pos i b l n : In b (firstn n (flat_map (inf_branches (x_objs s) (x_sol s)) l)) -> b_obj b = i -> NoDup l ->
  (Nat.even n = true \/ (2 * List.length l <= n)%nat) ->
  forall b', In b' (inf_branches (x_objs s) (x_sol s) i) -> In b' (firstn n (flat_map (inf_branches (x_objs s) (x_sol s)) l)).
Proof.
  revert n. induction l as [|j l IH]; intros n I E N Pn b' I'; [rewrite firstn_nil in I; destruct I|].
  inversion N as [|? ? N1 N2]; subst. cbn [flat_map inf_branches app] in I |- *.
  destruct n as [|[|n]].
  - destruct I.
  - destruct Pn as [Pn|Pn]; [discriminate|simpl in Pn; lia].
  - cbn [firstn] in I |- *. destruct (Nat.eq_dec (b_obj b) j) as [Ej|Ej].
    + subst j. destruct I' as [<-|[<-|[]]]; [left; reflexivity|right; left; reflexivity].
    + destruct I as [I|[I|I]].
      { destruct Ej. rewrite <- I. reflexivity. }
      { destruct Ej. rewrite <- I. reflexivity. }
      right. right. apply IH; [exact I|reflexivity|exact N2| |exact I'].
      destruct Pn as [Pn|Pn]; [left; exact Pn|right; simpl in Pn; lia].
Qed.
Lemma firstn_split n : firstn n B = firstn n (flat_map (inf_branches (x_objs s) (x_sol s)) (c_inf c)) ++
  firstn (n - List.length (flat_map (inf_branches (x_objs s) (x_sol s)) (c_inf c))) (flat_map (feas_branches (x_objs s) (x_sol s) (x_lo s) (x_up s)) (c_feas c)).
Proof. unfold branches, all_branches. apply firstn_app. Qed.
Lemma both_sides n i w : paired c n -> In i (c_inf c) -> fst (gs w (nth i (one_process s n c) dres)) = true ->
  fst (gs (negb w) (nth i (one_process s n c) dres)) = true.
Proof.
  intros Pn I E. destruct (lists_ok s W c C) as (N1 & _ & LI & LF). pose proof (proj1 (LI i) I) as [L Fr].
  destruct (one_get n i w L E) as (b & Ib & Ob & Ub & _). rewrite firstn_split in Ib. apply in_app_iff in Ib. destruct Ib as [Ib|Ib].
  - pose proof (ibr_pos i b (c_inf c) n Ib Ob N1 Pn) as K.
    assert (J : exists b', In b' (inf_branches (x_objs s) (x_sol s) i) /\ b_obj b' = i /\ b_up b' = negb w).
    { destruct w; [eexists; split; [left; reflexivity|split; reflexivity]|eexists; split; [right; left; reflexivity|split; reflexivity]]. }
    destruct J as (b' & J1 & J2 & J3). rewrite <- J2 at 1. rewrite <- J3.
    rewrite one_set; [reflexivity|]. rewrite firstn_split. apply in_app_iff. left. apply K. exact J1.
  - assert (Ib2 : In b (flat_map (feas_branches (x_objs s) (x_sol s) (x_lo s) (x_up s)) (c_feas c))).
    { rewrite <- (firstn_skipn (n - List.length (flat_map (inf_branches (x_objs s) (x_sol s)) (c_inf c)))). apply in_app_iff. left. exact Ib. }
    apply in_flat_map in Ib2. destruct Ib2 as (j & J & K). apply fbr_in in K. destruct K as (K & _).
    assert (H : j = i) by congruence. rewrite H in J. apply LF in J. destruct J as [_ [J _]]. destruct (J Fr).
Qed.
End Eval.
