(** Proofs about the parallel driver: data sent between processes. *)
From Coq Require Import String Sorted.
From Verif Require Import Base Arr Bcp_Model Bcp_Spec Bcp_Proofs Bcp_Proofs2 Bcp_Proofs3.
#[local] Open Scope Q_scope.

(** ** Failures in a row *)
Lemma take_in {A} k (l : list A) x r : take_nth k l = Some (x, r) -> In x l /\ (forall y, In y r -> In y l).
Proof.
  intros H. apply take_nth_perm in H. split.
  - apply (Permutation_in _ (Permutation_sym H)). left. reflexivity.
  - intros y Y. apply (Permutation_in _ (Permutation_sym H)). right. exact Y.
Qed.
Lemma nth_put_some {A} k j (v : option A) l x : nth k (put j v l) None = Some x -> v = Some x \/ nth k l None = Some x.
Proof.
  intros H. destruct (Nat.eq_dec j k) as [->|N].
  - destruct (Nat.lt_ge_cases k (List.length l)) as [L|L].
    + rewrite put_nth, Nat.eqb_refl in H by exact L. left. exact H.
    + rewrite put_nth_out in H by exact L. right. exact H.
  - rewrite nth_put_other in H by exact N. right. exact H.
Qed.
Lemma happen_ok max w e : C228_spec max w -> C228_spec max (happen max w e).
Proof.
  intros (A & B & G). destruct e as [k j|k failed|k|k]; cbn [happen].
  - destruct (take_nth j (w_open w)) as [[[n h] r]|] eqn:T; [|repeat split; [apply (A _ _ H)|apply (A _ _ H)|apply (B _ _ _ H)|apply (B _ _ _ H)|exact G]].
    destruct (nth k (w_busy w) None) eqn:E; [repeat split; [apply (A _ _ H)|apply (A _ _ H)|apply (B _ _ _ H)|apply (B _ _ _ H)|exact G]|].
    destruct (take_in _ _ _ _ T) as [T1 T2]. split; [|split]; cbn [w_open w_busy w_gone].
    + intros n' h' I. apply A, T2, I.
    + intros k' n' h' H. apply nth_put_some in H. destruct H as [H|H]; [injection H as <- <-; apply A, T1|exact (B _ _ _ H)].
    + exact G.
  - destruct (nth k (w_busy w) None) as [[n h]|] eqn:E; [|split; [exact A|split; [exact B|exact G]]].
    destruct (B _ _ _ E) as [En Rh]. unfold count_failure. destruct failed.
    + destruct (Z.leb max (n + 1)) eqn:M.
      * apply Z.leb_le in M. split; [|split]; cbn [w_open w_busy w_gone].
        -- exact A.
        -- intros k' n' h' H. apply nth_put_some in H. destruct H as [H|H]; [discriminate|exact (B _ _ _ H)].
        -- intros h' [<-|I]; [cbn [row]; lia|apply G, I].
      * apply Z.leb_gt in M. unfold set_busy. split; [|split]; cbn [w_open w_busy w_gone].
        -- exact A.
        -- intros k' n' h' H. apply nth_put_some in H. destruct H as [H|H]; [injection H as <- <-; cbn [row]; lia|exact (B _ _ _ H)].
        -- exact G.
    + unfold set_busy. split; [|split]; cbn [w_open w_busy w_gone].
      * exact A.
      * intros k' n' h' H. apply nth_put_some in H. destruct H as [H|H]; [injection H as <- <-; cbn [row]|exact (B _ _ _ H)].
        split; [reflexivity|]. assert (0 <= row h)%Z; [|lia]. clear. induction h as [|[] h IH]; cbn [row]; lia.
      * exact G.
  - destruct (nth k (w_busy w) None) as [[n h]|] eqn:E; [|split; [exact A|split; [exact B|exact G]]].
    destruct (B _ _ _ E) as [En Rh]. split; [|split]; cbn [w_open w_busy w_gone].
    + intros n' h' [H|[H|I]]; [injection H as <- <-; auto|injection H as <- <-; auto|apply A, I].
    + intros k' n' h' H. apply nth_put_some in H. destruct H as [H|H]; [discriminate|exact (B _ _ _ H)].
    + exact G.
  - unfold set_busy. split; [|split]; cbn [w_open w_busy w_gone].
    + exact A.
    + intros k' n' h' H. apply nth_put_some in H. destruct H as [H|H]; [discriminate|exact (B _ _ _ H)].
    + exact G.
Qed.
Lemma nth_repeat_none {A} n k : nth k (repeat (@None A) n) None = None.
Proof. revert k; induction n as [|n IH]; intros [|k]; simpl; auto. Qed.
Lemma reach_ok max procs es : (0 < max)%Z -> C228_spec max (reach max procs es).
Proof.
  intros M. unfold reach. assert (I : C228_spec max (start procs)).
  { split; [|split]; cbn [start w_open w_busy w_gone].
    - intros n h [H|[]]. injection H as <- <-. cbn [row]. auto.
    - intros k n h H. rewrite nth_repeat_none in H. discriminate.
    - intros h []. }
  revert I. generalize (start procs). induction es as [|e es IH]; intros w I; [exact I|]. cbn [fold_left]. apply IH, happen_ok, I.
Qed.

(** ** Pseudo-costs *)
Section Pc.
Variable cutoff nodeval : Q.
(** What the sender makes of one side. *)
Definition sent (ev : bool) (s : option side) : option Q :=
  if ev then match s with
    | Some d => if only_ab (d_st d) then None else
        Some ((if only_opt (d_st d) then d_val d - nodeval
               else if Qltb cutoff (inject_Z (10 ^ 50)) then 2 * (cutoff - nodeval) else 2 * Qabs nodeval) / d_chg d)
    | None => None end
  else None.
Definition toks (i : nat) (way : Z) (o : option Q) : list tok :=
  match o with Some c => [TI (Z.of_nat i); TI way; TD c] | None => [] end.
Lemma pc_side_ok i way ev s : stored_side ev s -> pc_side cutoff nodeval i way ev s = Ok (toks i way (sent ev s)).
Proof.
  intros St. unfold pc_side, sent. destruct ev; [|reflexivity]. destruct (St eq_refl) as (d & -> & Pos). cbn [get bind].
  destruct (only_ab (d_st d)); [reflexivity|]. unfold pc_change.
  assert (Qeq_bool (d_chg d) 0 = false) as ->.
  { destruct (Qeq_bool (d_chg d) 0) eqn:E; [|reflexivity]. apply Qeq_bool_iff in E. lra. }
  reflexivity.
Qed.
Definition add_q (o : option Q) (k : nat) (l : list Q) : list Q := match o with Some c => put k (nth k l 0 + c) l | None => l end.
Definition add_z (o : option Q) (k : nat) (l : list Z) : list Z := match o with Some c => put k (nth k l 0 + 1)%Z l | None => l end.
Definition upd_side (way : bool) (o : option Q) (k : nat) (p : pcosts) : pcosts :=
  if way then {| up_tot := add_q o k (up_tot p); up_num := add_z o k (up_num p); down_tot := down_tot p; down_num := down_num p |}
  else {| up_tot := up_tot p; up_num := up_num p; down_tot := add_q o k (down_tot p); down_num := add_z o k (down_num p) |}.
Lemma pcosts_eta p : {| up_tot := up_tot p; up_num := up_num p; down_tot := down_tot p; down_num := down_num p |} = p.
Proof. destruct p; reflexivity. Qed.
Lemma recv_side i (way : bool) o rest p N f : same_size N p -> (i < N)%nat -> (List.length (toks i (if way then 1%Z else 0%Z) o ++ rest) < f)%nat ->
  exists f', (List.length rest < f')%nat /\ receive_pc f (toks i (if way then 1%Z else 0%Z) o ++ rest) p = receive_pc f' rest (upd_side way o i p) /\
    same_size N (upd_side way o i p).
Proof.
  intros (S1 & S2 & S3 & S4) L Fl. destruct o as [c|].
  - cbn [toks app List.length] in Fl |- *. destruct f as [|f]; [lia|]. exists f. split; [lia|]. cbn [receive_pc].
    assert (Z.eqb (Z.of_nat i) (-1) = false) as -> by (apply Z.eqb_neq; lia).
    assert (Z.ltb (Z.of_nat i) 0 = false) as -> by (apply Z.ltb_ge; lia). rewrite Nat2Z.id.
    assert (Nat.ltb i (List.length (down_tot p)) = true) as -> by (apply Nat.ltb_lt; lia).
    assert (Nat.ltb i (List.length (up_tot p)) = true) as -> by (apply Nat.ltb_lt; lia).
    destruct way; cbn [Z.eqb]; (split; [reflexivity|]); unfold same_size; cbn; rewrite ?put_length; auto.
  - cbn [toks app] in *. exists f. split; [exact Fl|].
    assert (upd_side way None i p = p) as -> by (unfold upd_side, add_q, add_z; destruct way; apply pcosts_eta).
    split; [reflexivity|]. repeat split; assumption.
Qed.
Lemma add_q_other o k j l : k <> j -> nth j (add_q o k l) 0 = nth j l 0.
Proof. intros N. destruct o; [|reflexivity]. apply nth_put_other. exact N. Qed.
Lemma add_z_other o k j l : k <> j -> nth j (add_z o k l) 0%Z = nth j l 0%Z.
Proof. intros N. destruct o; [|reflexivity]. apply nth_put_other. exact N. Qed.
Lemma moved_add o k l m : (k < List.length l)%nat -> (k < List.length m)%nat ->
  moved_by o (nth k l 0) (nth k (add_q o k l) 0) (nth k m 0%Z) (nth k (add_z o k m) 0%Z).
Proof.
  intros L1 L2. destruct o as [c|]; cbn [moved_by add_q add_z]; [|auto].
  rewrite !put_nth, !Nat.eqb_refl by assumption. split; reflexivity.
Qed.
Definition agree_below (i : nat) (p p' : pcosts) : Prop := forall j, (j < i)%nat ->
  nth j (up_tot p') 0 = nth j (up_tot p) 0 /\ nth j (up_num p') 0%Z = nth j (up_num p) 0%Z /\
  nth j (down_tot p') 0 = nth j (down_tot p) 0 /\ nth j (down_num p') 0%Z = nth j (down_num p) 0%Z.
Lemma body_ok tab : forall i, stored tab -> exists m, pc_body cutoff nodeval i tab = Ok m /\
  forall N p f, same_size N p -> (i + List.length tab <= N)%nat -> (List.length m < f)%nat ->
    exists p', receive_pc f m p = Ok p' /\ same_size N p' /\ agree_below i p p' /\
      forall j, (j < List.length tab)%nat -> let r := nth j tab dres in
        moved_by (sent (r_e0 r) (r_d0 r)) (nth (i + j) (down_tot p) 0) (nth (i + j) (down_tot p') 0) (nth (i + j) (down_num p) 0%Z) (nth (i + j) (down_num p') 0%Z) /\
        moved_by (sent (r_e1 r) (r_d1 r)) (nth (i + j) (up_tot p) 0) (nth (i + j) (up_tot p') 0) (nth (i + j) (up_num p) 0%Z) (nth (i + j) (up_num p') 0%Z).
Proof.
  induction tab as [|r tab IH]; intros i St.
  - exists [TI (-1)]. split; [reflexivity|]. intros N p f SS _ Lf. destruct f as [|f]; [simpl in Lf; lia|]. exists p.
    split; [reflexivity|]. split; [exact SS|]. split; [intros j _; auto|]. intros j Lj. simpl in Lj. lia.
  - inversion St as [|? ? [St0 St1] St']; subst. destruct (IH (S i) St') as (m & Em & Rm). cbn [pc_body].
    rewrite (pc_side_ok i 0 _ _ St0), (pc_side_ok i 1 _ _ St1). cbn [bind]. rewrite Em. cbn [bind].
    eexists. split; [reflexivity|]. intros N p f SS Li Lf. cbn [List.length] in Li.
    set (o0 := sent (r_e0 r) (r_d0 r)) in *. set (o1 := sent (r_e1 r) (r_d1 r)) in *.
    destruct (recv_side i false o0 (toks i 1 o1 ++ m) p N f SS ltac:(lia) Lf) as (f1 & Lf1 & E1 & SS1).
    destruct (recv_side i true o1 m (upd_side false o0 i p) N f1 SS1 ltac:(lia) Lf1) as (f2 & Lf2 & E2 & SS2).
    destruct (Rm N (upd_side true o1 i (upd_side false o0 i p)) f2 SS2 ltac:(lia) Lf2) as (p' & E3 & SS3 & Ag & Mv).
    exists p'. split; [cbn beta iota in E1, E2; rewrite E1, E2; exact E3|]. split; [exact SS3|]. split.
    + intros j Lj. destruct (Ag j ltac:(lia)) as (-> & -> & -> & ->). cbn.
      rewrite !add_q_other, !add_z_other by lia. auto.
    + intros [|j] Lj; cbn [nth].
      * rewrite Nat.add_0_r. destruct (Ag i ltac:(lia)) as (-> & -> & -> & ->). cbn.
        destruct SS as (Z1 & Z2 & Z3 & Z4). split; apply moved_add; lia.
      * cbn [List.length] in Lj. specialize (Mv j ltac:(lia)). replace (i + S j)%nat with (S i + j)%nat by lia. cbn in Mv.
        rewrite !add_q_other, !add_z_other in Mv by lia. exact Mv.
Qed.
Lemma transfer_ok tab p : stored tab -> same_size (List.length tab) p ->
  exists m p', send_pseudo_cost_update cutoff nodeval tab = Ok m /\ tm_process_message m p = Ok p' /\ same_size (List.length tab) p' /\
    forall i, (i < List.length tab)%nat -> let r := nth i tab dres in
      moved_by (sent (r_e0 r) (r_d0 r)) (nth i (down_tot p) 0) (nth i (down_tot p') 0) (nth i (down_num p) 0%Z) (nth i (down_num p') 0%Z) /\
      moved_by (sent (r_e1 r) (r_d1 r)) (nth i (up_tot p) 0) (nth i (up_tot p') 0) (nth i (up_num p) 0%Z) (nth i (up_num p') 0%Z).
Proof.
  intros St SS. destruct (body_ok tab 0 St) as (m & Em & Rm). unfold send_pseudo_cost_update. rewrite Em. cbn [bind].
  destruct (Rm (List.length tab) p (S (List.length m)) SS ltac:(lia) ltac:(lia)) as (p' & E & SS' & _ & Mv).
  exists (TI PseudoCostUpdate :: m), p'. split; [reflexivity|]. split; [exact E|]. split; [exact SS'|exact Mv].
Qed.
Lemma sent_worth ev s : stored_side ev s -> (forall d, s = Some d -> one_bit (d_st d)) ->
  (forall d, ev = true -> s = Some d -> ab (d_st d) || opt (d_st d) || pinf (d_st d) = true) -> worth cutoff nodeval s ev (sent ev s).
Proof.
  intros St OB De. destruct ev; [|constructor]. destruct (St eq_refl) as (d & -> & Pos). specialize (De d eq_refl eq_refl).
  destruct (OB d eq_refl) as (B1 & B2 & B3). unfold sent, only_ab, only_opt.
  destruct (ab (d_st d)) eqn:A, (opt (d_st d)) eqn:O, (pinf (d_st d)) eqn:Pi; try discriminate; cbn [andb negb].
  - apply w_ab; assumption.
  - apply w_opt; assumption.
  - apply w_inf; [assumption|assumption|reflexivity].
Qed.
End Pc.

(** ** Node data *)
Lemma into_same {A} (l old : list A) : List.length l = List.length old -> into l old = Ok l.
Proof.
  intros E. unfold into. rewrite E, Nat.leb_refl. rewrite skipn_all. rewrite app_nil_r. reflexivity.
Qed.

(** ** Solutions *)
Lemma dense_length isint es : forall d, List.length (dense isint es d) = List.length d.
Proof. induction es as [|[i v] es IH]; intros d; cbn [dense]; [reflexivity|]. rewrite IH. apply put_length. Qed.
Lemma dense_get isint es : forall d i, (i < List.length d)%nat -> NoDup (map fst es) ->
  (forall v, In (i, v) es -> nth i (dense isint es d) 0 = if isint i then flo (v + half) else v) /\
  ((forall v, ~ In (i, v) es) -> nth i (dense isint es d) 0 = nth i d 0).
Proof.
  induction es as [|[j w] es IH]; intros d i L N; cbn [dense]; [split; [intros v []|reflexivity]|].
  cbn [map fst] in N. inversion N as [|? ? N1 N2]; subst.
  destruct (IH (put j (if isint j then flo (w + half) else w) d) i ltac:(rewrite put_length; exact L) N2) as [A B]. split.
  - intros v [G|G]; [|exact (A v G)]. injection G as -> ->. rewrite B.
    + rewrite put_nth, Nat.eqb_refl by exact L. reflexivity.
    + intros v' G. apply N1. apply in_map_iff. exists (i, v'). auto.
  - intros H. rewrite B by (intros v G; apply (H v); right; exact G). apply nth_put_other.
    intros ->. apply (H w). left. reflexivity.
Qed.
Lemma hybrid_in tol x i v : In (i, v) (hybrid_entries tol x) <-> (i < List.length x)%nat /\ v = nth i x 0 /\ tol < v.
Proof.
  unfold hybrid_entries. rewrite filter_In. cbn [snd]. rewrite Qltb_lt.
  assert (E : In (i, v) (combine (seq 0 (List.length x)) x) <-> (i < List.length x)%nat /\ v = nth i x 0).
  { assert (G : forall k l, In (i, v) (combine (seq k (List.length l)) l) <-> (k <= i < k + List.length l)%nat /\ v = nth (i - k) l 0).
    { intros k l. revert k. induction l as [|a l IH]; intros k; cbn [List.length seq combine In]; [split; [intros []|lia]|].
      rewrite IH. split.
      - intros [H|[H1 H2]]; [injection H as -> ->; rewrite Nat.sub_diag; split; [lia|reflexivity]|].
        split; [lia|]. replace (i - k)%nat with (S (i - S k)) by lia. exact H2.
      - intros [H1 H2]. destruct (Nat.eq_dec i k) as [->|Ne]; [left; rewrite Nat.sub_diag in H2; cbn [nth] in H2; congruence|].
        right. split; [lia|]. replace (i - k)%nat with (S (i - S k)) in H2 by lia. exact H2. }
    rewrite G. rewrite Nat.sub_0_r. split; intros [H1 H2]; (split; [lia|exact H2]). }
  rewrite E. tauto.
Qed.
Lemma hybrid_nodup tol x : NoDup (map fst (hybrid_entries tol x)).
Proof.
  unfold hybrid_entries.
  assert (G : forall (es : list (nat * Q)) p, NoDup (map fst es) -> NoDup (map fst (filter p es))).
  { intros es p. induction es as [|e es IH]; intros N; cbn [filter map]; [constructor|].
    cbn [map] in N. inversion N as [|? ? N1 N2]; subst. destruct (p e); [|apply IH, N2]. cbn [map]. constructor; [|apply IH, N2].
    intros I. apply N1. apply in_map_iff in I. destruct I as (y & E & I). apply filter_In in I. apply in_map_iff. exists y. split; [exact E|apply I]. }
  apply G. assert (E : forall k (l : list Q), map fst (combine (seq k (List.length l)) l) = seq k (List.length l)).
  { intros k l. revert k. induction l as [|a l IH]; intros k; cbn; [reflexivity|]. f_equal. apply IH. }
  rewrite E. apply seq_NoDup.
Qed.
Lemma written_ok isint tol x i : 0 < tol < 1 # 2 -> (i < List.length x)%nat ->
  (isint i = true -> exists k, integral k /\ Qabs (nth i x 0 - k) <= tol) ->
  - tol <= nth i x 0 ->
  Qabs (nth i (written isint (List.length x) (hybrid_entries tol x)) 0 - nth i x 0) <= tol.
Proof.
  intros T L I P. unfold written.
  destruct (dense_get isint (hybrid_entries tol x) (repeat 0 (List.length x)) i ltac:(rewrite repeat_length; exact L) (hybrid_nodup tol x)) as [A B].
  destruct (Qlt_le_dec tol (nth i x 0)) as [G|G].
  - rewrite (A (nth i x 0)) by (apply hybrid_in; auto). destruct (isint i).
    + destruct (I eq_refl) as (k & K & D). rewrite (near_floor _ k K) by lra. apply Qabs_bounds in D. apply Qabs_bounds. lra.
    + apply Qabs_bounds. lra.
  - rewrite B by (intros v H; apply hybrid_in in H; destruct H as (_ & -> & H); lra).
    assert (nth i (repeat 0 (List.length x)) 0 = 0) as -> by (clear; generalize (List.length x); intros m; revert i; induction m; intros [|i]; simpl; auto).
    apply Qabs_bounds. lra.
Qed.

(** ** Order *)
Lemma before_iff x y : before x y = true <-> fst x < fst y - gap \/ (fst x <= fst y + gap /\ (snd y < snd x)%Z).
Proof. unfold before. rewrite orb_true_iff, andb_true_iff, Qltb_lt, Qle_bool_iff, Z.ltb_lt. reflexivity. Qed.
