(** Proofs for cut strengthening. *)
From Verif Require Import Base Arr Oad_Model Str_Model Str_Spec.
#[local] Open Scope Q_scope.

Lemma lset_inv {A} i (a : A) l l' d : lset i a l = Ok l' -> (i < length l)%nat /\ length l' = length l /\ forall j, nth j l' d = if Nat.eqb j i then a else nth j l d.
Proof.
  intros H. unfold lset in H. destruct (Nat.ltb i (length l)) eqn:E; [|discriminate]. apply Nat.ltb_lt in E.
  assert (X : l' = firstn i l ++ a :: skipn (S i) l) by congruence. subst l'. split; [exact E|]. split; [apply upd_length, E|]. intros j. apply upd_nth, E.
Qed.
Lemma rd_inv {A} i (l : list A) v d : rd i l = Ok v -> (i < length l)%nat /\ nth i l d = v.
Proof.
  unfold rd. destruct (nth_error l i) eqn:E; intros H; [|discriminate]. assert (a = v) by congruence. subst a. split; [apply nth_error_Some; congruence|].
  apply nth_error_nth, E.
Qed.
Lemma rd_fine {A} i (l : list A) d : (i < length l)%nat -> rd i l = Ok (nth i l d).
Proof. intros H. unfold rd. rewrite (nth_error_nth' l d H). reflexivity. Qed.

Lemma scatter_ok vars : forall y x, (length vars <= length y)%nat -> Forall (fun j => (j < length x)%nat) vars ->
  exists a, scatter vars y x = Ok a /\ length a = length x /\ (forall j, ~ In j vars -> nth j a 0 = nth j x 0) /\
    (forall z, (forall i, (i < length vars)%nat -> nth i y 0 = nth (nth i vars O) z 0) -> forall j, In j vars -> nth j a 0 = nth j z 0).
Proof.
  induction vars as [|v vars IH]; intros y x L F; cbn [scatter].
  - exists x. split; [reflexivity|]. split; [reflexivity|]. split; [reflexivity|]. intros z _ j [].
  - destruct y as [|b y]; cbn [length] in L; [lia|]. inversion F as [|? ? Hv F']; subst. rewrite lset_ok by exact Hv. cbn [bind].
    destruct (IH y (firstn v x ++ b :: skipn (S v) x)) as (a & E & La & Oth & I); [lia|rewrite upd_length by exact Hv; exact F'|].
    exists a. split; [exact E|]. split; [rewrite La; apply upd_length, Hv|]. split.
    + intros j N. rewrite Oth by (intros X; apply N; right; exact X). rewrite upd_nth by exact Hv. destruct (Nat.eqb_spec j v) as [e|_]; [|reflexivity]. subst j. destruct N. left. reflexivity.
    + intros z Hz j [e|Hj].
      * subst j. destruct (in_dec Nat.eq_dec v vars) as [J|J].
        -- apply I; [|exact J]. intros i Hi. apply (Hz (S i)). cbn [length]. lia.
        -- rewrite Oth by exact J. rewrite upd_nth by exact Hv. rewrite Nat.eqb_refl. apply (Hz 0%nat). cbn [length]. lia.
      * apply I; [|exact Hj]. intros i Hi. apply (Hz (S i)). cbn [length]. lia.
Qed.

Lemma find_index_ok idx v j : find_index idx v = Some j -> (j < length v)%nat /\ nth j v O = idx.
Proof.
  revert j; induction v as [|a v IH]; intros j H; cbn [find_index] in H; [discriminate|]. destruct (Nat.eqb_spec idx a) as [e|N].
  - assert (j = O) by congruence. subst j. cbn. split; [lia|congruence].
  - destruct (find_index idx v) as [k|]; [|discriminate]. cbn [option_map] in H. assert (j = S k) by congruence. subst j. destruct (IH k eq_refl). cbn. split; [lia|assumption].
Qed.
Lemma find_index_in idx v : In idx v -> exists j, find_index idx v = Some j.
Proof.
  induction v as [|a v IH]; intros H; [destruct H|]. cbn [find_index]. destruct (Nat.eqb_spec idx a); [eauto|]. destruct H as [H|H]; [congruence|]. destruct (IH H) as (j & ->). cbn. eauto.
Qed.
Lemma dotp_upd o y j v : (j < length o)%nat -> length y = length o -> dotp (firstn j o ++ v :: skipn (S j) o) y == dotp o y + (v - nth j o 0) * nth j y 0.
Proof.
  unfold dotp. revert o y; induction j as [|j IH]; intros [|a o] [|b y] H L; cbn [length] in *; try lia.
  - cbn. ring.
  - cbn [firstn skipn app combine map qsum nth fst snd]. rewrite (IH o y) by lia. ring.
Qed.
Lemma dotp_zero k y : dotp (repeat 0 k) y == 0.
Proof. unfold dotp. revert y; induction k as [|k IH]; intros [|b y]; cbn; try reflexivity. rewrite IH. ring. Qed.
(** The objective of the small problem is the cut. *)
Lemma obj_grad_ok lower v c : forall o o' y z, NoDup (map fst c) -> length o = length v -> length y = length v ->
  (forall i, (i < length v)%nat -> nth i y 0 = nth (nth i v O) z 0) ->
  (forall idx j, In idx (map fst c) -> find_index idx v = Some j -> nth j o 0 == 0) ->
  obj_grad lower v c o = Ok o' -> incl (map fst c) v /\ length o' = length v /\ dotp o' y == dotp o y + (if lower then 1 else -(1)) * value c z.
Proof.
  induction c as [|[idx w] c IH]; intros o o' y z ND Lo Ly Hy Z H; cbn [obj_grad] in H.
  - assert (o' = o) by congruence. subst. split; [intros ? []|]. split; [exact Lo|]. unfold value. cbn. destruct lower; ring.
  - destruct (find_index idx v) as [j|] eqn:F; [|discriminate]. destruct (find_index_ok _ _ _ F) as (Hj & Ej).
    rewrite lset_ok in H by lia. cbn [bind] in H. cbn [map fst] in ND. apply NoDup_cons_iff in ND. destruct ND as (N1 & N2).
    set (s := if lower then w else - w) in *. set (o1 := firstn j o ++ s :: skipn (S j) o) in *.
    assert (L1 : length o1 = length v) by (unfold o1; rewrite upd_length by lia; exact Lo).
    destruct (IH o1 o' y z) as (I & L & D); try assumption.
    { intros i k Hi Fk. destruct (find_index_ok _ _ _ Fk) as (Hk & Ek). unfold o1. rewrite upd_nth by lia. destruct (Nat.eqb_spec k j) as [e|_]; [|apply (Z i k); [right; exact Hi|exact Fk]].
      subst k. rewrite Ej in Ek. subst i. contradiction. }
    split; [|split; [exact L|]].
    + intros i [e|Hi]; [|apply I, Hi]. cbn in e. subst i. rewrite <- Ej. apply nth_In, Hj.
    + rewrite D. unfold o1. rewrite dotp_upd by lia. rewrite (Z idx j); [|left; reflexivity|exact F]. rewrite (Hy j Hj), Ej.
      unfold value. cbn [map qsum fst snd]. unfold s. destruct lower; ring.
Qed.
Lemma sub_bounds_ok n v b other : forall r, sub_bounds n v b other = Ok r -> length r = length v /\
  forall i, (i < length v)%nat -> nth i r other = if Nat.ltb (nth i v O) n then nth (nth i v O) b other else other.
Proof.
  induction v as [|j v IH]; intros r H; cbn [sub_bounds] in H.
  - assert (r = []) by congruence. subst. split; [reflexivity|]. cbn. intros; lia.
  - apply bind_ok in H. destruct H as (e & E1 & H). apply bind_ok in H. destruct H as (r' & E2 & H). assert (r = e :: r') by congruence. subst r.
    destruct (IH _ E2) as (L & N). split; [cbn; congruence|]. intros [|i] Hi; cbn [nth]; [|apply N; cbn [length] in Hi; lia].
    destruct (Nat.ltb j n); [|congruence]. destruct (rd_inv _ _ _ other E1). congruence.
Qed.
Lemma sub_bounds_fine n v b other : (length b = n)%nat -> exists r, sub_bounds n v b other = Ok r.
Proof.
  intros L. induction v as [|j v (r & IH)]; [eexists; reflexivity|]. cbn [sub_bounds]. destruct (Nat.ltb_spec j n) as [H|H].
  - rewrite (rd_fine j b other) by lia. cbn [bind]. rewrite IH. eexists. reflexivity.
  - cbn [bind]. rewrite IH. eexists. reflexivity.
Qed.
Lemma nonzeros_in k : forall i g r, nonzeros i k g = Ok r -> (forall j, In j r -> (i <= j < i + k)%nat) /\ NoDup r.
Proof.
  induction k as [|k IH]; intros i g r H; cbn [nonzeros] in H.
  - assert (r = []) by congruence. subst. split; [intros ? []|constructor].
  - apply bind_ok in H. destruct H as (v & _ & H). apply bind_ok in H. destruct H as (r' & E & H). destruct (IH _ _ _ E) as (A & B).
    destruct (Qeq_bool v 0).
    + assert (r = r') by congruence. subst. split; [intros j Hj; specialize (A j Hj); lia|exact B].
    + assert (r = i :: r') by congruence. subst. split; [intros j [e|Hj]; [lia|specialize (A j Hj); lia]|]. constructor; [|exact B]. intros X2. specialize (A i X2). lia.
Qed.
Lemma nonzeros_fine k : forall i g, (i + k <= length g)%nat -> exists r, nonzeros i k g = Ok r /\ forall j, (i <= j < i + k)%nat -> ~ nth j g 0 == 0 -> In j r.
Proof.
  induction k as [|k IH]; intros i g L; cbn [nonzeros]; [eexists; split; [reflexivity|intros; lia]|].
  rewrite (rd_fine i g 0) by lia. cbn [bind]. destruct (IH (S i) g) as (r & E & A); [lia|]. rewrite E. cbn [bind]. eexists. split; [reflexivity|].
  intros j Hj N. destruct (Nat.eq_dec j i) as [e|D].
  - subst j. destruct (Qeq_bool (nth i g 0) 0) eqn:X; [apply Qeq_bool_iff in X; contradiction|left; reflexivity].
  - assert (In j r) by (apply A; [lia|exact N]). destruct (Qeq_bool _ 0); [assumption|right; assumption].
Qed.
Lemma x_rand_fine k : forall i rnd x l u, (i + k <= length x)%nat -> (i + k <= length l)%nat -> (i + k <= length u)%nat -> exists r, x_rand i rnd k x l u = Ok r.
Proof.
  induction k as [|k IH]; intros i rnd x l u A B C; cbn [x_rand]; [eexists; reflexivity|].
  rewrite (rd_fine i x 0), (rd_fine i l MInf), (rd_fine i u MInf) by lia. cbn [bind]. destruct (IH (S i) rnd x l u) as (r & ->); try lia. eexists. reflexivity.
Qed.

(** Some point takes given values at given places. *)
Lemma realize (v : list nat) : forall y, NoDup v -> length y = length v -> exists z, forall i, (i < length v)%nat -> nth i y 0 = nth (nth i v 0%nat) z 0.
Proof.
  intros y ND L. set (f := fun j => match find_index j v with Some i => nth i y 0 | None => 0 end).
  exists (map f (seq 0 (S (list_max v)))). intros i Hi.
  assert (M : (nth i v 0 <= list_max v)%nat).
  { pose proof (proj1 (list_max_le v (list_max v)) (le_n _)) as F. rewrite Forall_forall in F. apply F, nth_In, Hi. }
  rewrite (nth_indep (map f (seq 0 (S (list_max v)))) 0 (f 0%nat)) by (rewrite map_length, seq_length; lia). rewrite map_nth. rewrite seq_nth by lia. cbn [plus]. unfold f.
  destruct (find_index_in (nth i v 0%nat) v (nth_In _ _ Hi)) as (k & E). rewrite E. destruct (find_index_ok _ _ _ E) as (Hk & Ek).
  f_equal. symmetry. exact (proj1 (NoDup_nth v 0%nat) ND k i Hk Hi Ek).
Qed.
Lemma NoDup_last {A} (l : list A) a : NoDup l -> ~ In a l -> NoDup (l ++ [a]).
Proof. intros H N. apply (Permutation_NoDup (Permutation_cons_append l a)). constructor; assumption. Qed.
(** Variables of the small problem. *)
Definition vars_ok (gi : option nat) (n : nat) (v : list nat) : Prop :=
  NoDup v /\ match gi with None => exists nz, v = nz ++ [n] /\ Forall (fun j => (j < n)%nat) nz | Some _ => Forall (fun j => (j < n)%nat) v end.
Lemma sub_vars_ok t rnd gi n x l u v : (forall i w, gi = Some i -> t_struct t i = Some w -> NoDup w /\ Forall (fun j => (j < n)%nat) w) ->
  sub_vars t rnd gi n x l u = Ok (Some v) -> vars_ok gi n v.
Proof.
  intros St H. unfold sub_vars in H. destruct gi as [i|].
  - assert (E : t_struct t i = Some v) by congruence. exact (St i v eq_refl E).
  - apply bind_ok in H. destruct H as (xr & _ & H). destruct (t_gf t xr) as [g|]; [|discriminate]. apply bind_ok in H. destruct H as (nz & E & H).
    assert (v = nz ++ [n]) by congruence. subst v. destruct (nonzeros_in _ _ _ _ E) as (A & B). split.
    + apply NoDup_last; [exact B|]. intros X. specialize (A n X). lia.
    + exists nz. split; [reflexivity|]. apply Forall_forall. intros j Hj. specialize (A j Hj). lia.
Qed.
Lemma in_map_nth (v : list nat) (f : nat -> Q) i : (i < length v)%nat -> nth i (map f v) 0 = f (nth i v 0%nat).
Proof. intros H. rewrite (nth_indep _ 0 (f 0%nat)) by (rewrite map_length; exact H). apply map_nth. Qed.
Lemma Forall2_nth {A B} (R : A -> B -> Prop) a b da db : length a = length b -> (forall i, (i < length a)%nat -> R (nth i a da) (nth i b db)) -> Forall2 R a b.
Proof.
  revert b; induction a as [|x a IH]; intros [|y b] L H; cbn [length] in L; try discriminate; constructor.
  - apply (H 0%nat). cbn. lia.
  - apply IH; [lia|]. intros i Hi. apply (H (S i)). cbn. lia.
Qed.
Lemma Forall2_nth_inv {A B} (R : A -> B -> Prop) a b da db : Forall2 R a b -> forall i, (i < length a)%nat -> R (nth i a da) (nth i b db).
Proof. induction 1; intros i Hi; cbn [length] in Hi; [lia|]. destruct i; cbn [nth]; [assumption|]. apply IHForall2. lia. Qed.
(** Values of the constraint of the small problem. *)
Lemma eval_con_ok t gi n v x y : length x = n -> vars_ok gi n v -> length y = length v ->
  exists a w, length a = n /\ eval_con t gi v x y = Ok (match gi with None => t_f t a - w | Some i => t_g t i a end) /\
    (forall j, (j < n)%nat -> ~ In j v -> nth j a 0 = nth j x 0) /\
    (forall i, (i < length v)%nat -> nth i y 0 = nth (nth i v 0%nat) (a ++ [w]) 0).
Proof.
  intros Lx (ND & V) Ly. destruct gi as [i|].
  - destruct (scatter_ok v y x) as (a & E & La & Oth & I); [lia|rewrite Lx; exact V|]. exists a, 0. split; [congruence|]. split; [cbn [eval_con]; rewrite E; reflexivity|].
    split; [intros j _; apply Oth|]. intros k Hk.
    assert (X : forall z, (forall i, (i < length v)%nat -> nth i y 0 = nth (nth i v 0%nat) z 0) -> nth k y 0 = nth (nth k v 0%nat) (a ++ [0]) 0).
    { intros z Hz. rewrite app_nth1 by (rewrite Forall_forall in V; rewrite La, Lx; apply V, nth_In, Hk). rewrite (I z Hz) by (apply nth_In, Hk). apply Hz, Hk. }
    destruct (realize v y ND Ly) as (z & Hz). exact (X z Hz).
  - destruct V as (nz & -> & V). rewrite app_length in Ly. cbn [length] in Ly.
    assert (ND1 : NoDup nz) by (apply NoDup_remove_1 in ND; rewrite app_nil_r in ND; exact ND).
    assert (Nn : ~ In n nz) by (apply NoDup_remove_2 in ND; rewrite app_nil_r in ND; exact ND).
    destruct (scatter_ok nz y x) as (a & E & La & Oth & I); [lia|rewrite Lx; exact V|]. exists a, (nth (length nz) y 0). split; [congruence|].
    assert (Y : forall k, (k < length nz)%nat -> nth k y 0 = nth (nth k nz 0%nat) a 0).
    { intros k Hk. destruct (realize nz (firstn (length nz) y) ND1) as (z & Hz); [rewrite firstn_length; lia|].
      assert (Hz' : forall i, (i < length nz)%nat -> nth i y 0 = nth (nth i nz 0%nat) z 0).
      { intros i Hi. rewrite <- (Hz i Hi). rewrite <- (firstn_skipn (length nz) y) at 1. rewrite app_nth1 by (rewrite firstn_length; lia). reflexivity. }
      rewrite (I z Hz') by (apply nth_In, Hk). apply Hz', Hk. }
    split; [|split].
    + cbn [eval_con]. rewrite removelast_last, E. cbn [bind]. rewrite app_length. cbn [length]. replace (length nz + 1 - 1)%nat with (length nz) by lia.
      rewrite (rd_fine _ y 0) by lia. reflexivity.
    + intros j Hj N. apply Oth. intros X. apply N, in_or_app. left. exact X.
    + intros k Hk. rewrite app_length in Hk. cbn [length] in Hk. destruct (Nat.eq_dec k (length nz)) as [e|D].
      * subst k. rewrite (app_nth2 nz [n] 0%nat), Nat.sub_diag by lia. cbn [nth]. rewrite app_nth2 by lia. replace (n - length a)%nat with 0%nat by lia. reflexivity.
      * rewrite (app_nth1 nz) by lia. rewrite app_nth1; [apply Y; lia|]. rewrite La, Lx. rewrite Forall_forall in V. apply V, nth_In. lia.
Qed.
Lemma split_last (z : list Q) n : length z = S n -> exists z' w, z = z' ++ [w] /\ length z' = n.
Proof.
  intros L. destruct (exists_last (l := z)) as (z' & w & ->); [destruct z; discriminate|]. rewrite app_length in L. cbn [length] in L. exists z', w. split; [reflexivity|lia].
Qed.
Lemma value_eq c z z' : (forall j, In j (map fst c) -> nth j z 0 = nth j z' 0) -> value c z = value c z'.
Proof.
  unfold value. intros H. f_equal. apply map_ext_in. intros p Hp. rewrite (H (fst p)) by (apply in_map, Hp). reflexivity.
Qed.
Lemma strengthen_ok solver t rnd gi c n x l u lb ub ok lb' ub' :
  exact solver -> length x = n -> length l = n -> length u = n -> NoDup (map fst c) ->
  (forall i v, gi = Some i -> t_struct t i = Some v -> NoDup v /\ Forall (fun j => (j < n)%nat) v) ->
  sees t gi rnd n x c l u ->
  StrengthenCut solver t rnd gi c n x l u lb ub = Ok (ok, lb', ub') ->
  if ok then exists (lower : bool) b,
    (if lower then lb <> MInf /\ ub = PInf /\ lb' = Fin b /\ ub' = PInf else lb = MInf /\ ub <> PInf /\ lb' = MInf /\ ub' = Fin b) /\
    (forall z, length z = S n -> in_box n l u z -> con_ok t gi z -> if lower then b <= value c z else value c z <= b) /\
    ((forall j, (j < n)%nat -> ~ In j (map fst c) -> lo_ok (nth j l MInf) (nth j x 0) /\ up_ok (nth j u PInf) (nth j x 0)) ->
      exists z, length z = S n /\ in_box n l u z /\ con_ok t gi z /\ value c z == b)
  else lb' = lb /\ ub' = ub.
Proof.
  intros Ex Lx Ll Lu ND St Se H. unfold StrengthenCut in H. apply bind_ok in H. destruct H as (v & Ev & H). destruct v as [v|].
  2:{ assert (ok = false /\ lb' = lb /\ ub' = ub) as (-> & X) by (repeat split; congruence). exact X. }
  pose proof (sub_vars_ok _ _ _ _ _ _ _ _ St Ev) as V. specialize (Se v Ev).
  apply bind_ok in H. destruct H as (lower & El & H). apply bind_ok in H. destruct H as (o & Eo & H).
  apply bind_ok in H. destruct H as (yl & Eyl & H). apply bind_ok in H. destruct H as (yu & Eyu & H).
  apply bind_ok in H. destruct H as (gl & Egl & H). apply bind_ok in H. destruct H as (gu & Egu & H).
  set (P := {| y_vars := v; y_obj := o; y_lo := yl; y_up := yu; y_gl := gl; y_gu := gu; y_con := eval_con t gi v x |}) in H.
  destruct (solver P) as [b|] eqn:Es.
  2:{ assert (ok = false /\ lb' = lb /\ ub' = ub) as (-> & X) by (repeat split; congruence). exact X. }
  destruct (Ex P b Es) as (Low & y0 & F0 & B0).
  assert (Ok1 : ok = true) by (destruct lower; congruence). subst ok.
  destruct (sub_bounds_ok _ _ _ _ _ Eyl) as (Lyl & Nyl). destruct (sub_bounds_ok _ _ _ _ _ Eyu) as (Lyu & Nyu).
  assert (Dot : forall y z, length y = length v -> (forall i, (i < length v)%nat -> nth i y 0 = nth (nth i v 0%nat) z 0) ->
     incl (map fst c) v /\ dotp o y == (if lower then 1 else -(1)) * value c z).
  { intros y z Ly Hy. destruct (obj_grad_ok lower v c (repeat 0 (length v)) o y z ND) as (I & _ & D); try assumption; [apply repeat_length| |].
    - intros idx j _ F. destruct (find_index_ok _ _ _ F) as (Hj & _). rewrite nth_repeat. reflexivity.
    - split; [exact I|]. rewrite D, dotp_zero. ring. }
  assert (Inc : incl (map fst c) v).
  { destruct V as (NDv & _). destruct (realize v (repeat 0 (length v)) NDv) as (z & Hz); [apply repeat_length|]. apply (Dot (repeat 0 (length v)) z); [apply repeat_length|exact Hz]. }
  specialize (Se Inc).
  exists lower, (if lower then b else - b). split; [|split].
  - destruct lower.
    + destruct lb; cbn [is_MInf] in El; [destruct ub; cbn in El; discriminate| |]; destruct ub; cbn in El; try discriminate; repeat split; congruence || (intros X; discriminate X).
    + destruct lb; cbn [is_MInf] in El; [|destruct ub; cbn in El; discriminate|destruct ub; cbn in El; discriminate]. destruct ub; cbn in El; try discriminate; repeat split; congruence || (intros X; discriminate X).
  - intros z Lz Bz Cz. destruct (split_last z n Lz) as (z' & w & -> & Lz').
    set (y := map (fun j => nth j (z' ++ [w]) 0) v).
    assert (Ly : length y = length v) by apply map_length.
    assert (Hy : forall i, (i < length v)%nat -> nth i y 0 = nth (nth i v 0%nat) (z' ++ [w]) 0).
    { intros i Hi. unfold y. apply (in_map_nth v (fun j => nth j (z' ++ [w]) 0) i Hi). }
    assert (Fy : feas P y).
    { split; [exact Ly|]. split; [|split].
      - apply (Forall2_nth _ _ _ MInf 0); [cbn; congruence|]. intros i Hi. cbn [y_lo P] in *. rewrite Lyl in Hi. rewrite (Nyl i Hi), (Hy i Hi).
        destruct (Nat.ltb_spec (nth i v 0%nat) n) as [K|K]; [apply (Bz _ K)|exact Logic.I].
      - apply (Forall2_nth _ _ _ PInf 0); [cbn; congruence|]. intros i Hi. cbn [y_up P] in *. rewrite Lyu in Hi. rewrite (Nyu i Hi), (Hy i Hi).
        destruct (Nat.ltb_spec (nth i v 0%nat) n) as [K|K]; [apply (Bz _ K)|exact Logic.I].
      - destruct (eval_con_ok t gi n v x y Lx V Ly) as (a & w' & La & Ec & Oth & Ha). exists (match gi with None => t_f t a - w' | Some i => t_g t i a end). split; [exact Ec|].
        assert (Agr : forall j, In j v -> (j < n)%nat -> nth j a 0 = nth j z' 0).
        { intros j Hj Jn. destruct (In_nth v j 0%nat Hj) as (i & Hi & Ei). specialize (Ha i Hi). rewrite (Hy i Hi), Ei in Ha. rewrite !app_nth1 in Ha by lia. symmetry. exact Ha. }
        assert (Fz : func t gi a == func t gi z').
        { apply Se; try assumption.
          - intros j Hj. specialize (Bz j Hj). rewrite app_nth1 in Bz by lia. exact Bz.
          - intros j Hj. destruct (Nat.lt_ge_cases j n) as [K|K]; [apply Agr; assumption|]. rewrite !nth_overflow by lia. reflexivity.
          - intros j Hj. destruct (Nat.lt_ge_cases j n) as [K|K]; [apply Oth; assumption|]. rewrite !nth_overflow by lia. reflexivity. }
        cbn [y_gl y_gu P]. destruct gi as [i|]; cbn [func] in Fz.
        + destruct Cz as (z2 & w2 & E2 & C1 & C2). apply app_inj_tail in E2. destruct E2 as (<- & <-).
          destruct (rd_inv _ _ _ PInf Egl) as (_ & <-). destruct (rd_inv _ _ _ MInf Egu) as (_ & <-).
          split; [destruct (nth i (t_gl t) PInf); cbn in *; try tauto; lra|destruct (nth i (t_gu t) MInf); cbn in *; try tauto; lra].
        + destruct Cz as (z2 & w2 & E2 & C1). apply app_inj_tail in E2. destruct E2 as (<- & <-).
          assert (gl = MInf) by congruence. assert (gu = Fin 0) by congruence. subst gl gu. split; [exact Logic.I|]. cbn [up_ok].
          destruct V as (_ & nz & -> & _). specialize (Ha (length nz)). specialize (Hy (length nz)). rewrite app_length in Ha, Hy. cbn [length] in Ha, Hy.
          rewrite (app_nth2 nz [n] 0%nat), Nat.sub_diag in Ha, Hy by lia. cbn [nth] in Ha, Hy. rewrite Hy in Ha by lia. specialize (Ha ltac:(lia)).
          rewrite !app_nth2 in Ha by lia. rewrite La, Lz', Nat.sub_diag in Ha. cbn [nth] in Ha. subst w'. lra. }
    specialize (Low y Fy). cbn [y_obj P] in Low. destruct (Dot y (z' ++ [w]) Ly Hy) as (_ & D). rewrite D in Low. destruct lower; lra.
  - intros Xb. destruct F0 as (Ly & Yl & Yu & g0 & Ec0 & G1 & G2). cbn [y_vars y_lo y_up y_con y_gl y_gu P] in *.
    destruct (eval_con_ok t gi n v x y0 Lx V Ly) as (a & w & La & Ec & Oth & Ha). exists (a ++ [w]). split; [rewrite app_length; cbn; lia|]. split; [|split].
    + intros j Jn. destruct (in_dec Nat.eq_dec j v) as [I|I].
      * destruct (In_nth v j 0%nat I) as (i & Hi & Ei). pose proof (Forall2_nth_inv _ _ _ MInf 0 Yl i) as A1. pose proof (Forall2_nth_inv _ _ _ PInf 0 Yu i) as A2.
        rewrite Lyl in A1. rewrite Lyu in A2. specialize (A1 Hi). specialize (A2 Hi). rewrite (Nyl i Hi), Ei in A1. rewrite (Nyu i Hi), Ei in A2. rewrite (Ha i Hi), Ei in A1, A2.
        apply Nat.ltb_lt in Jn. rewrite Jn in A1, A2. split; assumption.
      * rewrite app_nth1 by lia. rewrite (Oth j Jn I). apply Xb; [exact Jn|]. intros X. apply I, Inc, X.
    + assert (g0 = match gi with None => t_f t a - w | Some i => t_g t i a end) by congruence. subst g0. destruct gi as [i|]; cbn [con_ok].
      * exists a, w. split; [reflexivity|]. destruct (rd_inv _ _ _ PInf Egl) as (_ & ->). destruct (rd_inv _ _ _ MInf Egu) as (_ & ->). split; assumption.
      * exists a, w. split; [reflexivity|]. assert (gu = Fin 0) by congruence. subst gu. cbn [up_ok] in G2. lra.
    + destruct (Dot y0 (a ++ [w]) Ly Ha) as (_ & D). cbn [y_obj P] in B0. destruct lower; lra.
Qed.

(** ** HandleOneCut *)
Lemma Qfloor_int v k : v == inject_Z k -> Qfloor v = k.
Proof. intros H. rewrite H. apply Qfloor_Z. Qed.
Lemma fractional_pos v : 0 < fractionality v -> fractional v.
Proof.
  unfold fractionality, qmn. intros H (k & E). rewrite (Qfloor_int v k E) in H. qcase_in H; lra.
Qed.
Lemma most_frac_ok n ts x c : forall i best viol r, 0 <= viol -> most_fractional i n ts x c best viol = Ok r ->
  r = best \/ exists k, r = Some (i + k)%nat /\ (k < length c)%nat /\ (fst (nth k c (0%nat, 0%Q)) < n)%nat /\ discrete (nth (fst (nth k c (0%nat, 0%Q))) ts CONT) = true /\
     fractional (nth (fst (nth k c (0%nat, 0%Q))) x 0).
Proof.
  induction c as [|[idx a] c IH]; intros i best viol r V H; cbn [most_fractional] in H; [left; congruence|].
  assert (Step : forall best' viol', 0 <= viol' -> most_fractional (S i) n ts x c best' viol' = Ok r ->
    r = best' \/ exists k, r = Some (i + k)%nat /\ (k < length ((idx, a) :: c))%nat /\ (fst (nth k ((idx, a) :: c) (0%nat, 0%Q)) < n)%nat /\
      discrete (nth (fst (nth k ((idx, a) :: c) (0%nat, 0%Q))) ts CONT) = true /\ fractional (nth (fst (nth k ((idx, a) :: c) (0%nat, 0%Q))) x 0)).
  { intros best' viol' V' E. destruct (IH _ _ _ _ V' E) as [X|(k & X1 & X2 & X3)]; [left; exact X|]. right. exists (S k). cbn [nth length]. split; [rewrite X1; f_equal; lia|]. split; [lia|exact X3]. }
  destruct (Nat.ltb_spec idx n) as [In_|_]; [|apply (Step best viol V H)].
  apply bind_ok in H. destruct H as (ty & Ety & H). destruct (discrete ty) eqn:D; [|apply (Step best viol V H)].
  apply bind_ok in H. destruct H as (xi & Exi & H). destruct (Qltb viol (fractionality xi)) eqn:C; [|apply (Step best viol V H)].
  apply Qltb_lt in C. assert (V' : 0 <= fractionality xi) by lra. destruct (Step _ _ V' H) as [X|X]; [|right; exact X].
  right. exists 0%nat. cbn [nth length fst]. destruct (rd_inv _ _ _ CONT Ety) as (_ & ->). destruct (rd_inv _ _ _ 0 Exi) as (_ & ->).
  rewrite X, Nat.add_0_r. split; [reflexivity|]. split; [lia|]. split; [exact In_|]. split; [exact D|]. apply fractional_pos. lra.
Qed.
Lemma value_upd c k idx a d z : nth_error c k = Some (idx, a) -> value (firstn k c ++ (idx, a + d) :: skipn (S k) c) z == value c z + d * nth idx z 0.
Proof.
  unfold value. revert k; induction c as [|p c IH]; intros [|k] H; cbn [nth_error] in H; try discriminate.
  - assert (p = (idx, a)) by congruence. subst p. cbn [firstn skipn app map qsum fst snd]. ring.
  - cbn [firstn skipn app map qsum]. rewrite (IH k H). ring.
Qed.
Lemma fst_upd c k idx a b : nth_error c k = Some (idx, a) -> map fst (firstn k c ++ (idx, b) :: skipn (S k) c) = @map (nat * Q) nat fst c.
Proof.
  revert k; induction c as [|p c IH]; intros [|k] H; cbn [nth_error] in H; try discriminate.
  - assert (p = (idx, a)) by congruence. subst p. reflexivity.
  - cbn [firstn skipn app map]. f_equal. apply IH, H.
Qed.
Lemma changed_lset l j e l' : lset j e l = Ok l' -> changed l j e l'.
Proof. intros H. destruct (lset_inv _ _ _ _ MInf H) as (_ & L & N). split; assumption. Qed.
Lemma changed_nth l j e l' d i : changed l j e l' -> (i < length l)%nat -> nth i l' d = if Nat.eqb i j then e else nth i l d.
Proof. intros (L & N) H. rewrite (nth_indep l' d MInf) by lia. rewrite N. rewrite (nth_indep l d MInf) by lia. reflexivity. Qed.
Lemma two_integers (v : Q) (k d : Z) : v == inject_Z k -> inject_Z d <= v <= inject_Z d + 1 -> v == inject_Z d \/ v == inject_Z d + 1.
Proof.
  intros E (A & B). rewrite E in A, B. rewrite <- Zle_Qle in A. change 1 with (inject_Z 1) in B. rewrite <- inject_Z_plus, <- Zle_Qle in B.
  assert (X : k = d \/ k = (d + 1)%Z) by lia. destruct X as [X|X]; subst k; [left; exact E|right]. rewrite E, inject_Z_plus. reflexivity.
Qed.
Lemma mix p q ub t : p <= ub -> q <= ub -> 0 <= t <= 1 -> (1 - t) * p + t * q <= ub.
Proof. intros A B (C & D). nra. Qed.

Lemma handle_ok solver t rnd d tight gi l u c lb ub n x infty ok c' lb' ub' :
  exact solver -> str_pre t rnd gi l u n x c ->
  HandleOneCut solver t rnd d tight gi l u c lb ub n x infty = Ok (ok, c', lb', ub') ->
  map fst c' = map fst c /\ (ok = false -> c' = c /\ lb' = lb /\ ub' = ub) /\
  (forall z, length z = S n -> in_box n l u z -> con_ok t gi z -> integral n (t_types t) z -> near n (t_types t) x c z -> holds c lb ub z -> holds c' lb' ub' z) /\
  (in_box n l u x -> valid_in t gi n l u c lb ub -> forall z, near n (t_types t) x c z -> holds c' lb' ub' z -> holds c lb ub z).
Proof.
  intros Ex [Hx Hl Hu Ht ND St Gf Se] H.
  set (plain := if tight then Ok (true, c, lb, ub)
    else do ' (ok, lb', ub') <- StrengthenCut solver t (rnd 0%nat) gi c n x l u lb ub; Ok (ok, c, lb', ub')) in *.
  assert (Pl : plain = Ok (ok, c', lb', ub') -> map fst c' = map fst c /\ (ok = false -> c' = c /\ lb' = lb /\ ub' = ub) /\
    (forall z, length z = S n -> in_box n l u z -> con_ok t gi z -> integral n (t_types t) z -> near n (t_types t) x c z -> holds c lb ub z -> holds c' lb' ub' z) /\
    (in_box n l u x -> valid_in t gi n l u c lb ub -> forall z, near n (t_types t) x c z -> holds c' lb' ub' z -> holds c lb ub z)).
  { clear H. intros H. unfold plain in H. destruct tight.
    - assert (ok = true /\ c' = c /\ lb' = lb /\ ub' = ub) as (-> & -> & -> & ->) by (repeat split; congruence). split; [reflexivity|]. split; [discriminate|]. split; auto.
    - apply bind_ok in H. destruct H as (((ok1 & lb1) & ub1) & E & H). assert (ok1 = ok /\ c' = c /\ lb1 = lb' /\ ub1 = ub') as (-> & -> & -> & ->) by (repeat split; congruence).
      pose proof (strengthen_ok _ _ _ _ _ _ _ _ _ _ _ _ _ _ Ex Hx Hl Hu ND St (Se 0%nat l u (pc_whole _ _ _ _ _ _)) E) as S. split; [reflexivity|]. destruct ok.
      + destruct S as (lower & b & A & V & W). split; [discriminate|]. split.
        * intros z Lz Bz Cz _ _ Hz. specialize (V z Lz Bz Cz). destruct lower.
          -- destruct A as (_ & A1 & -> & ->). split; [exact V|exact Logic.I].
          -- destruct A as (-> & A1 & -> & ->). split; [exact Logic.I|exact V].
        * intros Bx Va z _ Hz. destruct W as (z0 & L0 & B0 & C0 & V0); [intros j Hj _; apply Bx, Hj|]. specialize (Va z0 L0 B0 C0). destruct Hz as (Hz1 & Hz2). destruct Va as (Va1 & Va2). destruct lower.
          -- destruct A as (A0 & -> & -> & ->). split; [|exact Logic.I]. destruct lb; cbn in *; try tauto. lra.
          -- destruct A as (-> & A1 & -> & ->). split; [exact Logic.I|]. destruct ub; cbn in *; try tauto. lra.
      + destruct S as (-> & ->). split; [auto|]. split; auto. }
  destruct d; cbn [HandleOneCut] in H; [exact (Pl H)|].
  apply bind_ok in H. destruct H as (m & Em & H). destruct m as [k|]; [|exact (Pl H)]. clear Pl plain.
  assert (P6 : 0 <= 1 # 1000000) by lra. destruct (most_frac_ok _ _ _ _ _ _ _ _ P6 Em) as [X|(k' & X & Kc & Kn & Kd & Kf)]; [discriminate X|]. cbn [plus] in X. assert (k' = k) by congruence. subst k'. clear X Em.
  apply bind_ok in H. destruct H as ((idx & a) & Ek & H). destruct (rd_inv _ _ _ (0%nat, 0%Q) Ek) as (_ & Nk). rewrite Nk in Kn, Kd, Kf. cbn [fst] in Kn, Kd, Kf.
  assert (Ck : nth_error c k = Some (idx, a)) by (unfold rd in Ek; destruct (nth_error c k); congruence).
  assert (Ik : In idx (map fst c)) by (apply (in_map fst _ _ (nth_error_In _ _ Ck))).
  apply bind_ok in H. destruct H as (xi & Exi & H). destruct (rd_inv _ _ _ 0 Exi) as (_ & Nx). rewrite <- Nx in H. clear xi Exi Nx.
  set (dz := Qfloor (nth idx x 0)) in *. cbv zeta in H. set (dn := inject_Z dz) in *.
  assert (Fl : dn <= nth idx x 0) by apply Qfloor_le. assert (Fl2 : nth idx x 0 < dn + 1) by (pose proof (Qlt_floor (nth idx x 0)) as X; rewrite inject_Z_plus in X; exact X).
  apply bind_ok in H. destruct H as (u' & Eu & H). apply changed_lset in Eu.
  apply bind_ok in H. destruct H as (((ok1 & lbd) & ubd) & E1 & H).
  assert (Pd : piece n (t_types t) x c l u l u') by (apply (pc_down _ _ _ _ _ _ idx); assumption).
  assert (Lu' : length u' = n) by (destruct Eu; congruence).
  pose proof (strengthen_ok _ _ _ _ _ _ _ _ _ _ _ _ _ _ Ex Hx Hl Lu' ND St (Se 0%nat _ _ Pd) E1) as S1. destruct ok1; cbn [negb] in H.
  2:{ assert (ok = false /\ c' = c /\ lb' = lb /\ ub' = ub) as (-> & -> & -> & ->) by (repeat split; congruence). split; [reflexivity|]. split; [auto|]. split; auto. }
  apply bind_ok in H. destruct H as (l' & El & H). apply changed_lset in El.
  apply bind_ok in H. destruct H as (((ok2 & lbu) & ubu) & E2 & H).
  assert (Pu : piece n (t_types t) x c l u l' u) by (apply (pc_up _ _ _ _ _ _ idx); assumption).
  assert (Ll' : length l' = n) by (destruct El; congruence).
  pose proof (strengthen_ok _ _ _ _ _ _ _ _ _ _ _ _ _ _ Ex Hx Ll' Hu ND St (Se 1%nat _ _ Pu) E2) as S2. destruct ok2; cbn [negb] in H.
  2:{ assert (ok = false /\ c' = c /\ lb' = lb /\ ub' = ub) as (-> & -> & -> & ->) by (repeat split; congruence). split; [reflexivity|]. split; [auto|]. split; auto. }
  destruct S1 as (low1 & b1 & A1 & V1 & W1). destruct S2 as (low2 & b2 & A2 & V2 & W2).
  (* the two sides of the disjunction *)
  assert (InD : forall z, in_box n l u z -> nth idx z 0 <= dn -> in_box n l u' z).
  { intros z Bz Hz j Hj. specialize (Bz j Hj). split; [apply Bz|]. rewrite (changed_nth u idx _ u' PInf j Eu) by lia. destruct (Nat.eqb_spec j idx) as [e|_]; [subst j; exact Hz|apply Bz]. }
  assert (InU : forall z, in_box n l u z -> dn + 1 <= nth idx z 0 -> in_box n l' u z).
  { intros z Bz Hz j Hj. specialize (Bz j Hj). split; [|apply Bz]. rewrite (changed_nth l idx _ l' MInf j El) by lia. destruct (Nat.eqb_spec j idx) as [e|_]; [subst j; exact Hz|apply Bz]. }
  assert (OutD : forall z, in_box n l u x -> in_box n l u' z -> in_box n l u z).
  { intros z Bx Bz j Hj. specialize (Bz j Hj). split; [apply Bz|]. destruct Bz as (_ & Bz). rewrite (changed_nth u idx _ u' PInf j Eu) in Bz by lia. destruct (Nat.eqb_spec j idx) as [e|_]; [subst j|exact Bz].
    destruct (Bx idx Hj) as (_ & Y). destruct (nth idx u PInf); cbn in *; try tauto. lra. }
  assert (OutU : forall z, in_box n l u x -> in_box n l' u z -> in_box n l u z).
  { intros z Bx Bz j Hj. specialize (Bz j Hj). split; [|apply Bz]. destruct Bz as (Bz & _). rewrite (changed_nth l idx _ l' MInf j El) in Bz by lia. destruct (Nat.eqb_spec j idx) as [e|_]; [subst j|exact Bz].
    destruct (Bx idx Hj) as (Y & _). destruct (nth idx l MInf); cbn in *; try tauto. lra. }
  assert (Two : forall z, integral n (t_types t) z -> near n (t_types t) x c z -> nth idx z 0 == dn \/ nth idx z 0 == dn + 1).
  { intros z Iz Nz. destruct (Iz idx Kn Kd) as (kz & Ez). exact (two_integers _ kz dz Ez (Nz idx Ik Kn Kd Kf)). }
  assert (At1 : in_box n l u x -> valid_in t gi n l u c lb ub -> exists z, holds c lb ub z /\ value c z == b1).
  { intros Bx Va. destruct W1 as (z & Lz & Bz & Cz & Vz).
    - intros j Hj N. rewrite (changed_nth u idx _ u' PInf j Eu) by lia. destruct (Nat.eqb_spec j idx) as [e|_]; [subst j; contradiction|apply Bx, Hj].
    - exists z. split; [|exact Vz]. apply Va; [exact Lz|apply OutD; assumption|exact Cz]. }
  assert (At2 : in_box n l u x -> valid_in t gi n l u c lb ub -> exists z, holds c lb ub z /\ value c z == b2).
  { intros Bx Va. destruct W2 as (z & Lz & Bz & Cz & Vz).
    - intros j Hj N. rewrite (changed_nth l idx _ l' MInf j El) by lia. destruct (Nat.eqb_spec j idx) as [e|_]; [subst j; contradiction|apply Bx, Hj].
    - exists z. split; [|exact Vz]. apply Va; [exact Lz|apply OutU; assumption|exact Cz]. }
  destruct (negb (ext_ltb (eopp infty) lb)) eqn:Side.
  - destruct low1.
    { (* both upper bounds untouched *)
      destruct A1 as (N1 & U1 & _ & U2). rewrite U2 in H. assert (ok = true /\ c' = c /\ lb' = lb /\ ub' = ub) as (-> & -> & -> & ->) by (repeat split; congruence).
      split; [reflexivity|]. split; [discriminate|]. split; auto. }
    destruct A1 as (Elb & N1 & _ & U1). destruct low2; [exfalso; destruct A2 as (X & _); congruence|]. destruct A2 as (_ & _ & _ & U2). rewrite U1, U2 in H.
    rewrite lset_ok in H by (apply nth_error_Some; congruence). cbn [bind] in H.
    assert (ok = true /\ c' = firstn k c ++ (idx, a + (b1 - b2)) :: skipn (S k) c /\ lb' = lb /\ ub' = Fin (b2 + (dn + 1) * (b1 - b2))) as (-> & -> & -> & ->) by (repeat split; congruence).
    split; [apply (fst_upd c k idx a _ Ck)|]. split; [discriminate|]. split.
    + intros z Lz Bz Cz Iz Nz Hz. rewrite Elb. split; [exact Logic.I|]. cbn [up_ok]. rewrite (value_upd c k idx a (b1 - b2) z Ck).
      destruct (Two z Iz Nz) as [T|T]; rewrite T.
      * pose proof (V1 z Lz (InD z Bz ltac:(lra)) Cz) as V. cbv iota in V. lra.
      * pose proof (V2 z Lz (InU z Bz ltac:(lra)) Cz) as V. cbv iota in V. lra.
    + intros Bx Va z Nz Hz. rewrite Elb in *. split; [exact Logic.I|]. destruct Hz as (_ & Hz). cbn [up_ok] in Hz. rewrite (value_upd c k idx a (b1 - b2) z Ck) in Hz.
      destruct (At1 Bx Va) as (z1 & (_ & H1) & E1'). destruct (At2 Bx Va) as (z2 & (_ & H2) & E2'). destruct (Nz idx Ik Kn Kd Kf) as (N2 & N3). fold dz dn in N2, N3.
      destruct ub as [|ub|]; cbn in H1, H2 |- *; try tauto. rewrite E1' in H1. rewrite E2' in H2.
      pose proof (mix b1 b2 ub (nth idx z 0 - dn) H1 H2 ltac:(lra)) as M. lra.
  - assert (Nl : lb <> MInf) by (intros X; subst lb; destruct infty; discriminate Side).
    destruct low1; [|exfalso; destruct A1; congruence]. destruct low2; [|exfalso; destruct A2; congruence].
    destruct A1 as (_ & Eub & L1 & _). destruct A2 as (_ & _ & L2 & _). rewrite L1, L2 in H.
    rewrite lset_ok in H by (apply nth_error_Some; congruence). cbn [bind] in H.
    assert (ok = true /\ c' = firstn k c ++ (idx, a + (b1 - b2)) :: skipn (S k) c /\ ub' = ub /\ lb' = Fin (b2 + (dn + 1) * (b1 - b2))) as (-> & -> & -> & ->) by (repeat split; congruence).
    split; [apply (fst_upd c k idx a _ Ck)|]. split; [discriminate|]. split.
    + intros z Lz Bz Cz Iz Nz Hz. rewrite Eub. split; [|exact Logic.I]. cbn [lo_ok]. rewrite (value_upd c k idx a (b1 - b2) z Ck).
      destruct (Two z Iz Nz) as [T|T]; rewrite T.
      * pose proof (V1 z Lz (InD z Bz ltac:(lra)) Cz) as V. cbv iota in V. lra.
      * pose proof (V2 z Lz (InU z Bz ltac:(lra)) Cz) as V. cbv iota in V. lra.
    + intros Bx Va z Nz Hz. rewrite Eub in *. split; [|exact Logic.I]. destruct Hz as (Hz & _). cbn [lo_ok] in Hz. rewrite (value_upd c k idx a (b1 - b2) z Ck) in Hz.
      destruct (At1 Bx Va) as (z1 & (H1 & _) & E1'). destruct (At2 Bx Va) as (z2 & (H2 & _) & E2'). destruct (Nz idx Ik Kn Kd Kf) as (N2 & N3). fold dz dn in N2, N3.
      destruct lb as [|lb|]; cbn in H1, H2 |- *; try tauto. rewrite E1' in H1. rewrite E2' in H2.
      pose proof (mix (- b1) (- b2) (- lb) (nth idx z 0 - dn) ltac:(lra) ltac:(lra) ltac:(lra)) as M. lra.
Qed.

(** ** ComputeCuts *)
Lemma piece_fst n ts x c c' l u l' u' : map fst c = map fst c' -> piece n ts x c l u l' u' -> piece n ts x c' l u l' u'.
Proof. intros E H. destruct H; [constructor|eapply pc_down|eapply pc_up]; try eassumption; rewrite <- E; assumption. Qed.
Lemma str_pre_fst t rnd gi l u n x c c' : map fst c = map fst c' -> str_pre t rnd gi l u n x c -> str_pre t rnd gi l u n x c'.
Proof.
  intros E [H1 H2 H3 H4 H5 H6 H7 H8]. constructor; try assumption; [rewrite <- E; exact H5|]. intros k l' u' P. specialize (H8 k l' u' (piece_fst _ _ _ _ _ _ _ _ _ (eq_sym E) P)).
  intros v Ev I. apply (H8 v Ev). rewrite E. exact I.
Qed.
Lemma near_binary n ts l u x c z : binary n ts l u -> in_box n l u x -> in_box n l u z -> near n ts x c z.
Proof.
  intros B Bx Bz j _ Hj D F. destruct (B j Hj D) as ((a & Ea & Ha) & b & Eb & Hb). specialize (Bx j Hj). specialize (Bz j Hj). rewrite Ea, Eb in Bx, Bz. cbn in Bx, Bz.
  assert (X1 : nth j x 0 < 1).
  { destruct (Qlt_le_dec (nth j x 0) 1) as [X|X]; [exact X|]. exfalso. apply F. exists 1%Z. change (inject_Z 1) with 1. lra. }
  assert (Fl : Qfloor (nth j x 0) = 0%Z).
  { pose proof (Qfloor_le (nth j x 0)) as A. pose proof (Qlt_floor (nth j x 0)) as A2. assert (G1 : (Qfloor (nth j x 0%Q) < 1)%Z) by (rewrite Zlt_Qlt; change (inject_Z 1) with 1%Q; lra).
    assert (G2 : (0 < Qfloor (nth j x 0%Q) + 1)%Z) by (rewrite Zlt_Qlt; change (inject_Z 0) with 0%Q; lra). lia. }
  rewrite Fl. change (inject_Z 0) with 0%Q. lra.
Qed.
Lemma near_fst n ts x c c' z : map fst c = map fst c' -> near n ts x c z -> near n ts x c' z.
Proof. intros E H j Hj. apply H. rewrite E. exact Hj. Qed.

(** ** No failure *)
Lemma obj_grad_fine lower v c : forall o, length o = length v -> incl (map fst c) v -> exists o', obj_grad lower v c o = Ok o'.
Proof.
  induction c as [|[idx w] c IH]; intros o L I; cbn [obj_grad]; [eauto|].
  destruct (find_index_in idx v (I idx (or_introl eq_refl))) as (j & F). rewrite F. destruct (find_index_ok _ _ _ F) as (Hj & _).
  rewrite lset_ok by lia. cbn [bind]. apply IH; [rewrite upd_length by lia; exact L|]. intros k Hk. apply I. right. exact Hk.
Qed.
Lemma strengthen_fine solver t rnd gi c n x l u lb ub : length x = n -> length l = n -> length u = n -> one_sided lb ub ->
  match gi with
  | None => (forall a g, t_gf t a = Some g -> length g = n /\ forall j, In j (map fst c) -> ((j < n)%nat /\ ~ nth j g 0 == 0) \/ j = n)
  | Some i => (i < length (t_gl t))%nat /\ (i < length (t_gu t))%nat /\ forall v, t_struct t i = Some v -> incl (map fst c) v
  end -> exists r, StrengthenCut solver t rnd gi c n x l u lb ub = Ok r.
Proof.
  intros Lx Ll Lu Os G. unfold StrengthenCut.
  assert (V : exists v, sub_vars t rnd gi n x l u = Ok v /\ forall w, v = Some w -> incl (map fst c) w).
  { unfold sub_vars. destruct gi as [i|]; [exists (t_struct t i); split; [reflexivity|apply G]|].
    destruct (x_rand_fine n 0 rnd x l u) as (xr & ->); try lia. cbn [bind]. destruct (t_gf t xr) as [g|] eqn:Eg; [|exists None; split; [reflexivity|discriminate]].
    destruct (G xr g Eg) as (Lg & Gj). destruct (nonzeros_fine n 0 g) as (nz & -> & Nz); [lia|]. cbn [bind]. eexists. split; [reflexivity|]. intros w Ew. assert (w = nz ++ [n]) by congruence. subst w.
    intros j Hj. apply in_or_app. destruct (Gj j Hj) as [(A & B)|A]; [left; apply Nz; [lia|exact B]|right; left; congruence]. }
  destruct V as (v & -> & Hv). cbn [bind]. destruct v as [v|]; [|eauto]. specialize (Hv v eq_refl).
  assert (Lw : exists lower, (if is_MInf lb then do _ <- chk (negb (is_PInf ub)); Ok false else do _ <- chk (is_PInf ub); Ok true) = Ok lower).
  { destruct Os as [(-> & N)|(N & ->)]; [destruct ub; cbn; try congruence; eauto|destruct lb; cbn; try congruence; eauto]. }
  destruct Lw as (lower & ->). cbn [bind]. destruct (obj_grad_fine lower v c (repeat 0 (length v)) (repeat_length _ _) Hv) as (o & ->). cbn [bind].
  destruct (sub_bounds_fine n v l MInf Ll) as (yl & ->). cbn [bind]. destruct (sub_bounds_fine n v u PInf Lu) as (yu & ->). cbn [bind].
  destruct gi as [i|]; cbn [bind].
  - destruct G as (G1 & G2 & _). rewrite (rd_fine i _ MInf G1), (rd_fine i _ MInf G2). cbn [bind]. destruct (solver _); eauto.
  - destruct (solver _); eauto.
Qed.
Lemma most_frac_fine n ts x c : length ts = n -> length x = n -> forall i best viol, exists r, most_fractional i n ts x c best viol = Ok r.
Proof.
  intros Lt Lx. induction c as [|[idx a] c IH]; intros i best viol; cbn [most_fractional]; [eauto|]. destruct (Nat.ltb_spec idx n) as [H|_]; [|apply IH].
  rewrite (rd_fine idx ts CONT) by lia. cbn [bind]. destruct (discrete _); [|apply IH]. rewrite (rd_fine idx x 0) by lia. cbn [bind]. destruct (Qltb _ _); apply IH.
Qed.
Lemma handle_fine solver t rnd d tight gi l u c lb ub n x infty : length (t_types t) = n -> length x = n -> length l = n -> length u = n -> one_sided lb ub ->
  match gi with
  | None => (forall a g, t_gf t a = Some g -> length g = n /\ forall j, In j (map fst c) -> ((j < n)%nat /\ ~ nth j g 0 == 0) \/ j = n)
  | Some i => (i < length (t_gl t))%nat /\ (i < length (t_gu t))%nat /\ forall v, t_struct t i = Some v -> incl (map fst c) v
  end -> exists r, HandleOneCut solver t rnd d tight gi l u c lb ub n x infty = Ok r.
Proof.
  intros Lt Lx Ll Lu Os G.
  assert (Pl : exists r, (if tight then Ok (true, c, lb, ub) else do ' (ok, lb', ub') <- StrengthenCut solver t (rnd 0%nat) gi c n x l u lb ub; Ok (ok, c, lb', ub')) = Ok r).
  { destruct tight; [eauto|]. destruct (strengthen_fine solver t (rnd 0%nat) gi c n x l u lb ub Lx Ll Lu Os G) as (((ok & a) & b) & ->). cbn [bind]. eauto. }
  destruct d; cbn [HandleOneCut]; [exact Pl|]. destruct (most_frac_fine n (t_types t) x c Lt Lx 0 None (1 # 1000000)) as (m & Em). rewrite Em. cbn [bind].
  destruct m as [k|]; [|exact Pl]. assert (P6 : 0 <= 1 # 1000000) by lra.
  destruct (most_frac_ok _ _ _ _ _ _ _ _ P6 Em) as [X|(k' & X & Kc & Kn & _)]; [discriminate X|]. cbn [plus] in X. assert (k' = k) by congruence. subst k'.
  rewrite (rd_fine k c (0%nat, 0%Q) Kc). cbn [bind]. destruct (nth k c (0%nat, 0%Q)) as (idx & a) eqn:Nk. cbn [fst] in Kn. rewrite (rd_fine idx x 0) by lia. cbn [bind].
  set (dn := inject_Z (Qfloor (nth idx x 0))). rewrite lset_ok by lia. cbn [bind].
  destruct (strengthen_fine solver t (rnd 0%nat) gi c n x l (firstn idx u ++ Fin dn :: skipn (S idx) u) lb ub) as (((ok & lbd) & ubd) & ->); try assumption; [rewrite upd_length; lia|]. cbn [bind].
  destruct ok; cbn [negb]; [|eauto]. rewrite lset_ok by lia. cbn [bind].
  destruct (strengthen_fine solver t (rnd 1%nat) gi c n x (firstn idx l ++ Fin (dn + 1) :: skipn (S idx) l) u lb ub) as (((ok & lbu) & ubu) & ->); try assumption; [rewrite upd_length; lia|]. cbn [bind].
  destruct ok; cbn [negb]; [|eauto]. destruct (negb _).
  - destruct ubd, ubu; try (eexists; reflexivity). rewrite lset_ok by exact Kc. eexists. reflexivity.
  - destruct lbd, lbu; try (eexists; reflexivity). rewrite lset_ok by exact Kc. eexists. reflexivity.
Qed.

(** ** A solver for one variable, for examples *)
Definition lo_okb (l : ext) (v : Q) : bool := match l with MInf => true | Fin q => Qle_bool q v | PInf => false end.
Definition up_okb (u : ext) (v : Q) : bool := match u with PInf => true | Fin q => Qle_bool v q | MInf => false end.
Definition one_dim (P : stnlp) : option Q :=
  match y_vars P, y_obj P, y_lo P, y_up P with
  | [_], [o], [Fin a], [Fin b] =>
      let y := if Qle_bool 0 o then a else b in
      if Qle_bool a b then
        match y_con P [y] with
        | Ok v => if (lo_okb (y_gl P) v && up_okb (y_gu P) v)%bool then Some (o * y) else None
        | _ => None
        end
      else None
  | _, _, _, _ => None
  end.
Lemma one_dim_exact : exact one_dim.
Proof.
  intros [vs ob lo up gl gu con] b H. unfold one_dim in H. cbn [y_vars y_obj y_lo y_up y_gl y_gu y_con] in *.
  destruct vs as [|v0 [|? ?]]; try discriminate H. destruct ob as [|o [|? ?]]; try discriminate H. destruct lo as [|[|a|] [|? ?]]; try discriminate H.
  destruct up as [|[|c|] [|? ?]]; try discriminate H. destruct (Qle_bool a c) eqn:Eac; [|discriminate H]. apply Qle_bool_iff in Eac.
  set (y := if Qle_bool 0 o then a else c) in *. destruct (con [y]) as [v| | | | | | |] eqn:Ec; try discriminate H.
  destruct (lo_okb gl v && up_okb gu v)%bool eqn:G; [|discriminate H]. assert (b = o * y) by congruence. subst b. apply andb_true_iff in G. destruct G as (G1 & G2). split.
  - intros z (L & Lo & Up & _). cbn [y_vars y_lo y_up y_obj] in *. destruct z as [|z [|? ?]]; try discriminate L. inversion Lo as [|? ? ? ? L1 _]; subst. inversion Up as [|? ? ? ? U1 _]; subst. cbn in L1, U1.
    unfold dotp. cbn. unfold y. destruct (Qle_bool 0 o) eqn:Eo; [apply Qle_bool_iff in Eo|apply Qleb_gt in Eo]; nra.
  - exists [y]. split; [|unfold dotp; cbn; ring]. split; [reflexivity|]. cbn [y_lo y_up y_con y_gl y_gu]. split; [constructor; [|constructor]; cbn; unfold y; destruct (Qle_bool 0 o); lra|].
    split; [constructor; [|constructor]; cbn; unfold y; destruct (Qle_bool 0 o); lra|]. exists v. split; [exact Ec|]. split.
    + destruct gl; cbn in *; try discriminate; try exact Logic.I. apply Qle_bool_iff, G1.
    + destruct gu; cbn in *; try discriminate; try exact Logic.I. apply Qle_bool_iff, G2.
Qed.
