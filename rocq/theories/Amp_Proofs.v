(** Lemmas for C175-C189. *)
From Coq Require Import Ascii String.
From Verif Require Import Base Arr Amp_Model Amp_Spec.
#[local] Open Scope list_scope.
#[local] Open Scope Q_scope.

(** * Variables *)
Lemma fill_step {A} (v : A) p rest k s e : s = Z.of_nat (length p) -> e = (s + Z.of_nat k)%Z -> (k <= length rest)%nat ->
  fill s e v (map Some p ++ rest) = Ok (map Some (p ++ repeat v k) ++ skipn k rest).
Proof.
  intros Es Ee L. unfold fill. destruct (Z.leb_spec e s) as [H|H].
  - assert (k = 0)%nat as -> by lia. cbn. rewrite app_nil_r. reflexivity.
  - destruct (Z.ltb_spec s 0) as [H'|_]; [lia|]. rewrite Es, Nat2Z.id. replace (Z.to_nat (e - Z.of_nat (length p))) with k by lia.
    pose proof (ablit_app (repeat v k) (map Some p) (firstn k rest) (skipn k rest)) as B. rewrite map_length in B. rewrite firstn_skipn in B.
    rewrite B by (rewrite firstn_length, repeat_length; lia). rewrite map_app, <- app_assoc. reflexivity.
Qed.
Lemma skip_len {A} k (l : list A) : length (skipn k l) = (length l - k)%nat.
Proof. apply skipn_length. Qed.
Ltac fs v p k := erewrite (fill_step v p _ k); [cbn [bind]|rewrite ?app_length, ?repeat_length; cbn [length]; lia|lia|rewrite ?skip_len; lia].
Lemma types_right L a : length a = total L -> variables_types (counts_of L) (Z.of_nat (total L)) a = Ok (map Some (types_of L)).
Proof.
  intros La. unfold total in *. unfold variables_types, counts_of. cbn [nlvb nlvbi nlvc nlvci nlvo nlvoi nbv niv].
  assert (O : Z.max (Z.of_nat (nb L + nc L)) (Z.of_nat (nb L + nc L) + Z.of_nat (match no L with O => nb L | _ => nb L + nc L + no L end) -
     Z.max (Z.of_nat (nb L)) (Z.of_nat (nb L + nc L)) - Z.of_nat (o_int L)) = Z.of_nat (nb L + nc L + o_cont L)).
  { unfold no. destruct (o_cont L + o_int L)%nat eqn:E; lia. }
  unfold nb, nc, no in *.
  change a with (map Some (@nil vtype) ++ a).
  set (e1 := (Z.of_nat (b_cont L + b_int L) - Z.of_nat (b_int L))%Z) in *. cbv zeta.
  fs Continuous (@nil vtype) (b_cont L). fs Integer (@nil vtype ++ repeat Continuous (b_cont L)) (b_int L).
  set (e3 := Z.max _ _). assert (E3 : e3 = Z.of_nat (b_cont L + b_int L + c_cont L)) by (unfold e3, e1; lia).
  fs Continuous ((@nil vtype ++ repeat Continuous (b_cont L)) ++ repeat Integer (b_int L)) (c_cont L).
  fs Integer (((@nil vtype ++ repeat Continuous (b_cont L)) ++ repeat Integer (b_int L)) ++ repeat Continuous (c_cont L)) (c_int L).
  replace (e3 + Z.of_nat (c_int L))%Z with (Z.of_nat (b_cont L + b_int L + (c_cont L + c_int L))) by lia. rewrite O.
  fs Continuous ((((@nil vtype ++ repeat Continuous (b_cont L)) ++ repeat Integer (b_int L)) ++ repeat Continuous (c_cont L)) ++ repeat Integer (c_int L)) (o_cont L).
  fs Integer (((((@nil vtype ++ repeat Continuous (b_cont L)) ++ repeat Integer (b_int L)) ++ repeat Continuous (c_cont L)) ++ repeat Integer (c_int L)) ++ repeat Continuous (o_cont L)) (o_int L).
  fs Continuous ((((((@nil vtype ++ repeat Continuous (b_cont L)) ++ repeat Integer (b_int L)) ++ repeat Continuous (c_cont L)) ++ repeat Integer (c_int L)) ++ repeat Continuous (o_cont L)) ++ repeat Integer (o_int L)) (l_cont L).
  fs Binary (((((((@nil vtype ++ repeat Continuous (b_cont L)) ++ repeat Integer (b_int L)) ++ repeat Continuous (c_cont L)) ++ repeat Integer (c_int L)) ++ repeat Continuous (o_cont L)) ++ repeat Integer (o_int L)) ++ repeat Continuous (l_cont L)) (l_bin L).
  fs Integer ((((((((@nil vtype ++ repeat Continuous (b_cont L)) ++ repeat Integer (b_int L)) ++ repeat Continuous (c_cont L)) ++ repeat Integer (c_int L)) ++ repeat Continuous (o_cont L)) ++ repeat Integer (o_int L)) ++ repeat Continuous (l_cont L)) ++ repeat Binary (l_bin L)) (l_int L).
  match goal with |- Ok (_ ++ ?r) = _ => assert (r = []) as -> end.
  { apply length_zero_iff_nil. rewrite !skip_len. lia. }
  rewrite app_nil_r. unfold types_of. cbn [app]. rewrite <- !app_assoc. reflexivity.
Qed.
Lemma linear_right L a : length a = total L -> variables_linearity (counts_of L) (Z.of_nat (total L)) a = Ok (map Some (linear_of L)).
Proof.
  intros La. unfold total in *. unfold variables_linearity, counts_of. cbn [nlvb nlvbi nlvc nlvci nlvo nlvoi nbv niv]. cbv zeta.
  set (e := Z.max _ _). assert (Ee : e = Z.of_nat (nb L + nc L + no L)) by (unfold e; destruct (no L); lia).
  change a with (map Some (@nil bool) ++ a). fs false (@nil bool) (nb L + nc L + no L)%nat.
  fs true (@nil bool ++ repeat false (nb L + nc L + no L)) (l_cont L + l_bin L + l_int L)%nat.
  match goal with |- Ok (_ ++ ?r) = _ => assert (r = []) as -> end.
  { apply length_zero_iff_nil. rewrite !skip_len. lia. }
  rewrite app_nil_r. reflexivity.
Qed.
(** * Zeros *)
Lemma zeros_ok k : forall i obj, (i + k <= length obj)%nat -> exists r, zeros k i obj = Ok r /\ length r = length obj /\
  forall j, nth j r 0 = if (Nat.leb i j && Nat.ltb j (i + k))%bool then 0 else nth j obj 0.
Proof.
  induction k as [|k IH]; intros i obj L; cbn [zeros].
  - exists obj. split; [reflexivity|]. split; [reflexivity|]. intros j. destruct (Nat.leb_spec i j), (Nat.ltb_spec j (i + 0)); cbn; try reflexivity. lia.
  - rewrite lset_ok by lia. cbn [bind]. destruct (IH (S i) (firstn i obj ++ 0 :: skipn (S i) obj)) as (r & A & B & C); [rewrite upd_length by lia; lia|].
    exists r. split; [exact A|]. split; [rewrite B, upd_length by lia; reflexivity|]. intros j. rewrite C, upd_nth by lia.
    destruct (Nat.leb_spec (S i) j), (Nat.ltb_spec j (S i + k)), (Nat.leb_spec i j), (Nat.ltb_spec j (i + S k)), (Nat.eqb_spec j i); cbn; try reflexivity; lia.
Qed.
Lemma zeros_oob k : forall i obj, (length obj < i + k)%nat -> (0 < k)%nat -> zeros k i obj = OutOfBounds.
Proof.
  induction k as [|k IH]; intros i obj L P; [lia|]. cbn. unfold lset. destruct (Nat.ltb_spec i (length obj)) as [H|H]; [|reflexivity]. cbn [bind].
  apply IH; [rewrite upd_length by lia; lia|lia].
Qed.
Lemma zero_ok s e obj : (0 <= s)%Z -> (e <= Z.of_nat (length obj))%Z -> exists r, zero s e obj = Ok r /\ length r = length obj /\
  forall j, nth j r 0 = if ((s <=? Z.of_nat j) && (Z.of_nat j <? e))%Z%bool then 0 else nth j obj 0.
Proof.
  intros P L. unfold zero. destruct (Z.leb_spec e s) as [H|H].
  - exists obj. split; [reflexivity|]. split; [reflexivity|]. intros j. destruct (Z.leb_spec s (Z.of_nat j)), (Z.ltb_spec (Z.of_nat j) e); cbn; try reflexivity. lia.
  - destruct (Z.ltb_spec s 0); [lia|]. destruct (zeros_ok (Z.to_nat (e - s)) (Z.to_nat s) obj) as (r & A & B & C); [lia|]. exists r. split; [exact A|]. split; [exact B|].
    intros j. rewrite C. destruct (Nat.leb_spec (Z.to_nat s) j), (Nat.ltb_spec j (Z.to_nat s + Z.to_nat (e - s))), (Z.leb_spec s (Z.of_nat j)), (Z.ltb_spec (Z.of_nat j) e); cbn; try reflexivity; lia.
Qed.
Lemma zero_oob s e obj : (0 <= s < e)%Z -> (Z.of_nat (length obj) < e)%Z -> zero s e obj = OutOfBounds.
Proof.
  intros P L. unfold zero. destruct (Z.leb_spec e s); [lia|]. destruct (Z.ltb_spec s 0); [lia|]. apply zeros_oob; lia.
Qed.

(** * Copies *)
Lemma copy_all {A} n (l : list A) : length l = n -> copy_of n l = Ok l.
Proof. intros L. unfold copy_of. destruct (Nat.leb_spec n (length l)); [|lia]. rewrite <- L, firstn_all. reflexivity. Qed.
Lemma copy_opt_all {A} n (l : option (list A)) : long_enough n l -> copy_opt n l = Ok l.
Proof. intros L. destruct l as [l|]; [|reflexivity]. cbn. rewrite (copy_all n l (L l eq_refl)). reflexivity. Qed.
Lemma as_ints_len words l : length (as_ints words l) = (2 * length l)%nat.
Proof. unfold as_ints. induction l as [|q l IH]; cbn [flat_map app length]; [reflexivity|]. rewrite IH. lia. Qed.
Lemma as_ints_nth words l : forall i, nth_error (as_ints words l) i =
  option_map (fun q => if Nat.even i then fst (words q) else snd (words q)) (nth_error l (Nat.div2 i)).
Proof.
  induction l as [|q l IH]; intros i; [destruct i as [|[|i]]; try reflexivity; cbn; destruct (Nat.div2 i); reflexivity|].
  destruct i as [|[|i]]; try reflexivity. exact (IH i).
Qed.

(** * Reference values *)
Lemma kludge_in_ok n : forall (p l s : list Q) t, length l = n ->
  exists l', kludge_in n (length p) t (p ++ l ++ s) = Ok (p ++ l' ++ s) /\ length l' = length l /\ spaced (t :: l') /\
    (forall i a b, nth_error l i = Some a -> nth_error l' i = Some b -> a <= b) /\ (spaced (t :: l) -> l' = l).
Proof.
  induction n as [|n IH]; intros p l s t L; destruct l as [|a l]; try discriminate L.
  - exists []. cbn. split; [reflexivity|]. split; [reflexivity|]. split; [intros [|[|i]] u v; cbn; try discriminate|]. split; [intros [|i]; discriminate|auto].
  - injection L as L. cbn [kludge_in]. assert (R : rd (length p) (p ++ (a :: l) ++ s) = Ok a).
    { unfold rd. rewrite nth_error_app2 by lia. rewrite Nat.sub_diag. reflexivity. }
    rewrite R. cbn [bind].
    assert (Sp : forall t1 l1, t + gap < t1 -> spaced (t1 :: l1) -> spaced (t :: t1 :: l1)).
    { intros t1 l1 H1 H2 [|i] u v Hu Hv; cbn in Hu, Hv; [injection Hu as <-; injection Hv as <-; exact H1|]. exact (H2 i u v Hu Hv). }
    destruct (Qle_bool a (t + tiny)) eqn:E.
    + apply Qle_bool_iff in E. set (b := t + tiny + tiny).
      assert (U : lset (length p) b (p ++ (a :: l) ++ s) = Ok ((p ++ [b]) ++ l ++ s)).
      { rewrite lset_ok by (rewrite !app_length; cbn; lia). f_equal. rewrite firstn_app, Nat.sub_diag, firstn_all. cbn [firstn]. rewrite app_nil_r.
        rewrite skipn_app, skipn_all2 by lia. replace (S (length p) - length p)%nat with 1%nat by lia. cbn. rewrite <- app_assoc. reflexivity. }
      rewrite U. cbn [bind]. replace (S (length p)) with (length (p ++ [b])) by (rewrite app_length; cbn; lia).
      destruct (IH (p ++ [b]) l s b L) as (l' & A1 & A2 & A3 & A4 & A5). exists (b :: l'). split; [rewrite A1, <- app_assoc; reflexivity|].
      split; [cbn; lia|]. split; [apply Sp; [unfold b, gap, tiny; lra|exact A3]|]. split.
      * intros [|i] u v Hu Hv; cbn in Hu, Hv; [injection Hu as <-; injection Hv as <-; unfold b, tiny in *; lra|]. exact (A4 i u v Hu Hv).
      * intros H. pose proof (H 0%nat t a eq_refl eq_refl). unfold gap, tiny in *. lra.
    + assert (E' : t + tiny < a) by (apply Qnot_le_lt; intros F; apply Qle_bool_iff in F; congruence).
      replace (S (length p)) with (length (p ++ [a])) by (rewrite app_length; cbn; lia).
      replace (p ++ (a :: l) ++ s) with ((p ++ [a]) ++ l ++ s) by (rewrite <- app_assoc; reflexivity).
      destruct (IH (p ++ [a]) l s a L) as (l' & A1 & A2 & A3 & A4 & A5). exists (a :: l'). split; [rewrite A1, <- app_assoc; reflexivity|].
      split; [cbn; lia|]. split; [apply Sp; [exact E'|exact A3]|]. split.
      * intros [|i] u v Hu Hv; cbn in Hu, Hv; [injection Hu as <-; injection Hv as <-; lra|]. exact (A4 i u v Hu Hv).
      * intros H. f_equal. apply A5. intros i u v Hu Hv. exact (H (S i) u v Hu Hv).
Qed.
Lemma kludge_ok w : forall p, Forall (fun l => l <> []) w ->
  exists w', kludge (tl (starts_of (length p) w)) (length p) (p ++ concat w) = Ok (p ++ concat w') /\ Forall2 spread w w'.
Proof.
  induction w as [|l w IH]; intros p F; [exists []; split; [reflexivity|constructor]|]. apply Forall_cons_iff in F. destruct F as [Nl F].
  destruct l as [|a l]; [congruence|]. cbn [starts_of tl]. assert (E : starts_of (length p + length (a :: l)) w = (length p + length (a :: l))%nat :: tl (starts_of (length p + length (a :: l)) w)) by (destruct w; reflexivity).
  rewrite E. cbn [kludge concat]. clear E. assert (R : rd (length p) (p ++ (a :: l) ++ concat w) = Ok a).
  { unfold rd. rewrite nth_error_app2 by lia. rewrite Nat.sub_diag. reflexivity. }
  rewrite R. cbn [bind]. replace (length p + length (a :: l) - S (length p))%nat with (length l) by (cbn; lia).
  replace (p ++ (a :: l) ++ concat w) with ((p ++ [a]) ++ l ++ concat w) by (rewrite <- app_assoc; reflexivity).
  replace (S (length p)) with (length (p ++ [a])) by (rewrite app_length; cbn; lia).
  destruct (kludge_in_ok (length l) (p ++ [a]) l (concat w) a eq_refl) as (l' & A1 & A2 & A3 & A4 & A5). rewrite A1. cbn [bind].
  replace (Nat.max (length (p ++ [a])) (length p + length (a :: l))) with (length ((p ++ [a]) ++ l')) by (rewrite !app_length; cbn; lia).
  replace (length p + length (a :: l))%nat with (length ((p ++ [a]) ++ l')) by (rewrite !app_length; cbn; lia).
  rewrite app_assoc. destruct (IH ((p ++ [a]) ++ l') F) as (w' & B1 & B2). exists ((a :: l') :: w'). split.
  - rewrite B1. cbn [concat]. rewrite <- !app_assoc. reflexivity.
  - constructor; [|exact B2]. split; auto; [cbn; lia| |].
    + intros [|i] u v Hu Hv; cbn in Hu, Hv; [injection Hu as <-; injection Hv as <-; lra|]. exact (A4 i u v Hu Hv).
    + intros H. f_equal. auto.
Qed.
Lemma starts_len w : forall s, length (starts_of s w) = S (length w).
Proof. induction w as [|l w IH]; intros s; cbn; [reflexivity|]. f_equal. apply IH. Qed.
Lemma sos_types_ok l : (Forall (fun c => c = 49%Z \/ c = 50%Z) l -> sos_types l = Ok (map (fun c => (c - 48)%Z) l)) /\
  (~ Forall (fun c => c = 49%Z \/ c = 50%Z) l -> sos_types l = Thrown).
Proof.
  induction l as [|c l [IH1 IH2]]; cbn; [split; [reflexivity|intros H; exfalso; apply H; constructor]|].
  destruct ((c - 48 =? 1) || (c - 48 =? 2))%Z%bool eqn:E.
  - assert (c = 49 \/ c = 50)%Z by (apply orb_prop in E; destruct E as [E|E]; apply Z.eqb_eq in E; lia).
    split; intros F; [apply Forall_cons_iff in F; rewrite IH1 by tauto; reflexivity|]. rewrite IH2; [reflexivity|]. intros G. apply F. constructor; assumption.
  - split; intros F; [|reflexivity]. exfalso. apply Forall_cons_iff in F. destruct F as [F _]. apply orb_false_iff in E. destruct E as [E1 E2]. apply Z.eqb_neq in E1, E2. lia.
Qed.

(** * Marks and maps *)
Lemma last_mark_ok l : forall i r, (forall k, nth_error l k <> Some 1%Z) -> last_mark i l r = r.
Proof.
  induction l as [|z l IH]; intros i r H; cbn; [reflexivity|]. destruct (Z.eqb_spec z 1) as [->|_]; [exfalso; apply (H 0%nat); reflexivity|]. apply IH. intros k. exact (H (S k)).
Qed.
Lemma last_mark_one l : forall i r k, nth_error l k = Some 1%Z -> (forall k', nth_error l k' = Some 1%Z -> k' = k) -> last_mark i l r = Some (i + k)%nat.
Proof.
  induction l as [|z l IH]; intros i r k H U; [destruct k; discriminate H|]. cbn. destruct k as [|k].
  - cbn in H. injection H as ->. cbn. rewrite last_mark_ok; [f_equal; lia|]. intros k' H'. specialize (U (S k') H'). discriminate U.
  - cbn in H. rewrite (IH (S i) _ k H); [f_equal; lia|]. intros k' H'. specialize (U (S k') H'). lia.
Qed.
Lemma id_map_ok ids : forall i k r, match id_map i ids k r with
  | Some y => (r = Some y /\ ~ In k ids) \/ (i <= y /\ nth_error ids (y - i) = Some k)%nat
  | None => r = None /\ ~ In k ids
  end.
Proof.
  induction ids as [|z ids IH]; intros i k r; cbn [id_map]; [destruct r; auto|].
  specialize (IH (S i) k (if (z =? k)%Z then Some i else r)). destruct (id_map (S i) ids k _) as [y|].
  - destruct IH as [[A B]|[A B]].
    + destruct (Z.eqb_spec z k) as [->|N]; [injection A as <-; right; rewrite Nat.sub_diag; auto|]. left. split; [exact A|]. intros [C|C]; auto.
    + right. split; [lia|]. replace (y - i)%nat with (S (y - S i)) by lia. exact B.
  - destruct IH as [A B]. destruct (Z.eqb_spec z k) as [->|N]; [discriminate A|]. split; [exact A|]. intros [C|C]; auto.
Qed.
Lemma onoff_map_ok ids k : (0 < k)%Z -> forall i r, onoff_map i ids k r = id_map i ids k r.
Proof.
  intros P. induction ids as [|z ids IH]; intros i r; cbn; [reflexivity|]. rewrite IH. destruct (Z.eqb_spec z k) as [->|N]; [|rewrite andb_false_r; reflexivity].
  destruct (Z.ltb_spec 0 k); [reflexivity|lia].
Qed.
