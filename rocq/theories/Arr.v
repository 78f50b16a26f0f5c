(** Arrays with cells that may not have been written yet, and numbers with
    infinities.  Shared by several model files. *)
From Verif Require Import Base.
#[local] Open Scope Q_scope.

(** Extended bounds: MInf is -infinity (the code uses -DBL_MAX or -infty),
    PInf is +infinity. *)
Inductive ext := MInf | Fin (q : Q) | PInf.
(** [lo_ok l v]: v is at least l;  [up_ok u v]: v is at most u. *)
Definition lo_ok (l : ext) (v : Q) : Prop :=
  match l with MInf => True | Fin q => q <= v | PInf => False end.
Definition up_ok (u : ext) (v : Q) : Prop :=
  match u with PInf => True | Fin q => v <= q | MInf => False end.

(** C arrays: a cell is [None] until it is written. *)
Definition arr (A : Type) := list (option A).
Definition fresh {A} (k : nat) : arr A := repeat None k.
Fixpoint aset {A} (i : nat) (v : A) (a : arr A) {struct a} : outcome (arr A) :=
  match a with
  | [] => OutOfBounds
  | c :: a' => match i with
               | O => Ok (Some v :: a')
               | S i' => do r <- aset i' v a'; Ok (c :: r)
               end
  end.
(** Write the values [l] at positions o, o+1, ... *)
Fixpoint ablit {A} (o : nat) (l : list A) (a : arr A) : outcome (arr A) :=
  match l with
  | [] => Ok a
  | v :: l' => do a' <- aset o v a; ablit (S o) l' a'
  end.
Definition aget {A} (i : nat) (a : arr A) : outcome A :=
  match nth_error a i with
  | None => OutOfBounds
  | Some None => Uninit
  | Some (Some v) => Ok v
  end.
(** Read a plain array. *)
Definition rd {A} (i : nat) (l : list A) : outcome A :=
  match nth_error l i with None => OutOfBounds | Some v => Ok v end.

Lemma aset_ok {A} i (v : A) a : (i < length a)%nat ->
  aset i v a = Ok (firstn i a ++ Some v :: skipn (S i) a).
Proof.
  revert i; induction a as [|c a IH]; intros i L; simpl in L; [lia|].
  destruct i as [|i]; [reflexivity|]. cbn [aset]. rewrite IH by lia. reflexivity.
Qed.
Lemma aset_oob {A} i (v : A) a : (length a <= i)%nat -> aset i v a = OutOfBounds.
Proof.
  revert i; induction a as [|c a IH]; intros i L; simpl in *; [reflexivity|].
  destruct i as [|i]; [lia|]. rewrite IH by lia. reflexivity.
Qed.
Lemma aset_len {A} i (v : A) a a' : aset i v a = Ok a' -> length a' = length a.
Proof.
  revert i a'; induction a as [|c a IH]; intros i a' H; simpl in H; [discriminate|].
  destruct i as [|i]; [injection H as <-; reflexivity|].
  apply bind_ok in H. destruct H as (r & E & H). injection H as <-. simpl. f_equal. eapply IH, E.
Qed.
Lemma aset_app {A} (p : arr A) c s v : aset (length p) v (p ++ c :: s) = Ok (p ++ Some v :: s).
Proof. induction p as [|d p IH]; simpl; [reflexivity|]. rewrite IH. reflexivity. Qed.

(** Writing a block in the middle. *)
Lemma ablit_app {A} (l : list A) : forall (p m s : arr A), length m = length l ->
  ablit (length p) l (p ++ m ++ s) = Ok (p ++ map Some l ++ s).
Proof.
  induction l as [|v l IH]; intros p m s L; destruct m as [|c m]; simpl in L; try discriminate; [reflexivity|].
  cbn [ablit]. simpl app. rewrite aset_app. cbn [bind].
  replace (p ++ Some v :: m ++ s) with ((p ++ [Some v]) ++ m ++ s) by (rewrite <- app_assoc; reflexivity).
  replace (S (length p)) with (length (p ++ [Some v])) by (rewrite app_length; simpl; lia).
  rewrite IH by lia. rewrite <- app_assoc. reflexivity.
Qed.
Lemma ablit_oob {A} (l : list A) : forall o a, l <> [] -> (length a < o + length l)%nat ->
  ablit o l a = OutOfBounds.
Proof.
  induction l as [|v l IH]; intros o a N L; [congruence|]. cbn [ablit].
  destruct (Nat.lt_ge_cases o (length a)) as [H|H].
  - rewrite aset_ok by exact H. cbn [bind]. destruct l as [|w l].
    + simpl in L. lia.
    + apply IH; [discriminate|]. rewrite app_length. cbn [length].
      rewrite firstn_length, skipn_length. simpl in L |- *. lia.
  - rewrite aset_oob by exact H. reflexivity.
Qed.
Lemma fresh_app {A} j k : @fresh A (j + k) = fresh j ++ fresh k.
Proof. apply repeat_app. Qed.
Lemma fresh_length {A} k : length (@fresh A k) = k.
Proof. apply repeat_length. Qed.
(** Fill a fresh array front to back in two blocks. *)
Lemma ablit_fresh {A} (l : list A) : ablit 0 l (fresh (length l)) = Ok (map Some l).
Proof.
  pose proof (ablit_app l [] (fresh (length l)) [] (fresh_length _)) as H.
  simpl in H. rewrite !app_nil_r in H. exact H.
Qed.
Lemma ablit0_app {A} (l : list A) (m s : arr A) : length m = length l ->
  ablit 0 l (m ++ s) = Ok (map Some l ++ s).
Proof. intros L. exact (ablit_app l [] m s L). Qed.
Lemma ablit_tail {A} (l : list A) (p m : arr A) k : length p = k -> length m = length l ->
  ablit k l (p ++ m) = Ok (p ++ map Some l).
Proof.
  intros K L. subst k. pose proof (ablit_app l p m [] L) as H. rewrite !app_nil_r in H. exact H.
Qed.
Lemma Forall2_len {A B} (R : A -> B -> Prop) l1 l2 : Forall2 R l1 l2 -> length l1 = length l2.
Proof. induction 1; simpl; congruence. Qed.
Lemma map_Some_inj {A} (l l' : list A) : map Some l = map Some l' -> l = l'.
Proof.
  revert l'; induction l as [|a l IH]; intros [|b l'] E; simpl in E; try discriminate; [reflexivity|].
  injection E as E1 E2. f_equal; auto.
Qed.

(** Overwrite cell [i] of a plain array. *)
Definition lset {A} (i : nat) (a : A) (l : list A) : outcome (list A) :=
  if Nat.ltb i (length l) then Ok (firstn i l ++ a :: skipn (S i) l) else OutOfBounds.
(** A C assert. *)
Definition chk (b : bool) : outcome unit := if b then Ok tt else AssertFail.
Definition qmax (a b : Q) : Q := if Qltb a b then b else a.     (* std::max *)
Lemma lset_ok {A} i (a : A) l : (i < length l)%nat -> lset i a l = Ok (firstn i l ++ a :: skipn (S i) l).
Proof. intros H. unfold lset. apply Nat.ltb_lt in H. rewrite H. reflexivity. Qed.
Lemma upd_length {A} i (a : A) l : (i < length l)%nat -> length (firstn i l ++ a :: skipn (S i) l) = length l.
Proof. intros H. rewrite app_length. cbn [length]. rewrite firstn_length, skipn_length. lia. Qed.
Lemma upd_nth {A} i j (a d : A) l : (i < length l)%nat ->
  nth j (firstn i l ++ a :: skipn (S i) l) d = if Nat.eqb j i then a else nth j l d.
Proof.
  revert i j; induction l as [|b l IH]; intros i j H; [simpl in H; lia|].
  destruct i as [|i]; [destruct j; reflexivity|].
  destruct j as [|j]; [reflexivity|]. cbn [firstn skipn app nth Nat.eqb]. apply IH. simpl in H. lia.
Qed.
