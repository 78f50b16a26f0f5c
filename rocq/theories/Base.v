(** Common definitions shared by all model files. *)
From Coq Require Export List ZArith QArith Qround Qabs Lqa Lia Permutation Bool Arith.
Export ListNotations.
#[global] Open Scope nat_scope.

(** Outcome of a piece of C++ code.  [Ok] is a normal return; every other
    constructor is a way in which the C++ program stops or has undefined
    behaviour.  No theorem treats one of these as a value. *)
Inductive outcome (A : Type) : Type :=
| Ok (a : A)            (* normal return *)
| AssertFail            (* a C assert() fails *)
| NullDeref             (* a null pointer is dereferenced *)
| OutOfBounds           (* access outside an array, front() of an empty container... *)
| Uninit                (* a value never written is read *)
| Dangling              (* released storage is accessed *)
| Thrown                (* a C++ exception leaves the function *)
| Diverges.             (* the loop does not terminate (fuel exhausted) *)
Arguments Ok {A} a.
Arguments AssertFail {A}.
Arguments NullDeref {A}.
Arguments OutOfBounds {A}.
Arguments Uninit {A}.
Arguments Dangling {A}.
Arguments Thrown {A}.
Arguments Diverges {A}.

Definition bind {A B} (x : outcome A) (f : A -> outcome B) : outcome B :=
  match x with
  | Ok a => f a
  | AssertFail => AssertFail
  | NullDeref => NullDeref
  | OutOfBounds => OutOfBounds
  | Uninit => Uninit
  | Dangling => Dangling
  | Thrown => Thrown
  | Diverges => Diverges
  end.
Notation "'do' x <- a ; b" := (bind a (fun x => b))
  (at level 200, x name, a at level 100, b at level 200).
Notation "'do' ' p <- a ; b" := (bind a (fun p => b))
  (at level 200, p strict pattern, a at level 100, b at level 200).

Lemma bind_ok {A B} (x : outcome A) (f : A -> outcome B) b :
  bind x f = Ok b -> exists a, x = Ok a /\ f a = Ok b.
Proof. destruct x; simpl; intros H; try discriminate H. eauto. Qed.

(** Boolean strict comparison on rationals ([Qle_bool] is in the library). *)
Definition Qltb (x y : Q) : bool := negb (Qle_bool y x).

Lemma Qltb_lt x y : Qltb x y = true <-> (x < y)%Q.
Proof.
  unfold Qltb. rewrite negb_true_iff. split; intros H.
  - apply Qnot_le_lt. intros H'. apply Qle_bool_iff in H'. congruence.
  - destruct (Qle_bool y x) eqn:E; [|reflexivity].
    apply Qle_bool_iff in E. exfalso. apply (Qlt_not_le _ _ H E).
Qed.
Lemma Qltb_ge x y : Qltb x y = false <-> (y <= x)%Q.
Proof.
  unfold Qltb. rewrite negb_false_iff. apply Qle_bool_iff.
Qed.
Lemma Qleb_le x y : Qle_bool x y = true <-> (x <= y)%Q.
Proof. apply Qle_bool_iff. Qed.
Lemma Qleb_gt x y : Qle_bool x y = false <-> (y < x)%Q.
Proof.
  split; intros H.
  - apply Qnot_le_lt. intros H'. apply Qle_bool_iff in H'. congruence.
  - destruct (Qle_bool x y) eqn:E; [|reflexivity].
    apply Qle_bool_iff in E. exfalso. apply (Qlt_not_le _ _ H E).
Qed.

(** Destruct a boolean rational comparison found in the goal and turn the
    equation into an order hypothesis. *)
Ltac qcase :=
  match goal with
  | |- context [Qltb ?x ?y] =>
      let E := fresh "Ec" in destruct (Qltb x y) eqn:E;
      [apply Qltb_lt in E | apply Qltb_ge in E]
  | |- context [Qle_bool ?x ?y] =>
      let E := fresh "Ec" in destruct (Qle_bool x y) eqn:E;
      [apply Qleb_le in E | apply Qleb_gt in E]
  end.
Ltac qcase_in H :=
  match type of H with
  | context [Qltb ?x ?y] =>
      let E := fresh "Ec" in destruct (Qltb x y) eqn:E;
      [apply Qltb_lt in E | apply Qltb_ge in E]
  | context [Qle_bool ?x ?y] =>
      let E := fresh "Ec" in destruct (Qle_bool x y) eqn:E;
      [apply Qleb_le in E | apply Qleb_gt in E]
  end.

(** Take out the element at position [k]. *)
Fixpoint take_nth {A} (k : nat) (l : list A) {struct l} : option (A * list A) :=
  match l with
  | [] => None
  | x :: xs =>
      match k with
      | O => Some (x, xs)
      | S k' => match take_nth k' xs with
                | None => None
                | Some (y, r) => Some (y, x :: r)
                end
      end
  end.

Lemma take_nth_perm {A} k (l : list A) x r :
  take_nth k l = Some (x, r) -> Permutation l (x :: r).
Proof.
  revert k x r; induction l as [|a l IH]; intros k x r H; simpl in H; [discriminate|].
  destruct k as [|k].
  - injection H as <- <-. reflexivity.
  - destruct (take_nth k l) as [[y r']|] eqn:E; [|discriminate].
    injection H as <- <-. apply IH in E. rewrite E. apply perm_swap.
Qed.
Lemma take_nth_length {A} k (l : list A) x r :
  take_nth k l = Some (x, r) -> length l = S (length r).
Proof. intros H. apply take_nth_perm in H. apply Permutation_length in H. exact H. Qed.
Lemma take_nth_some {A} k (l : list A) :
  (k < length l)%nat -> exists x r, take_nth k l = Some (x, r).
Proof.
  revert k; induction l as [|a l IH]; intros k H; simpl in *; [lia|].
  destruct k as [|k]; [eauto|].
  destruct (IH k) as (x & r & ->); [lia|]. eauto.
Qed.

(** Finite sums over rationals. *)
Fixpoint qsum (l : list Q) : Q :=
  match l with [] => 0%Q | x :: xs => (x + qsum xs)%Q end.

Lemma qsum_app l1 l2 : (qsum (l1 ++ l2) == qsum l1 + qsum l2)%Q.
Proof. induction l1 as [|x l1 IH]; simpl; [ring|]. rewrite IH. ring. Qed.

Lemma qsum_perm l1 l2 : Permutation l1 l2 -> (qsum l1 == qsum l2)%Q.
Proof.
  induction 1; simpl; try ring.
  - rewrite IHPermutation; ring.
  - rewrite IHPermutation1. exact IHPermutation2.
Qed.
