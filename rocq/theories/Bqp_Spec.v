(** Specification of the branching QP (C23, C61). *)
From Verif Require Import Base Arr Nlp FP_Spec Bqp_Model.
#[local] Open Scope Q_scope.

(** The symmetric matrix stored by its lower triangle (any triangle). *)
Definition sym (off : nat) (st : list (nat * nat)) (vs : list Q) (i j : nat) : Q :=
  dense off st vs i j + (if Nat.eqb i j then 0 else dense off st vs j i).
Definition form (n : nat) (S : nat -> nat -> Q) (a b : list Q) : Q :=
  qsum (map (fun i => qsum (map (fun j => S i j * (at_ a i * at_ b j)) (seq 0 n))) (seq 0 n)).
(** Matrix times vector, row i. *)
Definition mrow (n : nat) (J : nat -> nat -> Q) (i : nat) (d : list Q) : Q :=
  qsum (map (fun j => J i j * at_ d j) (seq 0 n)).
(** The data of the node: a point with its multipliers. *)
Definition node_ok (P : nlp) (x0 du : list Q) : Prop := nlp_ok P /\ length x0 = p_n P /\ length du = (2 * p_n P + p_m P)%nat.
Definition hlag (P : nlp) (x0 du : list Q) : nat -> nat -> Q := sym (p_off P) (p_hst P) (p_hv P x0 1 (skipn (2 * p_n P) du)).
Definition jac0 (P : nlp) (x0 : list Q) : nat -> nat -> Q := dense (p_off P) (p_jst P) (p_jv P x0).
(** The quadratic model. *)
Definition qmodel (P : nlp) (x0 du d : list Q) : Q := dot (p_gf P x0) d + (1 # 2) * form (p_n P) (hlag P x0 du) d d.
(** Values of the linearised constraints at displacement d. *)
Definition lin_g (P : nlp) (x0 d : list Q) : list Q := map (fun i => at_ (p_g P x0) i + mrow (p_n P) (jac0 P x0) i d) (seq 0 (p_m P)).
Definition eqs (a b : list Q) : Prop := Forall2 Qeq a b.
(** The node problem is told the point x0+d, its model value and the values of the
    linearised constraints there. *)
Definition C61_full : Prop := forall P x0 du B d g, node_ok P x0 du -> length d = p_n P -> bqp_make P (Some x0) (Some du) = Ok B ->
  b_eval_g B d = Ok g -> forall v, eqs (r_g (b_finalize B false d g v)) (lin_g P x0 d).
Definition C23_status_full : Prop := forall P x0 du B d li g f, node_ok P x0 du -> length d = p_n P -> bqp_make P (Some x0) (Some du) = Ok B ->
  b_eval_f B d = Ok f -> r_obj (b_finalize B li d g f) == p_f P x0 + qmodel P x0 du d.
