(** Specification for quadratic rows and cuts (C06-C10, C46-C48): plain
    mathematics about polynomials and lists, independent of the model. *)
From Verif Require Import Base Quad_Model.
#[local] Open Scope Q_scope.

(** The quadratic form stood for by the upper (or lower) triangle of a
    symmetric matrix: off-diagonal entries count twice. *)
Definition tri_term (x : nat -> Q) (t : trip) : Q :=
  if Nat.eqb (t_i t) (t_j t) then t_v t * x (t_i t) * x (t_i t)
  else 2 * (t_v t * x (t_i t) * x (t_j t)).
Definition tri_form (E : list trip) (x : nat -> Q) : Q := qsum (map (tri_term x) E).

(** The quadratic form of a general (non symmetric) matrix. *)
Definition full_form (E : list trip) (x : nat -> Q) : Q :=
  qsum (map (fun t => t_v t * x (t_i t) * x (t_j t)) E).

Definition lin_form (a : list (nat * Q)) (x : nat -> Q) : Q :=
  qsum (map (fun p => snd p * x (fst p)) a).

(** Mathematical value of a quadratic row. *)
Definition poly (c : Q) (a : list (nat * Q)) (E : list trip) (x : nat -> Q) : Q :=
  c + lin_form a x + tri_form E x.

(** The value a cut bounds: for [Full] storage all entries count once. *)
Definition cut_value (k : qcut) (x : nat -> Q) : Q :=
  k_c k + lin_form (k_a k) x +
  match k_ty k with Full => full_form (k_e k) x | _ => tri_form (k_e k) x end.

Definition vadd (x h : nat -> Q) : nat -> Q := fun i => x i + h i.

(** What std::sort guarantees. *)
Definition row_le (s t : trip) : Prop :=
  (t_i s < t_i t \/ (t_i s = t_i t /\ t_j s <= t_j t))%nat.
Definition col_le (s t : trip) : Prop :=
  (t_j s < t_j t \/ (t_j s = t_j t /\ t_i s <= t_i t))%nat.
Inductive sorted {A} (le : A -> A -> Prop) : list A -> Prop :=
| sorted_nil : sorted le []
| sorted_cons a l : Forall (le a) l -> sorted le l -> sorted le (a :: l).
Definition sorts (le : trip -> trip -> Prop) (f : list trip -> list trip) : Prop :=
  forall l, Permutation (f l) l /\ sorted le (f l).

(** Any history of evaluations. *)
Inductive rop := EvF (x : nat -> Q) | EvG (x : nat -> Q).
Definition r_step (r : row) (o : rop) : outcome row :=
  match o with
  | EvF x => do ' (_, r') <- row_eval_f x r; Ok r'
  | EvG x => do ' (_, r') <- row_eval_grad x r; Ok r'
  end.
Fixpoint r_run (r : row) (ops : list rop) : outcome row :=
  match ops with [] => Ok r | o :: ops' => do r' <- r_step r o; r_run r' ops' end.

(** Sparse dot product of a pattern with values against a direction. *)
Definition sparse_dot (idx : list nat) (vals : list Q) (h : nat -> Q) : Q :=
  qsum (map (fun p => snd p * h (fst p)) (combine idx vals)).

(** The triangle announced by the storage type. *)
Definition well_stored (k : qcut) : Prop :=
  match k_ty k with
  | Upper => Forall (fun t => (t_i t <= t_j t)%nat) (k_e k)
  | Lower => Forall (fun t => (t_j t <= t_i t)%nat) (k_e k)
  | Full => False
  end.

(** Abstract view of the NLP with cuts: the list of cuts present. *)
Inductive acut := AQuad (k : qcut) | ALin (k : lcut).
Definition a_lb c := match c with AQuad k => k_lb k | ALin k => l_lb k end.
Definition a_ub c := match c with AQuad k => k_ub k | ALin k => l_ub k end.
Definition a_entries c := match c with AQuad k => k_e k | ALin _ => [] end.
(** Value of the row made from a cut by the constructor (the constant of a
    quadratic cut is lost, see C09). *)
Definition a_value c x :=
  match c with
  | AQuad k => lin_form (k_a k) x + tri_form (k_e k) x
  | ALin k => lin_form (l_a k) x
  end.

(** Remove the elements at the given positions. *)
Fixpoint drop_at {A} (p : nat -> bool) (i : nat) (l : list A) : list A :=
  match l with
  | [] => []
  | a :: l' => if p i then drop_at p (S i) l' else a :: drop_at p (S i) l'
  end.

Definition a_step (m : nat) (l : list acut) (o : qop) : list acut :=
  match o with
  | OAddQuad k => l ++ [AQuad k]
  | OAddLin k => l ++ [ALin k]
  | ORemove idxs => drop_at (fun p => existsb (fun i => Nat.eqb i (m + p)) idxs) 0 l
  | OCopy | OStruct => l
  end.

(** Legal requests: cuts stored as announced, distinct indices of existing added rows. *)
Definition legal (m : nat) (l : list acut) (o : qop) : Prop :=
  match o with
  | OAddQuad k => well_stored k
  | ORemove idxs => NoDup idxs /\ Forall (fun i => (m <= i < m + length l)%nat) idxs
  | _ => True
  end.
Fixpoint legal_run (m : nat) (l : list acut) (ops : list qop) : Prop :=
  match ops with
  | [] => True
  | o :: ops' => legal m l o /\ legal_run m (a_step m l o) ops'
  end.
Definition a_run (m : nat) (l : list acut) (ops : list qop) : list acut :=
  fold_left (a_step m) ops l.

(** Contribution of a cut's second derivatives to the (row r, column c)
    position of the lower triangle, counted with index offset: each stored
    entry v at {i,j} contributes 2v at row max, column min. *)
Definition d2_at (off : nat) (rc : nat * nat) (t : trip) : Q :=
  if (Nat.eqb (Nat.max (t_i t) (t_j t) + off) (fst rc)
      && Nat.eqb (Nat.min (t_i t) (t_j t) + off) (snd rc))%bool
  then 2 * t_v t else 0.
Definition cut_d2 (off : nat) (c : acut) (rc : nat * nat) : Q :=
  qsum (map (d2_at off rc) (a_entries c)).
Fixpoint lag_d2 (off : nat) (lams : list Q) (cs : list acut) (rc : nat * nat) : Q :=
  match cs, lams with
  | c :: cs', l :: ls' => l * cut_d2 off c rc + lag_d2 off ls' cs' rc
  | _, _ => 0
  end.

(** The matrix entry at [rc] given by structure stores and values: the sum of
    the values over all positions stored at [rc]. *)
Definition key_is (rc k : nat * nat) : bool := (Nat.eqb (fst rc) (fst k) && Nat.eqb (snd rc) (snd k))%bool.
Definition entry_of (w : list (nat * (nat * nat))) (vals : list Q) (rc : nat * nat) : Q :=
  qsum (map (fun p => if key_is rc (snd p) then nth (fst p) vals 0 else 0) w).
(** The original Hessian: pattern and values in the same order. *)
Definition base_entry (hb : list (nat * nat)) (base : list Q) (rc : nat * nat) : Q :=
  qsum (map (fun p => if key_is rc (fst p) then snd p else 0) (combine hb base)).

(** The added Jacobian block applied to a direction: entries stored for row
    [i], with index offset [off]. *)
Definition block_dot (st : list (nat * nat)) (vals : list Q) (off i : nat) (h : nat -> Q) : Q :=
  qsum (map (fun p => if Nat.eqb (fst (fst p)) (i + off) then snd p * h (snd (fst p) - off)%nat else 0)
            (combine st vals)).

(** C09: a cut turned into a row bounds the same quantity. *)
Definition C09_full (sr sc : list trip -> list trip) (order : list trip -> list nat) : Prop :=
  forall k, well_stored k -> forall fuel r,
    row_of_cut sr sc fuel order k = Ok r ->
    forall x v r', row_eval_f x r = Ok (v, r') -> v == cut_value k x.

(** C10: normalisation terminates and keeps the quadratic form. *)
Definition C10_full (order : list trip -> list nat) : Prop :=
  (forall E, exists fuel E', make_upper fuel order Full E = Ok E' /\
     forall x, tri_form E' x == full_form E x) /\
  (forall ro E, Permutation ro (seq 0 (length E)) ->
     (forall i j ti tj, (i < j)%nat -> nth_error E (nth i ro 0%nat) = Some ti ->
        nth_error E (nth j ro 0%nat) = Some tj -> (j < length E)%nat -> row_le ti tj) ->
     exists E', remove_duplicates ro E = Ok E' /\ forall x, full_form E' x == full_form E x).

(** A sort satisfying [sorts], used in the examples. *)
Fixpoint ins_by {A} (leb : A -> A -> bool) (a : A) (l : list A) : list A :=
  match l with [] => [a] | b :: l' => if leb a b then a :: l else b :: ins_by leb a l' end.
Definition sort_by {A} (leb : A -> A -> bool) (l : list A) : list A :=
  fold_right (ins_by leb) [] l.
Definition row_leb (s t : trip) : bool :=
  (Nat.ltb (t_i s) (t_i t) || (Nat.eqb (t_i s) (t_i t) && Nat.leb (t_j s) (t_j t)))%bool.
Definition col_leb (s t : trip) : bool :=
  (Nat.ltb (t_j s) (t_j t) || (Nat.eqb (t_j s) (t_j t) && Nat.leb (t_i s) (t_i t)))%bool.
