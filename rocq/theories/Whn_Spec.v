(** * When the primal heuristics do something: specification *)
From Coq Require Import List NArith Bool.
From Verif Require Import Whn_Model.
Import ListNotations.
Open Scope N_scope.

(** A heuristic is called at each of the [n] nodes from [a] on (any number of times,
    in any order, among other calls). *)
Definition visits (l : list iv) (a n : N) : Prop :=
  forall k, k < n -> exists i, In i l /\ i_node i = a + k.

Definition acts (r : list act) : Prop := exists a, In a r /\ a <> Skip.

(** ** C323: with an incumbent, a search in any 10000 nodes, whatever went before. *)
Definition C323_full : Prop :=
  forall hist l a, visits l a 10000 -> Forall (fun i => i_best i = true) l ->
  exists x, In x (fst (run rins (snd (run rins 10 hist)) l)) /\ x = Search.

(** The calls at which something is done. *)
Definition doing (l : list iv) (r : list act) : list iv :=
  map fst (filter (fun p => match snd p with Skip => false | _ => true end) (combine l r)).

(** ** C324 *)
(** One call at each node, from node [a] on. *)
Fixpoint in_order (a : N) (l : list iv) : Prop :=
  match l with
  | [] => True
  | i :: l => i_node i = a /\ in_order (a + 1) l
  end.

(** Two nodes at which RINS does something are ten nodes apart. *)
Definition C324_full : Prop :=
  forall l, in_order 0 l ->
  forall i j, In i (doing l (fst (run rins 10 l))) ->
              In j (doing l (fst (run rins 10 l))) ->
              i_node i < i_node j -> i_node i + 10 <= i_node j.

(** Calls at which RINS did something without finding a solution. *)
Definition failures (l : list iv) (r : list act) : N :=
  N.of_nat (length (filter (fun p => match snd p with
                           | Skip => false | Tried => true | Search => negb (i_found (fst p))
                           end) (combine l r))).

(** ** C326 *)

(** How many solutions there are after a call at which [a] was done. *)
Definition after (i : iv) (a : act) : N :=
  match a with
  | Search => if i_found i && i_kept i then i_nsol i + 1 else i_nsol i
  | _ => i_nsol i
  end.

(** The solution count goes on from there, and never down. *)
Fixpoint counted (last : N) (l : list iv) (r : list act) : Prop :=
  match l, r with
  | i :: l, a :: r => last <= i_nsol i /\ counted (after i a) l r
  | _, _ => True
  end.

(** A search at a call exactly if there are more solutions than the heuristic left behind
    at its last call: someone else found one in between. *)
Fixpoint followed (last : N) (l : list iv) (r : list act) : Prop :=
  match l, r with
  | [], [] => True
  | i :: l, a :: r =>
      (a = Search <-> last < i_nsol i) /\ followed (after i a) l r
  | _, _ => False
  end.

(** There is a best solution exactly if solutions have been counted. *)
Definition sane (l : list iv) : Prop := Forall (fun i => i_best i = (0 <? i_nsol i)) l.

Definition C326_full : Prop :=
  forall l, sane l -> counted 0 l (fst (run local_branching 0 l)) ->
    followed 0 l (fst (run local_branching 0 l)).
