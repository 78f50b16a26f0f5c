(** Further statements about interfaces: changes of bounds, and the solver of strong branching that an interface is given. *)
From Verif Require Import Base Arr Nlp FP_Model Dup_Model Dup_Spec.
#[local] Open Scope Q_scope.

Section S.
Variable U : nat -> nlp.
(** [l'] is [l] with entry [j] replaced. *)
Definition one_changed {A} (j : nat) (a : A) (l l' : list A) : Prop :=
  length l' = length l /\ nth_error l' j = Some a /\ forall k, k <> j -> nth_error l' k = nth_error l k.
(** C173: a change of the bounds of one variable is seen in the bounds of this variable and nowhere else; it fails for an index beyond
    the variables and for an interface without a problem. *)
Definition C173_full : Prop := forall s i j lo up x, reach U s -> at_ s i x ->
  match bounds s x with
  | Ok (l, u) =>
      ((j < length l)%nat /\ (j < length u)%nat /\ exists s' l' u', exec U (SetBounds i j lo up) s = Ok s' /\ at_ s' i x /\
         bounds s' x = Ok (l', u') /\ one_changed j lo l l' /\ one_changed j up u u' /\ point U s' x = point U s x) \/
      (((length l <= j)%nat \/ (length u <= j)%nat) /\ exec U (SetBounds i j lo up) s = OutOfBounds)
  | _ => exec U (SetBounds i j lo up) s = NullDeref
  end.
(** C174: a solver of strong branching given to an interface is not that of any other interface: whatever is then done with this interface
    (short of an assignment to it) leaves the trials of the others as they are. *)
Definition takes_none (i : nat) (o : op) : Prop := target o = Some i /\ match o with Assign _ _ => False | _ => True end.
Definition C174_full : Prop := forall s i s1 l s2 j x, reach U s -> exec U (SetStrong i) s = Ok s1 -> Forall (takes_none i) l -> execs U l s1 = Ok s2 ->
  j <> i -> at_ s j x -> i_sbs x <> None -> at_ s2 j x /\ trial s2 x = trial s x.
End S.
