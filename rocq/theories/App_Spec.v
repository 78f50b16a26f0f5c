(** What users of the programs and of the C interface expect. *)
From Coq Require Import List Bool Arith.
From Verif Require Import Base Io_Model App_Model.
Import ListNotations.

(** ** C338: a script can tell from the exit status whether the run failed. *)
Definition C338_full : Prop := forall argc run r, (1 < argc)%nat -> bonmin_main argc run = Ok r ->
  (fst r = Exit 0 <-> run = Done).
(** ** C339: whatever the arguments, the programs do not read a null pointer. *)
Definition C339_full : Prop := forall argc init run, (1 <= argc)%nat ->
  bonmin_main argc run <> NullDeref /\ node_main argc init run <> NullDeref.
(** ** C340: a C interface problem gives back all its storage. *)
Definition C340_full : Prop := forall m cs, (0 < m)%nat -> life m cs = Ok ([], []).
(** Number of arrays one solve needs beyond those of the problem. *)
Definition per_solve (m : nat) (c : call) : nat :=
  match c with
  | Solve true mg ml mu => 3 + (if mg then 1 else 0) + (if ml then 1 else 0) + (if mu then 1 else 0) + (if Nat.ltb 0 m then 1 else 0)
  | _ => 0
  end.
