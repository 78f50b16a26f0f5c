(** Specification of the epigraph form min eta s.t. f(x) - eta <= 0, g_l <= g(x) <= g_u. *)
From Verif Require Import Base Arr Nlp.
#[local] Open Scope Q_scope.

(** Hessian of a Lagrangian given the Hessians of the objective and of the constraints. *)
Definition mat := nat -> nat -> Q.
Definition lag (s : Q) (Hf : mat) (l : list Q) (Hg : list mat) : mat :=
  fun i j => s * Hf i j + qsum (map (fun p => fst p * snd p i j) (combine l Hg)).
(** The Jacobian of the epigraph form: first row (grad f, -1), then (row of J, 0). *)
Definition epi_jac (n : nat) (gf : list Q) (J : mat) : mat :=
  fun i j => match i with
             | O => if Nat.ltb j n then nth j gf 0 else if Nat.eqb j n then -(1) else 0
             | S i' => if Nat.ltb j n then J i' j else 0
             end.
