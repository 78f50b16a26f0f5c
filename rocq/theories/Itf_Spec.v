(** Specifications for the solver interface, independent of the model's functions. *)
From Verif Require Import Base Arr Oad_Model Itf_Model.
#[local] Open Scope Q_scope.

(** A coordinate within its bounds. *)
Definition inside (cl cu : ext) (c : option Q) : Prop := exists v, c = Some v /\ lo_ok cl v /\ up_ok cu v.
(** Bounds a feasible box may have. *)
Definition box (cl cu : ext) : Prop :=
  match cl, cu with
  | PInf, _ | _, MInf => False
  | Fin l, Fin u => l <= u
  | _, _ => True
  end.
Inductive all5 (R : ext -> ext -> option Q -> Prop) : list ext -> list ext -> list (option Q) -> Prop :=
| all5_nil : all5 R [] [] []
| all5_cons l u c ls us cs : R l u c -> all5 R ls us cs -> all5 R (l :: ls) (u :: us) (c :: cs).
(** C24 in full: every method, every radius. *)
Definition C24_full : Prop := forall t maxR pert cl cu x0 radii draws sol,
  0 <= maxR -> 0 <= pert -> Forall2 box cl cu -> length x0 = length cl -> length draws = length cl ->
  match radii with Some a => length a = length cl | None => True end ->
  Forall (fun r => 0 <= r <= 1) draws ->
  randomStartingPoint t maxR pert cl cu x0 radii draws = Ok sol -> all5 inside cl cu sol.

(** Solver answers. *)
Definition success (s : rstatus) : Prop := s = solvedOptimal \/ s = solvedOptimalTol.
(** An NLP call ended in an error. *)
Definition failure (s : rstatus) : Prop := (code s < 0)%Z.
(** What a solve ends with. *)
Definition holds_answer (a : answer) (s : itf) : Prop := o_st s = n_st a /\ o_obj s = Fin (n_obj a) /\ o_x s = n_x a /\ o_du s = n_du a.
(** The answers of the calls from number [a] on, [k] of them. *)
Definition calls (ans : nat -> answer) (a k : nat) : list answer := map ans (seq a k).
(** The candidate solutions of a multi-start: the state before it, as an answer. *)
Definition cand (s : itf) (o : Q) : answer := mkAns (o_st s) o (o_x s) (o_du s) (o_abort s).

(** The best of a list of successful answers. *)
Definition best_among (l : list answer) (a : answer) : Prop :=
  In a l /\ success (n_st a) /\ forall b, In b l -> success (n_st b) -> n_obj a <= n_obj b.

(** C29 in full: an NLP solve whose only NLP call failed is reported abandoned. *)
Definition C29_full : Prop := forall ans p os s s' o junk r,
  irun ans p os (itf_init junk r) = Ok s -> istep ans p o s = Ok s' -> o_calls s' = S (o_calls s) ->
  failure (n_st (ans (o_calls s))) -> isAbandoned s' = true.

(** C30 in full: a multi-start ends with the best success and computes a number. *)
Definition C30_full : Prop := forall ans p k s q, o_obj s = Fin q ->
  exists s', resolveForCost ans p k s = Ok s' /\ o_decr s' <> DecNaN /\
  let l := cand s q :: calls ans (o_calls s) k in
  ((exists a, best_among l a /\ holds_answer a s') \/ (forall b, In b l -> ~ success (n_st b)) /\ o_st s' = o_st s).

(** C62 in full: once a solve was made, the status can be asked, on the object or a copy. *)
Definition C62_full : Prop := forall ans p os junk r s, jrun ans p os (mkObj (itf_init junk r) false) = Ok s ->
  (exists o, In (JSolve o) os) -> exists b, q_optimal s = Ok b.

(** C63 in full: every way the NLP solver can end is classified as exactly one of solved,
    infeasible, unbounded, failed. *)
Definition answers_of (s : itf) : list bool := [isProvenOptimal s; isProvenPrimalInfeasible s; isProvenDualInfeasible s; isAbandoned s].
Definition exactly_one (l : list bool) : Prop := length (filter (fun b => b) l) = 1%nat.
Definition C63_full : Prop := forall ans s s' c, n_st (ans (o_calls s)) = solverReturnStatus c -> o_abort s = false -> o_pret s = false ->
  solveAndCheckErrors ans s = Ok s' -> exactly_one (answers_of s').
