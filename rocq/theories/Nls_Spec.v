(** Specifications for the solver wrappers: C33-C35, C65-C68. *)
From Verif Require Import Base Arr Itf_Model Nls_Model.
#[local] Open Scope Q_scope.

(** ** C33 *)
(** Some variable can move by more than 1e-5. *)
Definition can_move (xl xu : list Q) : Prop :=
  exists i l u, nth_error xl i = Some l /\ nth_error xu i = Some u /\ u - l > 1 # 100000.
Definition consistent (xl xu : list Q) : Prop := Forall2 Qle xl xu.
(** Every constraint value is within 1e-7 of its bounds. *)
Definition con_ok (gl gu g : list Q) : Prop :=
  forall i v l u, nth_error g i = Some v -> nth_error gl i = Some l -> nth_error gu i = Some u ->
    l - (1 # 10000000) <= v <= u + (1 # 10000000).
(** Lengths agree and evaluations at the fixed point succeed. *)
Definition zprob_ok (P : zprob) : Prop :=
  length (z_xu P) = length (z_xl P) /\ length (z_gu P) = length (z_gl P) /\
  (exists v, z_f P (z_xl P) = Some v) /\ (exists g, z_g P (z_xl P) = Some g /\ length g = length (z_gl P)).
Definition C33_full : Prop := forall P, zprob_ok P ->
  exists r, zeroDimension P = Ok r /\
    (r = None <-> can_move (z_xl P) (z_xu P)) /\
    forall st fin, r = Some (st, fin) ->
      (st = solvedOptimal \/ st = provenInfeasible) /\
      forall g, z_g P (z_xl P) = Some g -> (st = solvedOptimal <-> consistent (z_xl P) (z_xu P) /\ con_ok (z_gl P) (z_gu P) g).

(** ** C34: reading a row packed matrix *)
(** The Fortran solvers read: la[0] is the position of the row pointers; the entries of a row are
    at positions p, p+1, ..., q-1, where p and q are consecutive pointers; position k has column
    la[k] and value a[k-1]. *)
Fixpoint segment (p k : nat) (la : arr Z) (a : list Q) : outcome (list (Z * Q)) :=
  match k with
  | O => Ok []
  | S k' => do c <- aget p la; do v <- rd (p - 1) a; do r <- segment (S p) k' la a; Ok ((c, v) :: r)
  end.
(** Row [r] (from 0), counting pointers from la[0]. *)
Definition packed_row (la : arr Z) (a : list Q) (r : nat) : outcome (list (Z * Q)) :=
  do l0 <- aget 0 la;
  do p <- aget (Z.to_nat l0 + r) la;
  do q <- aget (S (Z.to_nat l0 + r)) la;
  if (Z.leb 1 p && Z.leb p q)%bool then segment (Z.to_nat p) (Z.to_nat (q - p)) la a else AssertFail.
(** Triplets of row [r] with their columns, both counted from 1; [idx] is 1 when the triplets count from 0. *)
Definition triplet := (Z * Z * Q)%type.
Definition row_of (idx : Z) (r : nat) (ts : list triplet) : list (Z * Q) :=
  map (fun t => (snd (fst t) + idx, snd t)%Z) (filter (fun t => Z.eqb (fst (fst t) + idx) (Z.of_nat r)) ts).
(** The same with the larger index as row. *)
Definition lower (t : triplet) : triplet := (Z.max (fst (fst t)) (snd (fst t)), Z.min (fst (fst t)) (snd (fst t)), snd t).
Definition triplets (rows cols : list Z) (vals : list Q) : list triplet := combine (combine rows cols) vals.
Definition in_rows (m : nat) (idx : Z) (rows : list Z) : Prop := Forall (fun r => 1 <= r + idx <= Z.of_nat m)%Z rows.
(** std::sort. *)
Record strict_weak (lt : nat -> nat -> bool) : Prop := {
  sw_irr : forall a, lt a a = false;
  sw_trans : forall a b c, lt a b = true -> lt b c = true -> lt a c = true;
  sw_incomp : forall a b c, lt a b = false -> lt b c = false -> lt a c = false }.
Inductive ordered (lt : nat -> nat -> bool) : list nat -> Prop :=
| ord_nil : ordered lt []
| ord_cons : forall a l, Forall (fun b => lt b a = false) l -> ordered lt l -> ordered lt (a :: l).
Definition sort_ok (sort : sorter) : Prop := forall lt l, strict_weak lt -> Permutation l (sort lt l) /\ ordered lt (sort lt l).

(** ** C35 *)
(** The meaning of filterSQP's codes: 1 unbounded, 2-4 infeasible (linear part, nonlinear, or the
    quadratic problem at a feasible point), 5, 6, 8 stopped before convergence, 7 failed
    evaluation, others internal. *)
Definition code_meaning (c : Z) : rstatus :=
  if Z.eqb c 0 then solvedOptimal else if Z.eqb c 1 then sUnbounded
  else if (Z.leb 2 c && Z.leb c 4)%bool then provenInfeasible
  else if (Z.eqb c 5 || Z.eqb c 6 || Z.eqb c 8)%bool then iterationLimit
  else if Z.eqb c 7 then externalException else sException.
Definition qp_code_meaning (c : Z) : rstatus :=
  if Z.eqb c 0 then solvedOptimal else if Z.eqb c 1 then sUnbounded
  else if (Z.leb 2 c && Z.leb c 3)%bool then provenInfeasible else sException.
(** The status told to the problem agrees with the status returned. *)
Definition agrees (s : rstatus) (r : sreturn) : Prop :=
  match s with
  | solvedOptimal => r = SUCCESS_ | sUnbounded => r = DIVERGING_ITERATES_ | provenInfeasible => r = LOCAL_INFEASIBILITY_
  | iterationLimit => r = MAXITER_EXCEEDED_ | _ => r = INTERNAL_ERROR_
  end.
Definition C35_full : Prop := forall c,
  (fst (filter_status c) = code_meaning c /\ agrees (fst (filter_status c)) (snd (filter_status c))) /\
  (fst (bqpd_status c) = qp_code_meaning c /\ agrees (fst (bqpd_status c)) (snd (bqpd_status c))).

(** ** C65: multipliers *)
(** filterSQP's sign convention for the multiplier of a variable at x in [l,u]. *)
Definition filter_sign (l u x lam : Q) : Prop :=
  (0 < lam -> x == l) /\ (lam < 0 -> x == u).

(** ** C67 *)
Definition ws_eq (a b : fws) : Prop := a = b.
Definition C67_full : Prop := forall new old, w_empty new = false -> w_empty old = false ->
  (do d <- generateDiff new old; applyDiff d old) = Ok new.

(** ** C68 *)
(** Where the next solve must start: the last warm start set, if not empty, since the last
    disabling; otherwise the problem's own starting point. *)
Definition is_empty_ws (w : fws) : bool := match w_x w with [] => true | _ => false end.
Fixpoint expected (warm : option (list Q)) (ops : list fop) : list (list Q * Z) :=
  match ops with
  | [] => []
  | SetWarm None :: ops' => expected warm ops'
  | SetWarm (Some w) :: ops' => expected (if is_empty_ws w then None else Some (w_x w)) ops'
  | Disable :: ops' => expected None ops'
  | Solve x0 _ :: ops' | Resolve x0 _ :: ops' =>
      match warm with Some x => (x, (-1)%Z) | None => (x0, 0%Z) end :: expected warm ops'
  end.
(** Points have the problem's dimension; warm starts are those the solver gives out (empty or full);
    a re-solve follows a solve or a warm start. *)
Fixpoint ops_ok (n : nat) (cached : bool) (ops : list fop) : Prop :=
  match ops with
  | [] => True
  | SetWarm w :: ops' => (match w with Some w => w_empty w = false /\ (w = getEmptyWarmStart \/ length (w_x w) = n) | None => True end) /\ ops_ok n true ops'
  | Disable :: ops' => ops_ok n cached ops'
  | Solve x0 sol :: ops' => length x0 = n /\ length sol = n /\ ops_ok n true ops'
  | Resolve x0 sol :: ops' => cached = true /\ length x0 = n /\ length sol = n /\ ops_ok n true ops'
  end.
Definition C68_full : Prop := forall n ops, ops_ok n false ops -> fs_run n ops fs_init = Ok (expected None ops).
