(** What a user expects of the diving heuristics, stated without the model's helpers. *)
From Verif Require Import Base Arr Nlp Oad_Model Div_Model.
#[local] Open Scope Q_scope.

(** The point lies between the bounds. *)
Definition in_box (b : cols) (x : list Q) : Prop := in_bounds (k_lo b) (k_up b) x.
(** The box [b] is part of the box [b0]. *)
Definition part_of (b0 b : cols) : Prop := forall x, in_box b x -> in_box b0 x.
(** Each integer variable is within [tol] of an integer. *)
Definition integral (tol : Q) (ints : list bool) (x : list Q) : Prop :=
  forall i, nth i ints false = true -> exists z : Z, Qabs (nth i x 0 - inject_Z z) <= tol.
(** A constraint holds up to [t]. *)
Definition row_within (t : Q) (l u : ext) (v : Q) : Prop := lo_ok l (v + t) /\ up_ok u (v - t).
Definition rows_within (p : dprob) (t : Q) (gs : list Q) : Prop :=
  forall i, (i < length (d_gl p))%nat -> row_within t (nth i (d_gl p) MInf) (nth i (d_gu p) PInf) (nth i gs 0).
(** The tolerance a dive may use: the smallest one not below 1e-6 that the constraint values
    of the relaxation already respect. *)
Definition dive_tol (p : dprob) (gs : list Q) (t : Q) : Prop :=
  (1 # 1000000) <= t /\ rows_within p t gs /\
  forall t', (1 # 1000000) <= t' -> rows_within p t' gs -> t <= t'.

(** Array sizes as get_nlp_info announces them. *)
Definition sizes (p : dprob) (b : cols) : Prop :=
  length (k_lo b) = length (d_ints p) /\ length (k_up b) = length (d_ints p) /\ length (d_gu p) = length (d_gl p).
(** The NLP solver reports success only with a point inside the bounds it was given. *)
Definition honest (S' : solver) : Prop := forall k b x, S' k b = (true, x) -> in_box b x.

(** The solution reported. *)
Definition better_solution (p : dprob) (tol val : Q) (gs : list Q) (r : dresult) : Prop :=
  integral tol (d_ints p) (r_better r) /\
  (exists t, dive_tol p gs t /\ rows_within p t (d_g p (r_better r))) /\
  r_value r = d_f p (r_better r) /\ r_value r < val.

(** C41, whatever the NLP solver answers. *)
Definition C41_full : Prop :=
  forall fuel p S' R tol pct node howOften pass b0 x0 gs val old r,
  sizes p b0 -> 0 <= tol ->
  dive fuel p S' R tol pct node howOften pass b0 x0 gs val old = Ok r ->
  (r_found r = true -> better_solution p tol val gs r /\ in_box b0 (r_better r)) /\
  (r_found r = false -> r_value r = val /\ r_better r = old) /\
  Forall (part_of b0) (r_log r).

(** C85: the dive comes to an end.  The rule is only required to return an integer variable
    whose value is not integral. *)
Definition picks_fractional (tol : Q) (p : dprob) (R : rule) : Prop :=
  forall it b x, length x = length (d_ints p) -> length (k_lo b) = length (d_ints p) -> length (k_up b) = length (d_ints p) ->
  (exists best, R it b x = Ok best) /\
  forall j up, R it b x = Ok (Some (j, up)) ->
  nth j (d_ints p) false = true /\ forall z : Z, tol < Qabs (nth j x 0 - inject_Z z).
(** Integer variables have finite bounds. *)
Definition bounded_ints (p : dprob) (b : cols) : Prop :=
  forall i, nth i (d_ints p) false = true -> (exists q, nth i (k_lo b) MInf = Fin q) /\ (exists q, nth i (k_up b) PInf = Fin q).
Definition rows_sized (p : dprob) : Prop := forall x, length x = length (d_ints p) -> length (d_g p x) = length (d_gl p).
(** The two sides of a constraint do not exclude each other. *)
Definition rows_open (p : dprob) : Prop :=
  forall i, (i < length (d_gl p))%nat -> exists v, lo_ok (nth i (d_gl p) MInf) v /\ up_ok (nth i (d_gu p) PInf) v.
Definition C85_claim (bnd : dprob -> cols -> Prop) : Prop :=
  forall p S' R tol pct node howOften pass b0 x0 gs val old,
  sizes p b0 -> rows_sized p -> 0 <= tol -> honest S' -> picks_fractional tol p R -> bnd p b0 ->
  in_box b0 x0 -> length gs = length (d_gl p) -> rows_open p ->
  exists N, forall fuel, (N <= fuel)%nat ->
  exists r, dive fuel p S' R tol pct node howOften pass b0 x0 gs val old = Ok r.
Definition C85_full : Prop := C85_claim (fun _ _ => True).

(** C86: the fractional rule.  Rounding variable [i] down (up) is possible. *)
Definition can_round (b : cols) (x : list Q) (i : nat) (up : bool) : Prop :=
  if up then up_ok (nth i (k_up b) PInf) (inject_Z (Qceiling (nth i x 0)))
  else lo_ok (nth i (k_lo b) MInf) (inject_Z (Qfloor (nth i x 0))).
Definition dist (x : list Q) (i : nat) (up : bool) : Q :=
  if up then inject_Z (Qceiling (nth i x 0)) - nth i x 0 else nth i x 0 - inject_Z (Qfloor (nth i x 0)).
Definition candidate (tol : Q) (ints : list bool) (x : list Q) (i : nat) : Prop :=
  nth i ints false = true /\ forall z : Z, tol < Qabs (nth i x 0 - inject_Z z).
(** [nth i ints false = true] also says that i is a variable. *)

(** C87: the vector-length rule.  The number of constraints a variable occurs in is the
    number of Jacobian entries of its column. *)
Definition occurrences (js : list nat) (i : nat) : nat := count_occ Nat.eq_dec js i.
(** The change of the objective, to first order, of a rounding, per constraint touched. *)
Definition cost (js : list nat) (gf : list Q -> list Q) (x : list Q) (i : nat) (up : bool) : Q :=
  (nth i (gf x) 0 * dist x i up + (1 # 1000000)) / inject_Z (Z.of_nat (S (occurrences js i))).
(** The rounding the rule wants: against the objective if possible. *)
Definition wanted (b : cols) (gf : list Q -> list Q) (x : list Q) (i : nat) (up : bool) : Prop :=
  can_round b x i up /\
  if up then 0 <= nth i (gf x) 0 \/ ~ can_round b x i false else nth i (gf x) 0 < 0 \/ ~ can_round b x i true.
Definition C87_claim (pre : list bool -> list nat -> cols -> list Q -> Prop) : Prop :=
  forall tol ints js gf it b x,
  0 <= tol -> length x = length ints -> length (gf x) = length ints -> length (k_lo b) = length ints -> length (k_up b) = length ints ->
  Forall (fun j => (j < length ints)%nat) js -> in_box b x ->
  (forall i up, nth i ints false = true -> cost js gf x i up < dmax) ->
  pre ints js b x ->
  exists best, vectorLength_rule tol ints js gf it b x = Ok best /\
  match best with
  | None => forall i, ~ candidate tol ints x i
  | Some (j, up) =>
      candidate tol ints x j /\ wanted b gf x j up /\
      forall i up', candidate tol ints x i -> wanted b gf x i up' -> cost js gf x j up <= cost js gf x i up'
  end.
Definition C87_full : Prop := C87_claim (fun _ _ _ _ => True).
(** Entries of one column stand together. *)
Definition grouped (js : list nat) : Prop :=
  forall a j m c, js = a ++ j :: m ++ j :: c -> Forall (fun k => k = j) m.
(** Finite bounds of integer variables are integers. *)
Definition integer_bounds (ints : list bool) (b : cols) : Prop :=
  forall i, nth i ints false = true ->
  (forall q, nth i (k_lo b) MInf = Fin q -> exists z : Z, q == inject_Z z) /\
  (forall q, nth i (k_up b) PInf = Fin q -> exists z : Z, q == inject_Z z).
