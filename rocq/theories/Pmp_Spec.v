(** Specifications for the feasibility pump for MINLPs and the frame of the decomposition methods (C153-C158). *)
From Verif Require Import Base Arr Nlp Oad_Model Pmp_Model.
#[local] Open Scope Q_scope.

(** ** The problem
    [F]: the integer feasible points of the node's problem; [f]: the objective.  A row is valid if it holds at every point of F
    with its objective value in the objective column. *)
Definition row_holds (r : row) (z : list Q) : Prop := dot (r_co r) z <= r_ub r.
Definition row_valid (F : list Q -> Prop) (f : list Q -> Q) (r : row) : Prop := forall y, F y -> row_holds r (y ++ [f y]).
Definition is_integral (v : Q) : Prop := exists z, v == inject_Z z.
Definition at_ints (P : Q -> Prop) (ints : list bool) (z : list Q) : Prop :=
  forall i, nth_error ints i = Some true -> exists v, nth_error z i = Some v /\ P v.
(** What the solvers and the linearisation promise.  [box]: the column bounds of the LP. *)
Record honest (F : list Q -> Prop) (f : list Q -> Q) (box : list Q -> Prop) (ints : list bool) (O : orac) : Prop := mkHonest {
  ho_obj : forall x, row_valid F f (o_obj O x);
  ho_oa : forall x r, In r (o_oa O x) -> row_valid F f r;
  ho_in : forall y, F y -> box (y ++ [f y]) /\ at_ints is_integral ints (y ++ [f y]);
  (* no solution and a proof: no integral point of the LP has its objective column at most the bound *)
  ho_mip : forall k rows obj cap, o_mip O k rows obj cap = (None, true) -> forall y, box (y ++ [f y]) -> at_ints is_integral ints (y ++ [f y]) ->
    (forall r, In r rows -> row_holds r (y ++ [f y])) -> ext_ltb cap (Fin (f y)) = true;
  (* a solution returned is integral up to 1e-06 *)
  ho_sol : forall k rows obj cap z o, o_mip O k rows obj cap = (Some z, o) -> at_ints (fun v => exists i, Qabs (v - inject_Z i) <= 1 # 1000000) ints z }.

(** ** C153: a conclusion of the pump is right. *)
Definition none_better (F : list Q -> Prop) (f : list Q -> Q) (c : ext) : Prop := forall y, F y -> ext_ltb c (Fin (f y)) = true.
Definition C153_full : Prop := forall F f box fuel O q hascol ints rows bnd x cutoff sols local s,
  honest F f box ints O -> (forall r, In r rows -> row_valid F f r) ->
  pump fuel O q hascol ints rows bnd x cutoff sols local = Ok (Normal, s) -> pump_bound q s = PInf -> none_better F f (s_cut s).

(** ** C154: the objective of the pump's MILP ranks points by their distance to the rounded point. *)
Definition rounds_to (x : Q) (r : Z) : Prop := inject_Z r - (1 # 2) <= x < inject_Z r + (1 # 2).
(** Distance, on the integer columns, to the rounded point [r]. *)
Fixpoint l1 (ints : list bool) (r : list Z) (z : list Q) : Q :=
  match ints, r, z with
  | b :: ints, r0 :: r, z0 :: z => (if b : bool then Qabs (z0 - inject_Z r0) else 0) + l1 ints r z
  | _, _, _ => 0
  end.
Fixpoint rounded_to (ints : list bool) (x : list Q) (r : list Z) : Prop :=
  match ints, x, r with
  | [], [], [] => True
  | b :: ints, x0 :: x, r0 :: r => (b = true -> rounds_to x0 r0) /\ rounded_to ints x r
  | _, _, _ => False
  end.
Definition is_binary (v : Q) : Prop := v == 0 \/ v == 1.
Definition in01 (v : Q) : Prop := 0 <= v <= 1.
(** The MILP's objective ranks any two candidate points as their distance does. *)
Definition ranks (P : Q -> Prop) (ints : list bool) (r : list Z) (obj : list Q) : Prop :=
  forall z z', length z = length ints -> length z' = length ints -> at_ints P ints z -> at_ints P ints z' ->
  (dot obj z <= dot obj z' <-> l1 ints r z <= l1 ints r z').
Definition C154_full : Prop := forall ints x r obj, rounded_to ints x r -> at_ints in01 ints x -> fp_obj ints x = Ok obj -> ranks is_binary ints r obj.

(** ** C155: solutions handed over. *)
(** [l]: last first.  The first one is below the cutoff given, each later one below its predecessor. *)
Fixpoint improving (c0 : ext) (l : list (list Q * Q)) : Prop :=
  match l with
  | [] => True
  | [(_, v)] => ext_ltb (Fin v) c0 = true
  | (_, v) :: (((_, w) :: _) as l') => v < w /\ improving c0 l'
  end.
(** Integer columns are fixed at an integer, up to the tolerance. *)
Definition nearly_fixed (tol : Q) (n : nat) (ints : list bool) (b : cols) : Prop := forall j, (j < n)%nat -> nth_error ints j = Some true ->
  exists z, (nth_error (k_lo b) j = Some (Fin (inject_Z z)) /\ nth_error (k_up b) j = Some (Fin (inject_Z z))) \/
            exists l u, nth_error (k_lo b) j = Some (Fin l) /\ nth_error (k_up b) j = Some (Fin u) /\ l == inject_Z z - tol /\ u == inject_Z z + tol.
(** No assertion fails because a solution is found. *)
Definition C155_full : Prop := forall F f box fuel O q hascol ints rows bnd x cutoff sols local,
  honest F f box ints O -> 0 < q_inc q -> q_tol q = 1 # 1000000 -> (forall y, o_oa O y <> []) ->
  pump fuel O q hascol ints rows bnd x cutoff sols local <> AssertFail.

(** ** C156: the pump ends, and leaves the bounds of the NLP as they were, however it is left. *)
Definition C156_full : Prop := forall O q hascol ints rows bnd x cutoff sols local,
  exists fuel, pump fuel O q hascol ints rows bnd x cutoff sols local <> Diverges /\
    forall e s, pump fuel O q hascol ints rows bnd x cutoff sols local = Ok (e, s) -> s_bnd s = bnd.

(** ** C157: solutions are counted. *)
Definition total (g : frame) : Z := (g_count g + if g_wait g then 1 else 0)%Z.
(** performOa is reached in the call. *)
Definition found_in (c : call) (g : frame) : nat :=
  if (c_feasible c && negb (Z.eqb (c_node c) (g_node g) && existsb (violated (c_point c)) (g_saved g)) && (c_integer c || c_local c))%bool
  then h_found (c_perf c) else 0.
Fixpoint found_all (cs : list call) (g : frame) : nat :=
  match cs with [] => 0 | c :: cs => (found_in c g + found_all cs (snd (generate c g)))%nat end.
Definition C157_full : Prop := forall cs g, (forall c, In c cs -> h_throw (c_perf c) = false) ->
  total (snd (generates cs g)) = (total g + Z.of_nat (found_all cs g))%Z.

(** ** C158: cuts that come back. *)
Definition forced (r : bool * option row * list row) : option row := snd (fst r).
Fixpoint count_forced (l : list (bool * option row * list row)) : nat :=
  match l with [] => 0 | r :: l => ((match forced r with Some _ => 1 | None => 0 end) + count_forced l)%nat end.
Fixpoint count_saved (cs : list call) : nat := match cs with [] => 0 | c :: cs => (length (h_saved (c_perf c)) + count_saved cs)%nat end.
