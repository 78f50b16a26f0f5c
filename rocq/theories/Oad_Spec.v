(** Specifications for the outer-approximation decomposition (C22, C25, C26, C59, C60). *)
From Verif Require Import Base Arr Oad_Model.
#[local] Open Scope Q_scope.

(** z is the integer nearest to v (the upper one in a tie). *)
Definition is_nearest (v : Q) (z : Z) : Prop := - (1 # 2) <= inject_Z z - v <= 1 # 2 /\ ~ inject_Z z - v == - (1 # 2).

(** ** C25 *)
(** Bounds of column j are lo, up. *)
Definition bounds_are (s : cols) (j : nat) (l u : ext) : Prop := nth_error (k_lo s) j = Some l /\ nth_error (k_up s) j = Some u.
Definition same_bounds (s s' : cols) (j : nat) : Prop :=
  nth_error (k_lo s') j = nth_error (k_lo s) j /\ nth_error (k_up s') j = nth_error (k_up s) j.
Definition is_int (ints : list bool) (j : nat) : Prop := nth_error ints j = Some true.
(** Column j has value v, integral up to tol and not too large. *)
Definition fixable (sol : list Q) (tol : Q) (j : nat) (z : Z) : Prop :=
  exists v, nth_error sol j = Some v /\ is_nearest v z /\ Qabs (v - inject_Z z) <= tol /\ Qabs (inject_Z z) <= 10000000000.
(** All integer columns are fixed at the nearest integer and the others are untouched. *)
Definition all_fixed (n : nat) (ints : list bool) (sol : list Q) (s s' : cols) : Prop := forall j, (j < n)%nat ->
  (is_int ints j -> exists v z, nth_error sol j = Some v /\ is_nearest v z /\ bounds_are s' j (Fin (inject_Z z)) (Fin (inject_Z z))) /\
  (~ is_int ints j -> same_bounds s s' j).
(** Arrays of the right length. *)
Definition cols_ok (n : nat) (ints : list bool) (sol : list Q) (s : cols) : Prop :=
  length ints = n /\ length sol = n /\ length (k_lo s) = n /\ length (k_up s) = n.
(** The full claim. *)
Definition C25_full : Prop := forall n ints sol tol s, cols_ok n ints sol s -> 0 <= tol ->
  (forall th s', fixIntegers n 0 ints sol tol s = Ok (th, s') ->
     (th = false -> all_fixed n ints sol s s') /\ (th = true -> forall j, (j < n)%nat -> same_bounds s s' j)) /\
  (forall s1 s2, fixIntegers n 0 ints sol tol s = Ok (false, s1) -> relaxIntegers n 0 ints tol s1 = Ok s2 ->
     (forall j, (j < n)%nat -> same_bounds s s2 j) /\
     (forall s3, refixIntegers true n ints tol s2 = Ok (true, s3) -> all_fixed n ints sol s s3)).
(** Bounds moved out by tol. *)
Definition widened (tol : Q) (s s' : cols) (j : nat) : Prop :=
  exists l u, bounds_are s j l u /\ bounds_are s' j (eplus l (- tol)) (eplus u tol).

(** ** C26 *)
Definition C26_full : Prop := forall (R W : Type) (s : lpst R W) ops s',
  restore (manip true true true true s) (lp_run ops s) = Ok s' ->
  p_rows s' = p_rows s /\ p_cols s' = p_cols s /\ p_cut s' = p_cut s.

(** ** C22 *)
Definition C22_full : Prop := forall ub decr, 0 < decr -> decr <= 1 -> new_cutoff ub decr < ub.

(** ** C59, C60: the problem being solved.
    [val p] is the optimal value with the integer variables fixed at p, if feasible. *)
Definition problem := point -> option Q.
(** Nothing of value below the cutoff is missed by what the solvers answer.  A point is
    closed if its fixed problem is infeasible or has a value at least the cutoff. *)
Definition closed (val : problem) (c : ext) (p : point) : Prop :=
  match val p with None => True | Some f => ext_ltb (Fin f) c = false end.
Record sound (val : problem) (O : oracle) : Prop := mkSound {
  so_nlp : forall p, o_nlp O p = val p;
  (* the lower bound of the sub-MIP is valid for every point with a value below the cutoff *)
  so_low : forall vis c p f, val p = Some f -> ext_ltb (Fin f) c = true -> ext_ltb (Fin f) (s_low (o_sub O vis c)) = false;
  (* the sub-MIP never returns a point at which the cuts were generated and which is closed *)
  so_sub : forall vis c p, s_sol (o_sub O vis c) = Some p -> In p vis -> ~ closed val c p;
  (* the same for the LP, if its value is below the cutoff *)
  so_lp : forall vis c p, let l := o_lp O vis c in
    l_opt l = true -> l_lim l = false -> ext_ltb (Fin (l_obj l)) c = true -> l_int l = Some p -> In p vis -> ~ closed val c p
}.
(** f is below the incumbent value ub by more than the relative gap allows. *)
Definition much_better (gap : Q) (ub : ext) (f : Q) : Prop :=
  match ub with
  | Fin u => if Qeq_bool u 0 then f <= - gap * (1 # 10000000000) else f <= u - gap * Qabs u
  | _ => True
  end.
(** The whole claim of C59 for one run: either nothing was found, or the upper bound is
    the value of a visited point and the cutoff is strictly below it; visited points are
    closed; and a returned bound at or above the cutoff means that no point with a value
    below the cutoff is much better than the upper bound. *)
Definition oa_right (val : problem) (q : params) (c0 : ext) (s : oast) : Prop :=
  ((a_ub s = c0 /\ a_cut s = c0) \/
   exists p f, In p (a_vis s) /\ val p = Some f /\ a_ub s = Fin f /\ ext_ltb (Fin f) c0 = true /\
               a_cut s = Fin (new_cutoff f (q_decr q)) /\ new_cutoff f (q_decr q) < f) /\
  (forall p, In p (a_vis s) -> closed val (a_cut s) p) /\
  (ext_ltb (a_mb s) (a_cut s) = false -> forall p f, val p = Some f -> ext_ltb (Fin f) (a_cut s) = true ->
     ~ much_better (q_gap q) (a_ub s) f).
(** The run ends whatever the solvers answer. *)
Definition C60_full : Prop := forall val O q c0 sols local, sound val O -> 0 < q_decr q ->
  (exists U : list point, forall vis c p, s_sol (o_sub O vis c) = Some p -> In p U) ->
  exists fuel, performOa fuel O q c0 sols local <> Diverges.
(** What the feasibility checker leaves behind: as above, and it never claims a bound. *)
Definition fc_right (val : problem) (decr : Q) (c0 : ext) (s : fcst) : Prop :=
  ((f_ub s = c0 /\ f_cut s = c0) \/
   exists p f, In p (f_vis s) /\ val p = Some f /\ f_ub s = Fin f /\ ext_ltb (Fin f) c0 = true /\
               f_cut s = Fin (new_cutoff f decr)) /\
  (forall p, In p (f_vis s) -> closed val (f_cut s) p) /\ f_mb s = MInf.

(** No two consecutive entries of a list of points are the same. *)
Fixpoint no_repeat (l : list (list Z)) : Prop :=
  match l with a :: l' => match l' with b :: _ => a <> b /\ no_repeat l' | [] => True end | [] => True end.
