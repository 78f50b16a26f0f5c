(** Inner approximations of separable problems, the guess of the best node, and the cut generators of the sub-MIP solver.
    experimental/Separable/SepaHeuristicInnerApproximation.cpp 109-244 (solution), 248-319 (getMyInnerApproximation), 321-495 (extractInnerApproximation);
    src/CbcBonmin/BonGuessHeuristic.cpp 23-73; src/Algorithms/BonCbcLpStrategy.cpp 34-161; src/Algorithms/BonSubMipSolver.cpp 44-104.
    Simplifications.  Doubles are exact rationals; infinities are MInf and PInf.  Rows, packed vectors and cuts are those of Spa_Model.
    A call of exit is the outcome Thrown.  The branch-and-bound on the MIP is a function of its rows, sides and bounds; of its result the
    first n values are kept (std::copy of numberColumns values), so a variable added for the objective does not appear.  Left out:
    messages, memory, the objective of the MIP. *)
From Coq Require Import String.
From Verif Require Import Base Arr Spa_Model.
From Verif Require Set_Model.
#[local] Open Scope Q_scope.

(** * Chords *)
Definition same_tol : Q := 1 # 100000000.
Definition ub_rel : Q := 1 # 1000000.
(** The loop over the gradient entries at x2, SepaHeuristicInnerApproximation.cpp 277-292: the row of the cut, its upper side and [add]. *)
Fixpoint chord_entries (g g2 : Q) (x x2 : list Q) (es : pvec) (st : pvec * Q * bool) : outcome (pvec * Q * bool) :=
  match es with
  | [] => Ok st
  | (j, v) :: es =>
      let '(p, ub, add) := st in
      do xj <- rd j x; do yj <- rd j x2;
      let diff := xj - yj in
      if Qle_bool same_tol (Qabs diff) then
        let a := (g - g2) / diff in
        do p <- pv_insert j a p;
        chord_entries g g2 x x2 es (p, (a * xj - g) - Qabs (a * xj - g) * ub_rel, true)
      else
        do p <- pv_insert j v p; chord_entries g g2 x x2 es (p, ub, add)
  end.
(** getMyInnerApproximation, 248-319; None: no cut, false is returned. *)
Definition chord (r : row) (x x2 : list Q) : outcome (option cut) :=
  do st <- chord_entries (r_g r x) (r_g r x2) x x2 (r_j r x2) ([], 0, false);
  let '(p, ub, add) := st in
  if add then
    match r_id r with
    | Some (S z) => do p <- pv_insert (S z) (- ub) p; Ok (Some (mkCut p MInf (Fin 0)))
    | _ => Ok (Some (mkCut p MInf (Fin ub)))
    end
  else Ok None.

(** The points, 434-463: bounds clipped to -1000 and 100; variables that occur linearly stay at 0. *)
Definition clip_low (l : ext) : Q := match l with Fin l => if Qltb l (-1000) then -1000 else l | MInf => -1000 | PInf => 0 end.
Definition clip_high (u : ext) : Q := match u with Fin u => if Qltb 100 u then 100 else u | PInf => 100 | MInf => 0 end.
Definition zero_lin (lin : list bool) (v : list Q) : list Q := map (fun p => if fst p : bool then 0 else snd p) (combine lin v).
Definition lows (lin : list bool) (cl : list ext) : list Q := zero_lin lin (map clip_low cl).
Definition highs (lin : list bool) (cu : list ext) : list Q := zero_lin lin (map clip_high cu).
Definition steps (nb : nat) (lo up : list Q) : list Q := map (fun p => (snd p - fst p) / inject_Z (Z.of_nat nb)) (combine lo up).
(** The chords of all rows between two points, 472-479 ([strict]) and 484-487. *)
Fixpoint chords (strict : bool) (rows : list row) (x x2 : list Q) : outcome (list cut) :=
  match rows with
  | [] => Ok []
  | r :: rows =>
      if r_linear r then chords strict rows x x2
      else do o <- chord r x x2;
           match o with
           | Some c => do cs <- chords strict rows x x2; Ok (c :: cs)
           | None => if strict then Thrown else chords strict rows x x2
           end
  end.
(** 466-482: from point k on, [todo] chords. *)
Fixpoint chain (rows : list row) (pt : nat -> list Q) (todo k : nat) : outcome (list cut) :=
  match todo with
  | O => Ok []
  | S todo => do cs <- chords true rows (pt k) (pt (S k)); do ds <- chain rows pt todo (S k); Ok (cs ++ ds)%list
  end.
Definition inner_cuts (nb : nat) (lin : list bool) (cl cu : list ext) (rows : list row) : outcome (list cut) :=
  let lo := lows lin cl in let up := highs lin cu in
  let pt := shift lo (steps nb lo up) in
  do cs <- chain rows pt (nb - 1) 0; do ds <- chords false rows (pt (nb - 1)%nat) up; Ok (cs ++ ds)%list.
(** The other rows, 367-404: gradient at x and the sides. *)
Definition linear_cuts (rows : list row) (x : list Q) : list cut :=
  map (fun r => mkCut (r_j r x) (r_lo r) (r_up r)) (filter r_linear rows).
Definition extractInnerApproximation (nb : nat) (lin : list bool) (cl cu : list ext) (rows : list row) (x : list Q) : outcome (list cut) :=
  do cs <- inner_cuts nb lin cl cu rows; Ok (linear_cuts rows x ++ cs)%list.

(** * The heuristic, 109-244 *)
Section Heuristic.
Variable mip : list cut -> list ext -> list ext -> option (list Q).
Variable eval_f : list Q -> Q.
(** The code returned, the value and the solution. *)
Definition inner_solution (nb : nat) (lin : list bool) (cl cu : list ext) (rows : list row) (x_sol : option (list Q))
    (node pass often : Z) (value : Q) (better : list Q) : outcome (Z * Q * list Q) :=
  if (negb (node =? 0) || (1 <? pass))%Z%bool then Ok (0%Z, value, better)
  else if (often =? 0)%Z then Thrown                               (* remainder by 0 *)
  else match x_sol with
       | None => NullDeref
       | Some x =>
           do cs <- extractInnerApproximation nb lin cl cu rows x;
           match mip cs cl cu with
           | None => Ok (0%Z, value, better)
           | Some y => let y := firstn (length cl) y in
                       if Qltb (eval_f y) value then Ok (1%Z, eval_f y, y) else Ok (0%Z, value, better)
           end
       end.
End Heuristic.

(** * The guess, BonGuessHeuristic.cpp 23-73 *)
(** One branching object: changes and numbers of the pseudo-costs, and the estimates of the object. *)
Record pc := mkPc { up_tot : Q; up_num : Z; down_tot : Q; down_num : Z; up_est : Q; down_est : Q }.
Definition zsum (l : list Z) : Z := fold_right Z.add 0%Z l.
Definition one_guess (uavg davg : Q) (p : pc) : Q :=
  let u := if (up_num p =? 0)%Z then up_est p * uavg else up_est p * up_tot p / inject_Z (up_num p) in
  let d := if (down_num p =? 0)%Z then down_est p * davg else down_est p * down_tot p / inject_Z (down_num p) in
  if Qltb d u then d else u.
(** [method]: no branching method; a branching method without pseudo-costs; one with them.  [nobj]: objects of the model.
    PInf stands for COIN_DBL_MAX.  The code returned and the value. *)
Inductive method := NoMethod | OtherMethod | PseudoCosts (ps : list pc).
Definition guess (m : method) (nobj : nat) (obj : Q) : outcome (Z * ext) :=
  match m with
  | NoMethod => NullDeref
  | OtherMethod => Ok ((-1)%Z, Fin obj)
  | PseudoCosts ps =>
      if negb (Nat.eqb (List.length ps) nobj) then AssertFail
      else
        let nu := zsum (map up_num ps) in let nd := zsum (map down_num ps) in
        if ((nu =? 0) || (nd =? 0))%Z%bool then Ok ((-1)%Z, PInf)
        else
          let uavg := qsum (map up_tot ps) / inject_Z nu in let davg := qsum (map down_tot ps) / inject_Z nd in
          Ok ((-1)%Z, Fin (fold_left (fun s p => s + one_guess uavg davg p) ps obj))
  end.

(** * The cut generators of the sub-MIP solver *)
#[local] Open Scope string_scope.
Section Strategy.
Variable reg : list (string * Z).        (* registered integer options and their defaults *)
(** Ipopt's GetIntegerValue: an option that is not registered makes it throw. *)
Definition get_reg (p n : string) (o : Set_Model.opts) : outcome (Z * bool) :=
  match List.find (fun e => String.eqb (fst e) n) reg with
  | None => Thrown
  | Some (_, d) => match Set_Model.look p n (Set_Model.o_int o) with Some v => Ok (v, true) | None => Ok (d, false) end
  end.
(** One frequency, BonCbcLpStrategy.cpp 63-65. *)
Definition freq (p n : string) (o : Set_Model.opts) : outcome Z :=
  do ' (v, set) <- get_reg p n o; Ok (if set : bool then v else (-99)%Z).
Fixpoint freqs (p : string) (o : Set_Model.opts) (ns : list string) : outcome (list Z) :=
  match ns with [] => Ok [] | n :: ns => do v <- freq p n o; do vs <- freqs p o ns; Ok (v :: vs) end.
Definition kinds : list string := ["probing_cuts"; "Gomory_cuts"; "cover_cuts"; "clique_cuts"; "flow_cover_cuts"; "mir_cuts"].
(** setup, 56-87. *)
Record strategy := mkStrategy { s_strong : Z; s_trust : Z; s_freqs : list Z }.
Definition setup (p : string) (o : Set_Model.opts) : outcome strategy :=
  do ' (ns, _) <- get_reg p "number_strong_branch" o; do ' (nt, _) <- get_reg p "number_before_trust" o;
  do fs <- freqs p o kinds; Ok (mkStrategy ns nt fs).
(** The constructor of SubMipSolver, BonSubMipSolver.cpp 44-104: Cbc with its own strategy, Cbc with this one, or CPLEX if it was compiled in. *)
Inductive milp := CbcDefault | CbcChoose (s : strategy) | Cplex.
Definition sub_mip (has_cplex : bool) (milp_solver : Z) (p : string) (o : Set_Model.opts) : outcome milp :=
  if (milp_solver <=? 0)%Z then Ok CbcDefault
  else if (milp_solver =? 1)%Z then do s <- setup p o; Ok (CbcChoose s)
  else if has_cplex then Ok Cplex else Thrown.
End Strategy.
(** setupCutGenerators, 89-161: a generator is its kind (the rank in [kinds]) and frequency; [other] kinds are larger. *)
Definition has_cg (k : nat) (gs : list (nat * Z)) : bool := existsb (fun g => Nat.eqb (fst g) k) gs.
Fixpoint add_generators (k : nat) (fs : list Z) (gs : list (nat * Z)) : list (nat * Z) :=
  match fs with
  | [] => gs
  | f :: fs => add_generators (S k) fs (if (negb (f =? 0)%Z && negb (has_cg k gs))%bool then gs ++ [(k, f)] else gs)%list
  end.
Definition setupCutGenerators (s : strategy) (gs : list (nat * Z)) : list (nat * Z) := add_generators 0 (s_freqs s) gs.
