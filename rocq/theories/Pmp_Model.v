(** The feasibility pump for convex MINLPs, and the frame in which the decomposition methods run.
    src/Algorithms/OaGenerators/BonFpForMinlp.cpp 33-48, 55-60 (doLocalSearch), 63-246 (performOa), 275-304 (set_fp_objective),
    src/Algorithms/OaGenerators/BonOaDecBase.cpp 235-343 (generateCuts), 352-394 (post_nlp_solve),
    src/Algorithms/BonSubMipSolver.cpp 190-240, 325-375 (what a solve leaves behind).
    Simplifications.  Doubles are exact rationals, DBL_MAX is +infinity.  The MILP solver, the NLP solver, the distance problem
    and the cuts are oracles; a cut is a row  co . (x, theta) <= ub  over the columns and the objective column.  Integer variables
    are columns (objects_ that are simple integers designate the same columns; with other objects set_fp_objective throws).
    Messages and counters of nodes are left out; a time limit is an oracle bit. *)
From Verif Require Import Base Arr Nlp Oad_Model.
#[local] Open Scope Q_scope.

Record row := mkRow { r_co : list Q; r_ub : Q }.

(** ** set_fp_objective, 275-304.  floor(x + 0.5) is [nearest] of Oad_Model. *)
Definition fp_coeff (b : bool) (x : Q) : Q :=
  if b then (if Qltb (x - inject_Z (nearest x)) 0 then 1 - 2 * 1 else 1 - 2 * 0) else 0.
Fixpoint fp_obj (ints : list bool) (x : list Q) : outcome (list Q) :=
  match ints with
  | [] => Ok []
  | b :: ints => match x with
                 | [] => OutOfBounds
                 | v :: x => do l <- fp_obj ints x; Ok (fp_coeff b v :: l)
                 end
  end.
(** With objects, 276-291: each gives its column or -1. *)
Fixpoint fp_obj_objects (cols : list (option nat)) (x : list Q) (obj : list Q) : outcome (list Q) :=
  match cols with
  | [] => Ok obj
  | Some c :: cols => do v <- rd c x; do obj <- lset c (fp_coeff true v) obj; fp_obj_objects cols x obj
  | None :: _ => Thrown
  end.

(** ** performOa *)
Record orac := mkOrac {
  o_mip : nat -> list row -> list Q -> ext -> option (list Q) * bool;  (* k-th sub-MIP: rows, objective, upper bound of the objective column; last solution, optimal() *)
  o_dist : nat -> cols -> list Q -> Q * list Q;                         (* solveFeasibilityProblem: distance, point *)
  o_nlp : nat -> cols -> bool * Q * list Q;                             (* k-th resolve: proven optimal, objective value, point *)
  o_obj : list Q -> row;                                                (* addObjectiveFunction *)
  o_oa : list Q -> list row;                                            (* getOuterApproximation *)
  o_late : nat -> bool }.                                               (* time is over at the end of pass k *)
Record par := mkPar { q_inc : Q; q_tol : Q; q_maxLocal : nat; q_maxSols : nat; q_passb : bool;
                      q_info : nat }.                                   (* numberColumns_ of the branching information *)
Record st := mkSt {
  s_mip : nat; s_nlp : nat;                       (* sub-MIPs and NLPs solved so far *)
  s_rows : list row;                              (* rows of the LP *)
  s_cs : list row;                                (* cuts handed over *)
  s_bnd : cols;                                   (* bounds of the NLP *)
  s_x : list Q;                                   (* nlp_->getColSolution() *)
  s_cut : ext; s_ub : ext; s_sols : nat; s_local : nat;
  s_found : list (list Q * Q);                    (* babInfo->setSolution, last first *)
  s_mopt : bool; s_sol : option (list Q); s_pass : nat }.
(** Leaving the method: normally, or by an exception (fixIntegers). *)
Inductive exit := Normal | Exception.

(** 136-140: values of the integer columns are nearly integral. *)
Fixpoint xbar (i : nat) (ints : list bool) (sol : list Q) : outcome (list Q) :=
  match ints with
  | [] => Ok []
  | b :: ints =>
      if (b : bool) then
        do v <- rd i sol;
        do _ <- chk (Qltb (Qabs (v - inject_Z (nearest v))) (1 # 100000));
        do l <- xbar (S i) ints sol; Ok (v :: l)
      else xbar (S i) ints sol
  end.
(** One sub-MIP, 103-112 and 214-223. *)
Definition sub_mip (O : orac) (ints : list bool) (s : st) : outcome st :=
  do obj <- fp_obj ints (s_x s);
  let r := o_mip O (s_mip s) (s_rows s) obj (s_cut s) in
  Ok (mkSt (S (s_mip s)) (s_nlp s) (s_rows s) (s_cs s) (s_bnd s) (s_x s) (s_cut s) (s_ub s) (s_sols s) (S (s_local s))
           (s_found s) (snd r) (fst r) (s_pass s)).
(** 72-126: before the loop.  [hascol]: the LP already has the objective column. *)
Definition pump_start (O : orac) (hascol : bool) (ints : list bool) (rows : list row) (bnd : cols) (x : list Q)
                      (cutoff : ext) (sols local : nat) : outcome st :=
  let rows := if hascol then rows else rows ++ [o_obj O x] in
  let r := o_nlp O 0 bnd in
  sub_mip O ints (mkSt 0 1 rows [] bnd (snd r) cutoff cutoff sols local [] false None 0).
(** 147-169: fix the integers, solve, relax if that fails, update. *)
Definition fixed_nlp (O : orac) (q : par) (ints : list bool) (sol : list Q) (s : st) : outcome (exit * bool * st) :=
  do f <- fixIntegers (q_info q) 0 ints sol (q_tol q) (s_bnd s);
  let set b k x := mkSt (s_mip s) k (s_rows s) (s_cs s) b x (s_cut s) (s_ub s) (s_sols s) (s_local s) (s_found s) (s_mopt s) (s_sol s) (s_pass s) in
  if (fst f : bool) then Ok (Exception, false, set (snd f) (s_nlp s) (s_x s))
  else
    let r := o_nlp O (s_nlp s) (snd f) in
    do kr <- (if (fst (fst r) : bool) then Ok (s_nlp s, r, snd f)
              else do b <- relaxIntegers (q_info q) 0 ints (q_tol q) (snd f); Ok (S (s_nlp s), o_nlp O (S (s_nlp s)) b, b));
    let '(k, r, b) := kr in
    let '(opt, v, y) := r in
    if (opt && ext_ltb (Fin v) (s_cut s))%bool then                                          (* post_nlp_solve *)
      match emin (s_ub s) (Fin v) with
      | Fin u =>
          do _ <- chk (Qltb (new_cutoff u (q_inc q)) u);                                    (* 164: assert(cutoff < ub) *)
          Ok (Normal, true,
              mkSt (s_mip s) (S k) (s_rows s) (s_cs s) b y (Fin (new_cutoff u (q_inc q))) (Fin u) (S (s_sols s)) (s_local s)
                   ((y, v) :: s_found s) (s_mopt s) (s_sol s) (s_pass s))
      | _ => AssertFail
      end
    else Ok (Normal, false, set b (S k) y).
(** Cuts at a point: appended to cs and to the LP, 173-202. *)
Definition add_cuts (O : orac) (x : list Q) (s : st) : outcome st :=
  do _ <- chk (negb (Nat.eqb (length (o_oa O x)) 0));                                       (* 201: assert(numberCuts) *)
  Ok (mkSt (s_mip s) (s_nlp s) (s_rows s ++ o_oa O x) (s_cs s ++ o_oa O x) (s_bnd s) (s_x s) (s_cut s) (s_ub s) (s_sols s) (s_local s)
           (s_found s) (s_mopt s) (s_sol s) (s_pass s)).
Definition set_nlp (b : cols) (k : nat) (x : list Q) (s : st) : st :=
  mkSt (s_mip s) k (s_rows s) (s_cs s) b x (s_cut s) (s_ub s) (s_sols s) (s_local s) (s_found s) (s_mopt s) (s_sol s) (s_pass s).
Definition set_sol (z : option (list Q)) (s : st) : st :=
  mkSt (s_mip s) (s_nlp s) (s_rows s) (s_cs s) (s_bnd s) (s_x s) (s_cut s) (s_ub s) (s_sols s) (s_local s) (s_found s) (s_mopt s) z (s_pass s).
Definition tick (s : st) : st :=
  mkSt (s_mip s) (s_nlp s) (s_rows s) (s_cs s) (s_bnd s) (s_x s) (s_cut s) (s_ub s) (s_sols s) (s_local s) (s_found s) (s_mopt s) (s_sol s) (S (s_pass s)).
(** One pass, 127-236; [saved]: bounds of the NLP at the start. *)
Definition pump_pass (O : orac) (q : par) (ints : list bool) (saved : cols) (sol : list Q) (s : st) : outcome (exit * st) :=
  let s := tick s in
  do xb <- xbar 0 ints sol;
  let d := o_dist O (s_pass s) (s_bnd s) xb in
  do es <-
    (if Qltb (fst d) (1 # 1000000) then
       do f <- fixed_nlp O q ints sol s;
       let '(e, restart, s) := f in
       match e with
       | Exception => Ok (Exception, s)
       | Normal =>
           do s1 <- add_cuts O (s_x s) s;
           let s1 := set_nlp saved (s_nlp s1) (s_x s1) s1 in                                (* 177-178 *)
           Ok (Normal, if (restart : bool) then set_nlp saved (S (s_nlp s1)) (snd (o_nlp O (s_nlp s1) saved)) s1 else s1)
       end
     else do s1 <- add_cuts O (snd d) (set_nlp (s_bnd s) (s_nlp s) (snd d) s); Ok (Normal, s1));
  let '(e, s) := es in
  match e with
  | Exception => Ok (Exception, s)
  | Normal =>
      if o_late O (s_pass s) then Ok (Normal, set_sol None s)
      else if (Nat.ltb (s_local s) (q_maxLocal q) && Nat.ltb (s_sols s) (q_maxSols q))%bool then
        do s <- sub_mip O ints s; Ok (Normal, s)
      else Ok (Normal, set_sol None s)
  end.
Fixpoint pump_loop (fuel : nat) (O : orac) (q : par) (ints : list bool) (saved : cols) (s : st) : outcome (exit * st) :=
  match s_sol s with
  | None => Ok (Normal, s)
  | Some sol =>
      match fuel with
      | O => Diverges
      | S fuel => do es <- pump_pass O q ints saved sol s;
                  match fst es with Exception => Ok es | Normal => pump_loop fuel O q ints saved (snd es) end
      end
  end.
(** 238-244: what is returned.  The loop is left with colsol = NULL. *)
Definition pump_bound (q : par) (s : st) : ext :=
  if (negb (q_passb q) || negb (s_mopt s))%bool then MInf else PInf.
Definition pump (fuel : nat) (O : orac) (q : par) (hascol : bool) (ints : list bool) (rows : list row) (bnd : cols) (x : list Q)
                (cutoff : ext) (sols local : nat) : outcome (exit * st) :=
  do s <- pump_start O hascol ints rows bnd x cutoff sols local;
  pump_loop fuel O q ints bnd s.

(** ** generateCuts of OaDecompositionBase, 235-343 *)
(** What the frame keeps between calls, the bounds of the NLP, and what it shares with Cbc: the solution count and whether a
    solution waits to be taken (OsiBabSolver::hasSolution). *)
Record frame := mkFrame { g_node : Z; g_saved : list row; g_bnd : cols; g_count : Z; g_wait : bool; g_bound : ext }.
(** What performOa does in a call: an exception, solutions handed over, how many of them are counted in numSols_
    (all by OACutGenerator2 and MinlpFeasPump, none by OaFeasibilityChecker), cuts saved, bounds of the NLP left behind, cuts, bound. *)
Record perf := mkPerf { h_throw : bool; h_found : nat; h_counted : nat; h_saved : list row; h_bnd : cols; h_cuts : list row; h_bound : ext }.
Record call := mkCall { c_node : Z; c_feasible : bool; c_point : list Q; c_integer : bool; c_local : bool; c_perf : perf }.
Definition violated (p : list Q) (r : row) : bool := Qltb (r_ub r) (dot (r_co r) p).
(** 277-291: the first saved cut that is violated, and the others. *)
Fixpoint take_violated (p : list Q) (l : list row) : option (row * list row) :=
  match l with
  | [] => None
  | r :: l => if violated p r then Some (r, l)
              else match take_violated p l with Some (c, l') => Some (c, r :: l') | None => None end
  end.
(** Result: exception, forced cut (with effectiveness 9.99e99), other cuts, the frame after. *)
Definition generate (c : call) (g : frame) : bool * option row * list row * frame :=
  let nums := (g_count g + if g_wait g then 1 else 0)%Z in
  if negb (c_feasible c) then (false, None, [], g)                                          (* 252-254 *)
  else
    let same := Z.eqb (c_node c) (g_node g) in
    match (if same then take_violated (c_point c) (g_saved g) else None) with
    | Some (r, l) => (false, Some r, [], mkFrame (g_node g) l (g_bnd g) (g_count g) (g_wait g) (g_bound g))
    | None =>
        let g := if same then g else mkFrame (c_node c) [] (g_bnd g) (g_count g) (g_wait g) (g_bound g) in
        if (negb (c_integer c) && negb (c_local c))%bool then (false, None, [], g)          (* 298-301 *)
        else
          let h := c_perf c in
          let wait := (g_wait g || negb (Nat.eqb (h_found h) 0))%bool in
          let saved := g_saved g ++ h_saved h in
          if h_throw h then (true, None, h_cuts h, mkFrame (g_node g) saved (h_bnd h) (g_count g) wait (g_bound g))
          else
            let nums := (nums + Z.of_nat (h_counted h))%Z in
            let count := if wait then (nums - 1)%Z else g_count g in                        (* 322-324 *)
            let bound := if ext_ltb (Fin (- (10 ^ 100))) (h_bound h) then h_bound h else g_bound g in   (* 328-334 *)
            (false, None, h_cuts h, mkFrame (g_node g) saved (g_bnd g) count wait bound)    (* 341-342 *)
    end.
Fixpoint generates (cs : list call) (g : frame) : list (bool * option row * list row) * frame :=
  match cs with
  | [] => ([], g)
  | c :: cs => let r := generate c g in let rs := generates cs (snd r) in (fst r :: fst rs, snd rs)
  end.
