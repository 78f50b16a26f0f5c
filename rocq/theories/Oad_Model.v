(** Outer-approximation decomposition.
    src/Algorithms/BonSolverHelp.cpp 21-213,
    src/Algorithms/OaGenerators/BonOaDecBase.cpp 132-224 and 250-400,
    src/Algorithms/OaGenerators/BonOACutGenerator2.cpp 62-284,
    src/Algorithms/OaGenerators/BonOaFeasChecker.cpp 37-135.
    Simplifications.  Doubles are exact rationals with explicit infinities.  OSI, Cbc
    and the NLP solver are the oracles below.  The code is the one compiled with
    asserts and with the NDEBUG-only test of fixIntegers active.  Messages, counters
    of nodes and iterations, and the external linearizer are left out. *)
From Verif Require Import Base Arr.
#[local] Open Scope Q_scope.

(** ** BonSolverHelp.cpp *)
(** Column bounds of a solver. *)
Record cols := mkCols { k_lo : list ext; k_up : list ext }.
Definition setLower (i : nat) (v : ext) (s : cols) : outcome cols := do l <- lset i v (k_lo s); Ok (mkCols l (k_up s)).
Definition setUpper (i : nat) (v : ext) (s : cols) : outcome cols := do u <- lset i v (k_up s); Ok (mkCols (k_lo s) u).
(** floor(v + 0.5) *)
Definition nearest (v : Q) : Z := Qfloor (v + (1 # 2)).
Definition too_big : Q := inject_Z 10000000000.                               (* 1e10 *)
Definition eplus (e : ext) (q : Q) : ext := match e with Fin a => Fin (a + q) | _ => e end.

(** integerFeasible without objects, 34-44; [ints] is isInteger of each column. *)
Fixpoint integerFeasible (i : nat) (ints : list bool) (sol : list Q) (tol : Q) : outcome bool :=
  match ints with
  | [] => Ok true
  | b :: ints =>
      if (b : bool) then
        do v <- rd i sol;
        if Qltb tol (Qabs (v - inject_Z (nearest v))) then Ok false else integerFeasible (S i) ints sol tol
      else integerFeasible (S i) ints sol tol
  end.

(** One column of fixIntegers, 62-87.  The first component says that an exception
    leaves the function; the bounds set so far stay. *)
Definition fix_one (i : nat) (v tol : Q) (s : cols) : outcome (bool * cols) :=
  if Qltb tol (Qabs (v - inject_Z (nearest v))) then Ok (true, s)               (* throw, 66-71 *)
  else if Qltb too_big (Qabs (inject_Z (nearest v))) then Ok (true, s)          (* throw, 74-80 *)
  else
    do s <- setLower i (Fin (inject_Z (nearest v))) s;
    do s <- setUpper i (Fin (inject_Z (nearest v))) s;
    Ok (false, s).
(** fixIntegers without objects, 60-88: columns i, i+1, ..., i+k-1, where k is what is
    left of info.numberColumns_; isInteger reads the solver's own table [ints]. *)
Fixpoint fixIntegers (k i : nat) (ints : list bool) (sol : list Q) (tol : Q) (s : cols) : outcome (bool * cols) :=
  match k with
  | O => Ok (false, s)
  | S k =>
      do b <- rd i ints;
      if (b : bool) then
        do v <- rd i sol;
        do r <- fix_one i v tol s;
        if (fst r : bool) then Ok r else fixIntegers k (S i) ints sol tol (snd r)
      else fixIntegers k (S i) ints sol tol s
  end.
(** relaxIntegers without objects, 110-118; refixIntegers, 121-145, has the same body
    behind a test of the solver's status. *)
Definition relax_one (i : nat) (tol : Q) (s : cols) : outcome cols :=
  do l <- rd i (k_lo s);
  do s <- setLower i (eplus l (- tol)) s;
  do u <- rd i (k_up s);
  setUpper i (eplus u tol) s.
Fixpoint relaxIntegers (k i : nat) (ints : list bool) (tol : Q) (s : cols) : outcome cols :=
  match k with
  | O => Ok s
  | S k => do b <- rd i ints;
           if (b : bool) then do s <- relax_one i tol s; relaxIntegers k (S i) ints tol s
           else relaxIntegers k (S i) ints tol s
  end.
Definition refixIntegers (optimal : bool) (k : nat) (ints : list bool) (tol : Q) (s : cols) : outcome (bool * cols) :=
  if optimal then do s <- relaxIntegers k 0 ints tol s; Ok (true, s) else Ok (false, s).
(** isDifferentOnIntegers without objects, 205-210. *)
Fixpoint isDifferentOnIntegers (i : nat) (ints : list bool) (tol : Q) (a b : list Q) : outcome bool :=
  match ints with
  | [] => Ok false
  | t :: ints =>
      if (t : bool) then
        do va <- rd i a; do vb <- rd i b;
        if Qltb tol (Qabs (vb - va)) then Ok true else isDifferentOnIntegers (S i) ints tol a b
      else isDifferentOnIntegers (S i) ints tol a b
  end.

(** The same four functions when branching objects are given: simple integers and SOS.
    OsiSimpleInteger::feasibleRegion (Osi) projects the value on the bounds recorded in
    the branching information and fixes the column at the nearest integer; what an SOS
    does in feasibleRegion is not modelled.  Lines 54-58, 102-109, 183-204. *)
Inductive obj := OInt (col : nat) | OSos (members : list nat).
Definition proj (l u : ext) (v : Q) : Q :=
  let v := match l with Fin a => if Qltb v a then a else v | _ => v end in
  match u with Fin b => if Qltb b v then b else v | _ => v end.
Fixpoint fixObjects (os : list obj) (lo up : list ext) (sol : list Q) (s : cols) : outcome cols :=
  match os with
  | [] => Ok s
  | OInt c :: os =>
      do v <- rd c sol; do l <- rd c lo; do u <- rd c up;
      do s <- setLower c (Fin (inject_Z (nearest (proj l u v)))) s;
      do s <- setUpper c (Fin (inject_Z (nearest (proj l u v)))) s;
      fixObjects os lo up sol s
  | OSos _ :: _ => Thrown
  end.
Fixpoint relaxObjects (os : list obj) (tol : Q) (s : cols) : outcome cols :=
  match os with
  | [] => Ok s
  | OInt c :: os => do s <- relax_one c tol s; relaxObjects os tol s
  | OSos _ :: _ => NullDeref                             (* dynamic_cast to OsiSimpleInteger gives NULL *)
  end.
Fixpoint differ_at (cs : list nat) (tol : Q) (a b : list Q) : outcome bool :=
  match cs with
  | [] => Ok false
  | c :: cs => do vb <- rd c b; do va <- rd c a;
               if Qltb tol (Qabs (vb - va)) then Ok true else differ_at cs tol a b
  end.
Fixpoint isDifferentOnObjects (os : list obj) (tol : Q) (a b : list Q) : outcome bool :=
  match os with
  | [] => Ok false
  | o :: os => do d <- differ_at (match o with OInt c => [c] | OSos m => m end) tol a b;
               if (d : bool) then Ok true else isDifferentOnObjects os tol a b
  end.

(** ** solverManip, BonOaDecBase.cpp 132-224.
    The state of the LP solver that is saved and restored; a row is any value. *)
Section Manip.
Context {R W : Type}.                                   (* rows, warm starts *)
Record lpst := mkLpst { p_rows : list R; p_cols : cols; p_cut : ext; p_warm : W }.
Record saved := mkSaved { v_rows : option nat; v_cols : option cols; v_cut : ext; v_warm : option W }.
(** Constructor 132-165. *)
Definition manip (saveNumRows saveBasis saveBounds saveCutoff : bool) (s : lpst) : saved :=
  mkSaved (if saveNumRows then Some (length (p_rows s)) else None)
          (if saveBounds then Some (p_cols s) else None)
          (if saveCutoff then p_cut s else PInf)
          (if saveBasis then Some (p_warm s) else None).
(** restore 192-224.  new int[k] with negative k throws. *)
Definition restore (v : saved) (s : lpst) : outcome lpst :=
  do rows <- match v_rows v with
             | None => Ok (p_rows s)
             | Some n => if Nat.ltb (length (p_rows s)) n then Thrown else Ok (firstn n (p_rows s))
             end;
  let c := match v_cols v with None => p_cols s | Some c => c end in
  let cut := match v_cut v with PInf => p_cut s | e => e end in                 (* 212: cutoff_ < COIN_DBL_MAX *)
  let w := match v_warm v with None => p_warm s | Some w => w end in
  Ok (mkLpst rows c cut w).
(** What the generators do to the LP in between: install cuts (148-174), set column
    bounds, set the cutoff, resolve (changes the warm start). *)
Inductive lpop := Install (cuts : list R) | SetCols (c : cols) | SetCut (q : ext) | Resolve (w : W).
Definition lp_step (s : lpst) (o : lpop) : lpst :=
  match o with
  | Install cuts => mkLpst (p_rows s ++ cuts) (p_cols s) (p_cut s) (p_warm s)
  | SetCols c => mkLpst (p_rows s) c (p_cut s) (p_warm s)
  | SetCut q => mkLpst (p_rows s) (p_cols s) q (p_warm s)
  | Resolve w => mkLpst (p_rows s) (p_cols s) (p_cut s) w
  end.
Definition lp_run (ops : list lpop) (s : lpst) : lpst := fold_left lp_step ops s.
End Manip.
Arguments lpst : clear implicits.
Arguments saved : clear implicits.
Arguments lpop : clear implicits.

(** ** The decomposition loop *)
Definition ext_ltb (a b : ext) : bool :=
  match a, b with
  | MInf, MInf => false | MInf, _ => true
  | Fin _, MInf => false | Fin x, Fin y => Qltb x y | Fin _, PInf => true
  | PInf, _ => false
  end.
Definition emax (a b : ext) : ext := if ext_ltb a b then b else a.              (* std::max *)
Definition emin (a b : ext) : ext := if ext_ltb b a then b else a.              (* std::min *)
(** Lines 148-149: the new cutoff. *)
Definition new_cutoff (ub decr : Q) : Q := if Qltb 0 ub then ub * (1 - decr) else ub * (1 + decr).

Definition point := list Z.                               (* values of the integer variables *)
Definition pt_eqb (a b : point) : bool := if list_eq_dec Z.eq_dec a b then true else false.
(** Answer of the sub-MIP: lower bound and, if any, the integer solution found. *)
Record subres := mkSub { s_low : ext; s_sol : option point }.
(** Answer of the LP after the cuts were installed: proven optimal, dual limit reached,
    objective, and the integer values if the solution is integer feasible. *)
Record lpres := mkLpr { l_opt : bool; l_lim : bool; l_obj : Q; l_int : option point }.
(** The solvers.  The cuts installed are determined by the points at which the NLP was
    solved; these are listed, last one first. *)
Record oracle := mkOracle {
  o_sub : list point -> ext -> subres;                    (* subMip_->solve(cutoff) *)
  o_lp : list point -> ext -> lpres;                      (* lp->resolve() *)
  o_nlp : point -> option Q;                              (* nlp_->resolve() with the integers fixed: optimal value *)
  o_cuts : list point -> nat;                             (* number of cuts generated at the last point *)
  o_late : nat -> bool                                    (* time limit exceeded at the end of pass k *)
}.
Record params := mkParams { q_decr : Q; q_gap : Q; q_maxLocal : nat; q_maxSols : nat }.
Record oast := mkOa {
  a_vis : list point; a_ub : ext; a_cut : ext; a_mb : ext;
  a_local : nat; a_sols : nat; a_last : option point;     (* subMip_->getLastSolution() *)
  a_int : bool; a_feas : bool; a_pass : nat
}.
Definition big1 : ext := Fin (10 ^ 50).                                        (* 1e50 *)
Definition big2 : ext := Fin (10 ^ 200).                                       (* 1e200 *)
(** Lines 203-206: gap < gap_tol.  With an infinite bound the quotient is not small. *)
Definition gap_small (ub mb : ext) (tol : Q) : bool :=
  match ub, mb with
  | Fin u, Fin m => if Qeq_bool u 0 then Qltb (- m / (1 # 10000000000)) tol else Qltb ((u - m) / Qabs u) tol
  | Fin _, PInf => true
  | _, _ => false
  end.
(** Lines 74-103: before the loop. *)
Definition oa_start (O : oracle) (cutoff : ext) (sols : nat) (local : nat) : oast :=
  let r := o_sub O [] cutoff in
  let mb := emax MInf (s_low r) in
  mkOa [] cutoff cutoff mb (S local) sols (s_sol r)
       (match s_sol r with Some _ => true | None => false end) (ext_ltb mb cutoff) 0.
(** Result of one pass: go on or leave the loop. *)
Inductive pass := Next (s : oast) | Break (s : oast).
Definition oa_pass (O : oracle) (q : params) (s : oast) : outcome pass :=
  match a_last s with
  | None => NullDeref
  | Some a =>
      (* 141-155: fix, solve, update *)
      let v := o_nlp O a in
      let better := match v with Some f => ext_ltb (Fin f) (a_cut s) | None => false end in  (* post_nlp_solve *)
      do ucs <- (match v with
                 | Some f =>
                     if better then
                       match emin (Fin f) (a_ub s) with
                       | Fin u =>
                           let c := new_cutoff u (q_decr q) in
                           do _ <- chk (Qltb c u);                                           (* 150: assert(cutoff < ub) *)
                           Ok (Fin u, Fin c, S (a_sols s))
                       | _ => AssertFail
                       end
                     else Ok (a_ub s, a_cut s, a_sols s)
                 | None => Ok (a_ub s, a_cut s, a_sols s)
                 end);
      let '(ub, cut, sols) := ucs in
      let vis := a :: a_vis s in
      do _ <- chk (negb (Nat.eqb (o_cuts O vis) 0));                                        (* 171: assert(numberCuts) *)
      let l := o_lp O vis cut in
      let feas := (l_opt l && negb (l_lim l) && ext_ltb (Fin (l_obj l)) cut)%bool in        (* 178 *)
      let changed := if feas then negb (match l_int l with Some b => pt_eqb b a | None => false end) else true in
      let isint := if changed then match l_int l with Some _ => true | None => false end else false in
      let mb := if changed then a_mb s else big2 in                                         (* 188-194 *)
      let pass := S (a_pass s) in
      if o_late O pass then Ok (Break (mkOa vis ub cut mb (a_local s) sols (a_last s) isint feas pass))  (* 200 *)
      else
        let stop := gap_small ub mb (q_gap q) in                                            (* 203-210 *)
        let mb := if stop then big1 else mb in
        let feas := if stop then false else feas in
        if (feas && Nat.ltb (a_local s) (q_maxLocal q) && Nat.ltb sols (q_maxSols q))%bool then
          let stop := gap_small ub mb (q_gap q) in                                          (* 216-223 *)
          let mb := if stop then big1 else mb in
          let r := o_sub O vis cut in                                                       (* 226 *)
          let mb := emax mb (s_low r) in
          let isint := match s_sol r with Some _ => true | None => false end in
          let feas := ext_ltb mb cut in
          let same := (feas && match s_sol r with Some b => pt_eqb b a | None => false end)%bool in  (* 243-254 *)
          let mb := if same then big1 else mb in
          let feas := if same then false else feas in
          let low := ext_ltb mb cut in                                                      (* 262-267 *)
          let mb := if low then mb else big1 in
          let feas := if low then feas else false in
          Ok (Next (mkOa vis ub cut mb (S (a_local s)) sols (s_sol r) isint feas pass))
        else Ok (Next (mkOa vis ub cut mb (a_local s) sols (a_last s) isint feas pass))
  end.
Fixpoint oa_loop (fuel : nat) (O : oracle) (q : params) (s : oast) : outcome oast :=
  if (a_int s && a_feas s)%bool then
    match fuel with
    | O => Diverges
    | S fuel => do p <- oa_pass O q s; match p with Next s => oa_loop fuel O q s | Break s => Ok s end
    end
  else Ok s.
(** OACutGenerator2::performOa, 62-284: the final state; a_mb is what is returned. *)
Definition performOa (fuel : nat) (O : oracle) (q : params) (cutoff : ext) (sols local : nat) : outcome oast :=
  oa_loop fuel O q (oa_start O cutoff sols local).

(** ** OaFeasibilityChecker::performOa, BonOaFeasChecker.cpp 37-135.
    Starts from an integer feasible LP solution [a]; the next point is the LP solution. *)
Record fcst := mkFc { f_vis : list point; f_cut : ext; f_mb : ext; f_ub : ext }.
Fixpoint fc_loop (fuel : nat) (O : oracle) (decr : Q) (a : point) (s : fcst) : outcome fcst :=
  match fuel with
  | O => Diverges
  | S fuel =>
      let v := o_nlp O a in
      let uc := match v with
                | Some f => if ext_ltb (Fin f) (f_cut s) then (Fin f, Fin (new_cutoff f decr)) else (f_ub s, f_cut s)   (* 64-72 *)
                | None => (f_ub s, f_cut s)
                end in
      let vis := a :: f_vis s in
      let l := o_lp O vis (snd uc) in
      let feas := (l_opt l && negb (l_lim l) && ext_ltb (Fin (l_obj l)) (snd uc))%bool in
      let changed := if feas then negb (match l_int l with Some b => pt_eqb b a | None => false end) else true in
      let mb := if changed then f_mb s else big2 in
      let s' := mkFc vis (snd uc) mb (fst uc) in
      match (if (changed && feas)%bool then l_int l else None) with
      | Some b => fc_loop fuel O decr b s'
      | None => Ok s'
      end
  end.
Definition fc_run (fuel : nat) (O : oracle) (decr : Q) (cutoff : ext) (a : point) : outcome fcst :=
  fc_loop fuel O decr a (mkFc [] cutoff MInf cutoff).
