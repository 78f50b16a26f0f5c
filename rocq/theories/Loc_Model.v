(** Heuristics that solve a restricted problem with a second branch-and-bound.
    src/CbcBonmin/Heuristics/BonLocalSolverBasedHeuristic.cpp 89-109,
    BonHeuristicRINS.cpp 46-117, BonHeuristicLocalBranching.cpp 38-118,
    BonFixAndSolveHeuristic.cpp 36-73, BonDummyPump.cpp 36-63, BonPumpForMinlp.cpp 36-53
    (same directory), and the copy constructor, destructor and objects of the set-up,
    src/Algorithms/BonBabSetupBase.cpp 78-214 and 322-347,
    src/Algorithms/BonBonminSetup.cpp 70-102.
    Simplifications.  The inner branch-and-bound (Bab) is the oracle [search]: given the
    problem, the cutoff and the option prefix it returns no solution or a point with a
    value.  Only storage of solvers and branching objects is tracked; leaks of other
    objects, messages and times are left out.  The linear relaxation built inside the
    copied set-up is assumed not to throw. *)
From Verif Require Import Base Arr Oad_Model.
#[local] Open Scope Q_scope.

(** ** Storage: identifiers of live solvers and branching objects. *)
Record heap := mkHeap { h_live : list nat; h_next : nat }.
Definition alloc (h : heap) : nat * heap := (h_next h, mkHeap (h_next h :: h_live h) (S (h_next h))).
Definition release (i : nat) (h : heap) : outcome heap :=
  if existsb (Nat.eqb i) (h_live h) then Ok (mkHeap (remove Nat.eq_dec i (h_live h)) (h_next h)) else Dangling.
Fixpoint release_all (l : list nat) (h : heap) : outcome heap :=
  match l with [] => Ok h | i :: l => do h <- release i h; release_all l h end.

(** ** The set-up, as far as ownership goes: BonBabSetupBase.hpp 340-380.
    [s_non] and [s_cont] are pointers, [s_objs] the branching objects, [s_heu] the
    number of heuristics, [s_msg] whether a message handler is stored. *)
Record setup := mkSetup { s_non : option nat; s_cont : option nat; s_objs : list nat; s_heu : nat; s_msg : bool }.
Definition ptr_eqb (a b : option nat) : bool :=
  match a, b with Some i, Some j => Nat.eqb i j | None, None => true | _, _ => false end.
Definition clone_ptr (p : option nat) (h : heap) : option nat * heap :=
  match p with Some _ => let r := alloc h in (Some (fst r), snd r) | None => (None, h) end.
(** objects_[i]->clone(), 123-125, 175-177, 211-213: the copy is dropped. *)
Fixpoint clone_objs (l : list nat) (h : heap) : heap :=
  match l with [] => h | _ :: l => clone_objs l (snd (alloc h)) end.
(** Copy constructor 78-126.  The loop 112-115 walks over the new, empty, list. *)
Definition copy_setup (s : setup) (h : heap) : outcome (setup * heap) :=
  let n := clone_ptr (s_non s) h in
  let c := clone_ptr (s_cont s) (snd n) in
  do _ <- (if s_msg s then match fst c with Some _ => Ok tt | None => NullDeref end else Ok tt);    (* 103-106 *)
  Ok (mkSetup (fst n) (fst c) (s_objs s) 0 (s_msg s), clone_objs (s_objs s) (snd c)).
(** Copy with another NLP, BabSetupBase 129-178 and BonminSetup 70-91: [bb] says that
    algo_ of the original is B_BB. *)
Definition copy_nlp (bb : bool) (s : setup) (nlp : nat) (h : heap) : outcome (setup * heap) :=
  let cont := if ptr_eqb (s_cont s) (s_non s) then Some nlp else None in                           (* 150-154 *)
  do _ <- (if s_msg s then match cont with Some _ => Ok tt | None => NullDeref end else Ok tt);     (* 155-158 *)
  let h := clone_objs (s_objs s) h in
  if bb then Ok (mkSetup (Some nlp) cont (s_objs s) 0 (s_msg s), h)
  else do _ <- chk (match cont with None => true | _ => false end);                                 (* assert, 77 *)
       let c := alloc h in Ok (mkSetup (Some nlp) (Some (fst c)) (s_objs s) 0 (s_msg s), snd c).
(** Copy with another NLP and another prefix, 180-214 and BonminSetup 92-102; [bb] is
    the algorithm found under the prefix, [k] how many heuristics it adds. *)
Definition copy_prefix (bb : bool) (k : nat) (s : setup) (nlp : nat) (h : heap) : setup * heap :=
  let h := clone_objs (s_objs s) h in
  if bb then (mkSetup (Some nlp) (Some nlp) (s_objs s) k (s_msg s), h)                               (* initializeBBB *)
  else let c := alloc h in (mkSetup (Some nlp) (Some (fst c)) (s_objs s) k (s_msg s), snd c).       (* initializeBHyb *)
Definition delete_ptr (p : option nat) (h : heap) : outcome heap := match p with Some i => release i h | None => Ok h end.
(** Destructor 322-347 (delete of a null pointer does nothing). *)
Definition delete_setup (s : setup) (h : heap) : outcome heap :=
  do h <- (if ptr_eqb (s_non s) (s_cont s) then Ok h else delete_ptr (s_non s) h);
  do h <- delete_ptr (s_cont s) h;
  release_all (s_objs s) h.

(** ** The problem given to the inner branch-and-bound *)
(** switchToFeasibilityProblem, src/Interfaces/BonOsiTMINLPInterface.cpp 2275-2307:
    the distance to a point as objective, or a local-branching row. *)
Inductive goal := Original | Distance (vals : list Q) (inds : list nat) | LocalBranch (vals : list Q) (inds : list nat) (rhs : Q).
Record problem := mkProblem { q_cols : cols; q_goal : goal }.
Inductive prefix := LocalSolver | Rins | PumpMinlp.
(** What a heuristic is called with: CbcModel's counters, solutions and variables. *)
Record env := mkEnv {
  e_node : nat;                        (* getNodeCount *)
  e_pass : nat;                        (* getCurrentPassNumber *)
  e_nsol : Z;                          (* getSolutionCount *)
  e_best : option (list Q);            (* bestSolution *)
  e_cur : list Q;                      (* getColSolution *)
  e_ints : list (nat * (ext * ext));   (* integerVariable[i] and the original bounds of object(i) *)
  e_nlp : option cols;                 (* column bounds of model_->solver() if it is the NLP *)
  e_setup : cols;                      (* column bounds of setup_->nonlinearSolver() *)
  e_cutoff : ext                       (* getCutoff, and cutoff_ of usefulInformation *)
}.
Notation search := (prefix -> problem -> ext -> option (list Q * Q)).
(** What a call gives: the returned value, the two output arguments, the storage and the
    problem searched, if any. *)
Record res := mkRes { r_ret : nat; r_val : Q; r_sol : list Q; r_heap : heap; r_log : option (prefix * problem * ext) }.

(** doLocalSearch, BonLocalSolverBasedHeuristic.cpp 89-109.  [bb p]: the algorithm under
    prefix p is B-BB. *)
Definition doLocalSearch (O : search) (bb : prefix -> bool) (s : setup) (px : prefix) (nlp : nat) (P : problem) (cutoff : ext)
  (buf : list Q) (val : Q) (h : heap) : outcome res :=
  let my := copy_prefix (bb px) 0 s nlp h in
  do r <- match O px P cutoff with
          | Some (x, v) =>
              let n := length (k_lo (q_cols P)) in                                                  (* getNumCols *)
              if Nat.ltb (length x) n then OutOfBounds else if Nat.ltb (length buf) n then OutOfBounds
              else Ok (1%nat, v, firstn n x ++ skipn n buf)
          | None => Ok (0%nat, val, buf)
          end;
  do h <- delete_setup (fst my) (snd my);
  Ok (mkRes (fst (fst r)) (snd (fst r)) (snd r) h (Some (px, P, cutoff))).
Definition nothing (val : Q) (buf : list Q) (h : heap) : res := mkRes 0 val buf h None.

(** ** RINS, BonHeuristicRINS.cpp *)
(** Lines 84-89 *)
Definition clampv (l u : ext) (v : Q) : Q :=
  match l with
  | Fin a => if Qltb v a then a else match u with Fin b => if Qltb b v then b else v | _ => v end
  | _ => match u with Fin b => if Qltb b v then b else v | _ => v end
  end.
Definition rins_tol : Q := 10 * (1 # 10000000).                            (* 10.0*primalTolerance *)
(** Lines 76-97 *)
Fixpoint rins_fix (ints : list (nat * (ext * ext))) (best cur : list Q) (c : cols) (nFix : nat) : outcome (cols * nat) :=
  match ints with
  | [] => Ok (c, nFix)
  | (i, (l, u)) :: ints =>
      do b <- rd i best; do x <- rd i cur;
      let v := clampv l u b in
      if Qltb (Qabs (x - v)) rins_tol then
        do c <- setLower i (Fin (inject_Z (nearest v))) c;
        do c <- setUpper i (Fin (inject_Z (nearest v))) c;
        rins_fix ints best cur c (S nFix)
      else rins_fix ints best cur c nFix
  end.
Record rins := mkRins { n_often : Z; n_sols : Z }.
Definition rins0 := mkRins 10 0.                                           (* 20-31 *)
Definition rins_solution (O : search) (bb : prefix -> bool) (s : setup) (e : env) (R : rins) (val : Q) (buf : list Q) (h : heap)
  : outcome (rins * res) :=
  if Z.eqb (n_often R) 0 then Ok (R, nothing val buf h)
  else if negb (Z.eqb (Z.rem (Z.of_nat (e_node e)) (n_often R)) 0) then Ok (R, nothing val buf h)      (* 49 *)
  else match e_best e with
  | None => Ok (mkRins (n_often R) (e_nsol e), nothing val buf h)                                   (* 52-58 *)
  | Some best =>
      let nlp := alloc h in                                                                         (* 59-68 *)
      let base := match e_nlp e with Some c => c | None => e_setup e end in
      do ' (c, nFix) <- rins_fix (e_ints e) best (e_cur e) base 0;
      do r <- (if Nat.ltb (length (e_ints e) / 10) nFix                                             (* 100 *)
               then doLocalSearch O bb s Rins (fst nlp) (mkProblem c Original) (e_cutoff e) buf val (snd nlp)
               else Ok (nothing val buf (snd nlp)));
      if Nat.ltb 0 (r_ret r)
      then Ok (mkRins (Z.max 10 (Z.quot (n_often R) 2)) (e_nsol e + 1), r)                          (* 111-113 *)
      else Ok (mkRins (Z.min 10000 (2 * n_often R)) (if Nat.ltb (length (e_ints e) / 10) nFix then e_nsol e else e_nsol e - 1), r)
  end.

(** ** Local branching, BonHeuristicLocalBranching.cpp *)
(** validate, 46-73: [ty] says which variables are not continuous.  The result is the
    argument of setWhen, if it is called. *)
Fixpoint lb_validate (ty : list bool) (c : list (ext * ext)) : bool :=
  match ty, c with
  | t :: ty, (l, u) :: c =>
      if (t && negb (match l, u with Fin a, Fin b => Qeq_bool a 0 && Qeq_bool b 1 | _, _ => false end))%bool then false
      else lb_validate ty c
  | _, _ => true
  end.
Record lbst := mkLb { l_sols : Z; l_when : Z }.
Definition lb0 (when : Z) := mkLb 0 when.                                  (* 18-29 *)
(** setModel, 38-44. *)
Definition lb_setModel (ty : list bool) (c : list (ext * ext)) (L : lbst) : lbst :=
  if lb_validate ty c then L else mkLb (l_sols L) 0.
Fixpoint gather (ints : list (nat * (ext * ext))) (x : list Q) : outcome (list Q) :=
  match ints with [] => Ok [] | (i, _) :: ints => do v <- rd i x; do l <- gather ints x; Ok (v :: l) end.
(** solution, 75-118; the test of when() is commented out. *)
Definition lb_solution (O : search) (bb : prefix -> bool) (s : setup) (e : env) (L : lbst) (val : Q) (buf : list Q) (h : heap)
  : outcome (lbst * res) :=
  if Z.leb (e_nsol e) (l_sols L) then Ok (L, nothing val buf h)                                     (* 80 *)
  else match e_best e with
  | None => Ok (mkLb (e_nsol e) (l_when L), nothing val buf h)
  | Some best =>
      let nlp := alloc h in
      do vals <- gather (e_ints e) best;
      let rhs := inject_Z (Z.of_nat (length (e_ints e) / 2)) in                                     (* 107 *)
      do r <- doLocalSearch O bb s LocalSolver (fst nlp) (mkProblem (e_setup e) (LocalBranch vals (map fst (e_ints e)) rhs))
                            (e_cutoff e) buf val (snd nlp);
      Ok (mkLb (if Nat.ltb 0 (r_ret r) then e_nsol e + 1 else e_nsol e) (l_when L), r)              (* 116 *)
  end.

(** ** Fix and solve, BonFixAndSolveHeuristic.cpp 36-73.  A branching object is its
    infeasibility at the current solution and the effect of feasibleRegion. *)
Fixpoint fs_fix (os : list (Q * (cols -> outcome cols))) (c : cols) (n : nat) : outcome (cols * nat) :=
  match os with
  | [] => Ok (c, n)
  | (v, f) :: os => if Qeq_bool v 0 then do c <- f c; fs_fix os c (S n) else fs_fix os c n
  end.
Definition fs_solution (O : search) (bb : prefix -> bool) (s : setup) (e : env) (os : list (Q * (cols -> outcome cols)))
  (val : Q) (buf : list Q) (h : heap) : outcome res :=
  if Z.ltb 0 (e_nsol e) then Ok (nothing val buf h)
  else if Nat.ltb 1000 (e_node e) then Ok (nothing val buf h)
  else if negb (Nat.eqb (Nat.modulo (e_node e) 100) 0) then Ok (nothing val buf h)
  else
    let nlp := alloc h in
    let base := match e_nlp e with Some c => c | None => e_setup e end in
    do ' (c, n) <- fs_fix os base 0;
    if Nat.ltb n (length os / 3) then Ok (nothing val buf (snd nlp))                                (* 67 *)
    else do r <- doLocalSearch O bb s LocalSolver (fst nlp) (mkProblem c Original) (e_cutoff e) buf val (snd nlp);
         do h <- release (fst nlp) (r_heap r);                                                      (* delete nlp, 70 *)
         Ok (mkRes (r_ret r) (r_val r) (r_sol r) h (r_log r)).

(** ** Dummy pump, BonDummyPump.cpp 36-63; [ty] is isInteger of each column. *)
Fixpoint dp_point (i : nat) (ty : list bool) (x : list Q) : outcome (list Q * list nat) :=
  match ty with
  | [] => Ok ([], [])
  | t :: ty =>
      if (t : bool) then do v <- rd i x; do ' (vs, is) <- dp_point (S i) ty x; Ok (v :: vs, i :: is)
      else dp_point (S i) ty x
  end.
Definition dp_solution (O : search) (bb : prefix -> bool) (s : setup) (e : env) (ty : list bool) (val : Q) (buf : list Q) (h : heap)
  : outcome res :=
  if (negb (Nat.eqb (e_node e) 0) || Nat.ltb 1 (e_pass e))%bool then Ok (nothing val buf h)
  else
    let nlp := alloc h in
    do ' (vs, is) <- dp_point 0 ty (e_cur e);
    do r <- doLocalSearch O bb s LocalSolver (fst nlp) (mkProblem (e_setup e) (Distance vs is)) (e_cutoff e) buf val (snd nlp);
    do h <- release (fst nlp) (r_heap r);                                                           (* delete nlp, 61 *)
    Ok (mkRes (r_ret r) (r_val r) (r_sol r) h (r_log r)).

(** ** Pump for MINLP, BonPumpForMinlp.cpp 36-53 *)
Definition pm_solution (O : search) (bb : prefix -> bool) (s : setup) (e : env) (val : Q) (buf : list Q) (h : heap) : outcome res :=
  if (negb (Nat.eqb (e_node e) 0) || Nat.ltb 1 (e_pass e))%bool then Ok (nothing val buf h)
  else if negb (Z.eqb (e_nsol e) 0) then Ok (nothing val buf h)
  else let nlp := alloc h in
       doLocalSearch O bb s PumpMinlp (fst nlp) (mkProblem (e_setup e) Original) (e_cutoff e) buf val (snd nlp).
