(** What the NLP solver wrappers do around the solver itself.
    src/Interfaces/BonTNLPSolver.cpp 77-161 (zeroDimension);
    src/Interfaces/Filter/BonFilterSolver.cpp 92-155 (callbacks), 160-240
    (Transposer, TMat2RowPMat), 362-398 and 402-568 (OptimizeTNLP,
    ReOptimizeTNLP, cachedInfo::initialize), 574-715 (callOptimizer, load_ws,
    optimize), 738-784 (warm starts); BonFilterWarmStart.cpp;
    src/Interfaces/Filter/BonBqpdSolver.cpp 326-366 (sparse data), 430-474 (callOptimizer).
    Simplifications.  Doubles are exact rationals (an "infinite" bound is a large
    number).  std::sort is an argument.  The Fortran solvers are oracles.  The
    common blocks are left out. *)
From Verif Require Import Base Arr Itf_Model.
#[local] Open Scope Q_scope.

(** ** Problems in which nothing can move: zeroDimension, BonTNLPSolver.cpp 77-161 *)
(** Ipopt::SolverReturn, the values used here. *)
Inductive sreturn := SUCCESS_ | MAXITER_EXCEEDED_ | LOCAL_INFEASIBILITY_ | DIVERGING_ITERATES_ | INTERNAL_ERROR_.
(** What is given to finalize_solution. *)
Record final := mkFinal { f_st : sreturn; f_x : list Q; f_zl : option (list Q); f_zu : option (list Q);
                          f_g : list Q; f_lam : option (list Q); f_obj : Q }.
(** The problem: bounds and evaluations ([None]: the evaluation fails and writes nothing). *)
Record zprob := mkZprob { z_xl : list Q; z_xu : list Q; z_gl : list Q; z_gu : list Q;
                          z_f : list Q -> option Q; z_g : list Q -> option (list Q) }.
(** 96-106: leave at the first variable that can move. *)
Fixpoint movable (xl xu : list Q) : bool :=
  match xl, xu with
  | l :: xl', u :: xu' => if Qltb (1 # 100000) (u - l) then true else movable xl' xu'
  | _, _ => false
  end.
(** 128-130: the first violated constraint ends the loop. *)
Fixpoint violated (g gl gu : list Q) : bool :=
  match g, gl, gu with
  | v :: g', l :: gl', u :: gu' =>
      if (Qltb (v - l) (- (1 # 10000000)) || Qltb (1 # 10000000) (v - u))%bool then true else violated g' gl' gu'
  | _, _, _ => false
  end.
(** The result [None] is "return 0": the short-cut is not taken, the status argument not written.
    The return values of eval_f (111) and eval_g (121) are ignored: after a failed evaluation
    unwritten memory is used. *)
Definition zeroDimension (P : zprob) : outcome (option (rstatus * final)) :=
  if movable (z_xl P) (z_xu P) then Ok None
  else
    let x := z_xl P in
    match z_f P x, z_g P x with
    | Some obj, Some g =>
        if violated g (z_gl P) (z_gu P) then
          Ok (Some (provenInfeasible, mkFinal LOCAL_INFEASIBILITY_ x None None g None obj))
        else
          let z := repeat 0 (length x) in
          Ok (Some (solvedOptimal, mkFinal SUCCESS_ x (Some z) (Some z) g (Some (repeat 0 (length (z_gl P)))) obj))
    | _, _ => Uninit
    end.

(** ** Triplets to row packed: TMat2RowPMat, BonFilterSolver.cpp 160-240 *)
(** Transposer::operator(), 164-168 (indices are always below nnz). *)
Definition transposer_lt (rows cols : list Z) (i j : nat) : bool :=
  (Z.ltb (nth i rows 0%Z) (nth j rows 0%Z) || (Z.eqb (nth i rows 0%Z) (nth j rows 0%Z) && Z.ltb (nth i cols 0%Z) (nth j cols 0%Z)))%bool.
(** 182-197: larger index first. *)
Definition symmetrise (rows cols : list Z) : list (Z * Z) :=
  map (fun p => if Z.ltb (snd p) (fst p) then (fst p, snd p) else (snd p, fst p)) (combine rows cols).
(** [*start++ = v], k times. *)
Fixpoint put_starts (k : nat) (v : Z) (start : nat) (a : arr Z) : outcome (nat * arr Z) :=
  match k with
  | O => Ok (start, a)
  | S k' => do a' <- aset start v a; put_starts k' v (S start) a'
  end.
(** 213-220: entries of the permutation from the i-th on. *)
Fixpoint pack_loop (rows cols : list Z) (idx : Z) (off : nat) (perm : list nat) (i : nat) (row : Z) (start : nat) (a : arr Z)
    : outcome (Z * nat * arr Z) :=
  match perm with
  | [] => Ok (row, start, a)
  | p :: perm' =>
      do c <- rd p cols;
      do r <- rd p rows;
      do a1 <- aset (off + 1 + i) (c + idx)%Z a;
      if Z.ltb row r then
        do ' (start', a2) <- put_starts (Z.to_nat (r - row)) (Z.of_nat (i + off + 1)) start a1;
        pack_loop rows cols idx off perm' (S i) r start' a2
      else pack_loop rows cols idx off perm' (S i) row start a1
  end.
Definition sorter := (nat -> nat -> bool) -> list nat -> list nat.
(** The whole routine; gives the permutation and the array lws.  [cstyle]: indices from 0. *)
Definition TMat2RowPMat (sort : sorter) (symmetric : bool) (m nnz : nat) (iRow iCol : list Z) (lws : arr Z)
    (nnz_offset n_offset : nat) (cstyle : bool) : outcome (list nat * arr Z) :=
  if (Nat.ltb (length iRow) nnz || Nat.ltb (length iCol) nnz)%bool then OutOfBounds else
  let rc := if symmetric then symmetrise iRow iCol else combine iRow iCol in
  let rows := map fst rc in
  let cols := map snd rc in
  let perm := sort (transposer_lt rows cols) (seq 0 nnz) in
  let idx := if cstyle then 1%Z else 0%Z in
  let row := (1 - idx)%Z in
  do a <- aset 0 (Z.of_nat (nnz + nnz_offset + 1)) lws;
  let start := (nnz_offset + 1 + nnz + n_offset)%nat in
  do a <- aset start (Z.of_nat (1 + nnz_offset)) a;
  do ' (row, start, a) <- pack_loop rows cols idx nnz_offset perm 0 row (S start) a;
  do ' (_, a) <- put_starts (Z.to_nat (Z.of_nat m - idx - row + 1)) (Z.of_nat (nnz + nnz_offset + 1)) start a;
  Ok (perm, a).

(** [a[o + i] = values[perm[i]]]. *)
Fixpoint permute (values : list Q) (perm : list nat) : outcome (list Q) :=
  match perm with
  | [] => Ok []
  | p :: perm' => do v <- rd p values; do r <- permute values perm'; Ok (v :: r)
  end.

(** ** The sparse first derivatives given to filterSQP *)
(** cachedInfo::initialize, 477-496: the index array. *)
Definition filter_la (sort : sorter) (n m : nat) (iRow iCol : list Z) (cstyle : bool) : outcome (list nat * arr Z) :=
  let nnz := length iRow in
  do la <- aset (nnz + n + 1) 1%Z (fresh (n + nnz + m + 3));
  do la <- ablit 1 (map Z.of_nat (seq 1 n)) la;
  TMat2RowPMat sort false m nnz iRow iCol la n 1 cstyle.
(** gradient callback, 107-128: the values.  The number of entries is recomputed from la[0]. *)
Definition filter_a (n : nat) (la : arr Z) (perm : list nat) (grad jac : list Q) : outcome (list Q) :=
  do l0 <- aget 0 la;
  let nnz := Z.to_nat (l0 - Z.of_nat n - 1) in
  do jv <- permute jac (firstn nnz perm);
  Ok (firstn n grad ++ jv).
(** Hessian: structure 498-509, values 130-156.  The callback copies nnz_h + n + 2 cells. *)
Definition filter_hstruct (sort : sorter) (n : nat) (iRow iCol : list Z) (cstyle : bool) : outcome (list nat * arr Z) :=
  let nnz := length iRow in
  TMat2RowPMat sort true n nnz iRow iCol (fresh (nnz + n + 3)) 0 0 cstyle.
Definition filter_hess (n m phase nnz_h : nat) (hStruct : arr Z) (perm : list nat)
    (eval_h : Q -> list Q -> list Q) (lam : list Q) : outcome (arr Z * list Q) :=
  let obj_factor := if Nat.eqb phase 1 then 0 else 1 in
  if Nat.ltb (length hStruct) (nnz_h + n + 2) then OutOfBounds else
  if Nat.ltb (length lam) (n + m) then OutOfBounds else
  let mlam := map Qopp (firstn m (skipn n lam)) in
  do ws <- permute (eval_h obj_factor mlam) perm;
  Ok (firstn (nnz_h + n + 2) hStruct, ws).

(** ** The sparse data given to Bqpd: BonBqpdSolver.cpp 326-366 *)
(** 328-346: nonzero gradient entries, packed. *)
Fixpoint pack_grad (i : Z) (g : list Q) : list (Z * Q) :=
  match g with
  | [] => []
  | v :: g' => if Qeq_bool v 0 then pack_grad (i + 1) g' else ((i + 1)%Z, v) :: pack_grad (i + 1) g'
  end.
Definition bqpd_data (sort : sorter) (m : nat) (iRow iCol : list Z) (jac grad : list Q) : outcome (arr Z * list Q) :=
  let nnz := length iRow in
  let pg := pack_grad 0 grad in
  let ng := length pg in
  let amax := (nnz + ng)%nat in
  do la <- ablit 1 (map fst pg) (fresh (1 + (amax + m + 2)));
  do la <- aset (amax + 1) 1%Z la;
  do ' (perm, la) <- TMat2RowPMat sort false m nnz iRow iCol la ng 1 true;
  do jv <- permute jac perm;
  Ok (la, map snd pg ++ jv).

(** ** Termination codes *)
(** A C switch: the labels of each group, what it assigns, and whether it ends with a break.
    Control enters at the first group with the label and runs on until a break. *)
Definition switch (A : Type) := list (list Z * A * bool).
Fixpoint run_on {A} (s : switch A) (cur : A) : A :=
  match s with
  | [] => cur
  | (_, v, true) :: _ => v
  | (_, v, false) :: s' => run_on s' v
  end.
Fixpoint do_switch {A} (s : switch A) (c : Z) (cur : A) : A :=
  match s with
  | [] => cur
  | (ls, v, b) :: s' => if existsb (Z.eqb c) ls then run_on s cur else do_switch s' c cur
  end.
(** BonFilterSolver.cpp 578-610. *)
Definition filter_switch : switch (rstatus * sreturn) :=
  [([0%Z], (solvedOptimal, SUCCESS_), true);
   ([1%Z], (sUnbounded, DIVERGING_ITERATES_), false);            (* 586-588: no break *)
   ([2; 3; 4]%Z, (provenInfeasible, LOCAL_INFEASIBILITY_), true);
   ([5; 6; 8]%Z, (iterationLimit, MAXITER_EXCEEDED_), true);
   ([7]%Z, (externalException, INTERNAL_ERROR_), true);
   ([9; 10]%Z, (sException, INTERNAL_ERROR_), true)].
Definition filter_status (ifail : Z) : rstatus * sreturn := do_switch filter_switch ifail (sException, INTERNAL_ERROR_).
(** BonBqpdSolver.cpp 436-452. *)
Definition bqpd_switch : switch (rstatus * sreturn) :=
  [([0%Z], (solvedOptimal, SUCCESS_), true);
   ([1%Z], (sUnbounded, DIVERGING_ITERATES_), false);            (* no break *)
   ([2; 3]%Z, (provenInfeasible, LOCAL_INFEASIBILITY_), true)].
Definition bqpd_status (ifail : Z) : rstatus * sreturn := do_switch bqpd_switch ifail (sException, INTERNAL_ERROR_).

(** ** Multipliers reported after a filterSQP solve, 612-637 *)
Definition qmax0 (v : Q) : Q := qmax 0 v.
Fixpoint bound_mult (sgn : Q) (x b lam : list Q) : list Q :=
  match x, b, lam with
  | xi :: x', bi :: b', li :: lam' => (if Qeq_bool xi bi then qmax0 (sgn * li) else 0) :: bound_mult sgn x' b' lam'
  | _, _, _ => []
  end.
(** [bounds]: lower of variables, lower of constraints, upper of variables, upper of constraints. *)
Definition filter_report (n m : nat) (x bounds lam : list Q) : outcome (list Q * list Q * list Q) :=
  if (Nat.ltb (length x) n || Nat.ltb (length bounds) (2 * (n + m)) || Nat.ltb (length lam) (n + m))%bool then OutOfBounds else
  let zl := bound_mult 1 (firstn n x) (firstn n bounds) (firstn n lam) in
  let zu := bound_mult (-(1)) (firstn n x) (firstn n (skipn (n + m) bounds)) (firstn n lam) in
  Ok (zl, zu, map Qopp (firstn m (skipn n lam))).

(** ** Warm starts, BonFilterWarmStart.{hpp,cpp} *)
(** The primal and dual parts live in the CoinUtils base class. *)
Record fws := mkFws { w_x : list Q; w_lam : list Q; w_lws : list Z; w_istat : list Z; w_empty : bool }.
Definition def_istat : list Z := repeat 0%Z 14.
(** Constructor, 16-38: the flag empty_ starts as false. *)
Definition new_ws (x lam : list Q) (lws istat : list Z) : fws := mkFws x lam lws istat false.
(** getEmptyWarmStart, BonFilterSolver.cpp 766-770. *)
Definition getEmptyWarmStart : fws := new_ws [] [] [] def_istat.
(** generateDiff, 66-95.  The base class' part of the difference is represented by the new
    vectors (contract of CoinUtils). *)
Record fdiff := mkFdiff { d_x : list Q; d_lam : list Q; d_lws : list (nat * Z); d_istat : list Z }.
Fixpoint diff_loop (i : nat) (new old : list Z) : outcome (list (nat * Z)) :=
  match new with
  | [] => Ok []
  | v :: new' =>
      do o <- rd i old;
      do r <- diff_loop (S i) new' old;
      Ok (if Z.eqb v o then r else (i, (v - o)%Z) :: r)
  end.
Definition generateDiff (new old : fws) : outcome fdiff :=
  do d <- diff_loop 0 (w_lws new) (w_lws old);
  Ok (mkFdiff (w_x new) (w_lam new) d (w_istat new)).
(** applyDiff, 97-112. *)
Fixpoint apply_lws (d : list (nat * Z)) (l : list Z) : outcome (list Z) :=
  match d with
  | [] => Ok l
  | (i, v) :: d' => do o <- rd i l; do l' <- lset i (o + v)%Z l; apply_lws d' l'
  end.
Definition applyDiff (d : fdiff) (w : fws) : outcome fws :=
  do l <- apply_lws (d_lws d) (w_lws w);
  Ok (mkFws (d_x d) (d_lam d) l (d_istat d) (w_empty w)).

(** ** Where a filterSQP solve starts *)
(** cachedInfo: the point and the warm start flag.  [None]: no cache. *)
Record cache := mkCache { c_x : arr Q; c_use : bool }.
Record fsolver := mkFs { s_warm : option fws; s_cache : option cache }.
Definition fs_init : fsolver := mkFs None None.
(** new cachedInfo: x is allocated, not written (initialize 440-449). *)
Definition new_cache (n : nat) : cache := mkCache (fresh n) false.
(** load_ws, 646-660. *)
Definition load_ws (w : option fws) (c : cache) : outcome cache :=
  match w with
  | None => Ok c
  | Some w => do x <- ablit 0 (w_x w) (c_x c); Ok (mkCache x true)
  end.
Fixpoint read_all {A} (a : arr A) : outcome (list A) :=
  match a with
  | [] => Ok []
  | c :: a' => do v <- match c with None => Uninit | Some v => Ok v end; do r <- read_all a'; Ok (v :: r)
  end.
(** optimize, 663-680: the starting point passed to the solver and the flag ifail (-1: warm);
    [sol] is the point the solver leaves in x. *)
Definition optimize (x0 sol : list Q) (c : cache) : outcome (list Q * Z * cache) :=
  let x := if c_use c then c_x c else map Some x0 in
  do st <- read_all x;
  Ok (st, if c_use c then (-1)%Z else 0%Z, mkCache (map Some sol) false).
(** setWarmStart, 737-756. *)
Definition setWarmStart (n : nat) (w : option fws) (s : fsolver) : fsolver :=
  let c := match w, s_cache s with
           | Some _, Some c => Some c
           | _, _ => Some (new_cache n)
           end in
  match w with
  | None => mkFs (s_warm s) c
  | Some w => if w_empty w then mkFs None c else mkFs (Some w) c
  end.
Definition disableWarmStart (s : fsolver) : fsolver := mkFs None (s_cache s).
(** OptimizeTNLP, 363-371. *)
Definition OptimizeTNLP (n : nat) (x0 sol : list Q) (s : fsolver) : outcome (list Q * Z * fsolver) :=
  let c := match s_cache s with
           | Some c => if c_use c then c else new_cache n
           | None => new_cache n
           end in
  do c <- load_ws (s_warm s) c;
  do ' (st, f, c) <- optimize x0 sol c;
  Ok (st, f, mkFs (s_warm s) (Some c)).
(** ReOptimizeTNLP, 374-398. *)
Definition ReOptimizeTNLP (x0 sol : list Q) (s : fsolver) : outcome (list Q * Z * fsolver) :=
  match s_cache s with
  | None => NullDeref
  | Some c =>
      do c <- load_ws (s_warm s) c;
      do ' (st, f, c) <- optimize x0 sol c;
      Ok (st, f, mkFs (s_warm s) (Some c))
  end.
Inductive fop := SetWarm (w : option fws) | Disable | Solve (x0 sol : list Q) | Resolve (x0 sol : list Q).
(** Run a sequence of calls; collects the starting points. *)
Fixpoint fs_run (n : nat) (ops : list fop) (s : fsolver) : outcome (list (list Q * Z)) :=
  match ops with
  | [] => Ok []
  | SetWarm w :: ops' => fs_run n ops' (setWarmStart n w s)
  | Disable :: ops' => fs_run n ops' (disableWarmStart s)
  | Solve x0 sol :: ops' =>
      do ' (st, f, s') <- OptimizeTNLP n x0 sol s; do r <- fs_run n ops' s'; Ok ((st, f) :: r)
  | Resolve x0 sol :: ops' =>
      do ' (st, f, s') <- ReOptimizeTNLP x0 sol s; do r <- fs_run n ops' s'; Ok ((st, f) :: r)
  end.
