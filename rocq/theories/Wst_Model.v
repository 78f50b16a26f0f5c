(** Starting points over a sequence of solves: the warm starts of IpoptSolver and of the interface, what the re-solves do to the starting point, and
    the interior warm start.
    src/Interfaces/BonOsiTMINLPInterface.cpp 836-1093 (resolveForCost, resolveForRobustness), 1402-1427, 1440-1536, 1748-1796, 2771-2900 (initialSolve,
    resolve); src/Interfaces/Ipopt/BonIpoptSolver.cpp 345-432; BonIpoptWarmStart.hpp/.cpp; BonIpoptInteriorWarmStarter.cpp;
    src/Interfaces/Filter/BonBqpdWarmStart.cpp; src/Interfaces/BonTMINLP2TNLP.cpp 280-303, 360-412.
    Simplifications.  Doubles are exact rationals.  The number of variables and rows is fixed.  Whether duals_init_ still points into x_init_ is the
    subject of C15; here only whether it is NULL.  The values found by the solves, and the random points, are arguments.  Of a solve only the outcome
    (failed; infeasible by next to nothing; other) and the point found count; which of several points is kept by resolveForCost is the subject of C30. *)
From Verif Require Import Base Arr.
#[local] Open Scope Q_scope.

(** ** IpoptWarmStart: primal and dual values and the flag. *)
Record ws := mkWs { w_empty : bool; w_x : list Q; w_d : list Q }.
(** flushPoint, BonIpoptWarmStart.cpp 109-113. *)
Definition flush (w : ws) : ws := mkWs (w_empty w) [] [].

(** What a solve is started from: the point, and the multipliers if they are asked for. *)
Record start := mkStart { q_x : list Q; q_d : option (list Q) }.
Inductive kind := Failed | Odd | Good.
Record answer := mkAns { a_kind : kind; a_x : list Q; a_d : list Q }.

Section Problem.
Variable n m : nat.
Variable user : list Q.                (* x_init_user_ *)
Variable ans : nat -> answer.          (* what the k-th solve finds *)
Variable rnd : nat -> list Q.          (* the random point generated before the k-th solve *)
(** warmStartMode_: 0 None, 1 FakeBasis, 2 Optimum, 3 InteriorPoint. *)
Variable mode : nat.
Variable pretend : bool.               (* pretendFailIsInfeasible_ *)
Variable retry_unsolved : nat.         (* numRetryUnsolved_ *)

(** x_init_, whether it has ever had storage, duals_init_ != NULL; enable_warm_start_ (with Ipopt's warm_start_init_point); x_sol_, duals_sol_;
    the outcome of the last solve; warmstart_; the starts of all solves, None where the problem refused to give one. *)
Record st := mkSt { s_x : list Q; s_alloc : bool; s_du : bool; s_warm : bool; s_xs : list Q; s_ds : list Q; s_kind : kind; s_ws : option ws;
                    s_log : list (option start) }.
Definition init : st := mkSt [] false false false [] [] Good None [].
Definition set_warm (b : bool) (s : st) : st := mkSt (s_x s) (s_alloc s) (s_du s) b (s_xs s) (s_ds s) (s_kind s) (s_ws s) (s_log s).
Definition set_ws (w : option ws) (s : st) : st := mkSt (s_x s) (s_alloc s) (s_du s) (s_warm s) (s_xs s) (s_ds s) (s_kind s) w (s_log s).
Definition set_init (x : list Q) (al du : bool) (s : st) : st := mkSt x al du (s_warm s) (s_xs s) (s_ds s) (s_kind s) (s_ws s) (s_log s).

(** setxInit, BonTMINLP2TNLP.cpp 286-292 (from setColSolution). *)
Definition setxInit (x : list Q) (s : st) : outcome st :=
  do _ <- chk (Nat.eqb (length x) n);
  Ok (set_init (x ++ skipn n (s_x s)) (s_alloc s || Nat.ltb 0 n) (s_du s) s).
(** setDualsInit, 294-303 (from setRowPrice). *)
Definition setDualsInit (d : list Q) (s : st) : outcome st :=
  do _ <- chk (Nat.eqb (length d) (n * 2 + m));
  Ok (set_init (firstn n (s_x s) ++ repeat 0 (n - length (s_x s)) ++ d) (s_alloc s || Nat.ltb 0 (3 * n + m)) true s).
(** resetStartingPoint, 280-284. *)
Definition reset (s : st) : st := set_init [] (s_alloc s) (s_du s) s.
(** get_starting_point, 360-397, as Ipopt calls it: the point always, the multipliers if warm starts are on. *)
Definition get_start (s : st) : outcome (option start) :=
  do x <- (match s_x s with
           | [] => do _ <- chk (Nat.leb n (length user)); Ok (firstn n user)
           | l => if Nat.leb n (length l) then Ok (firstn n l) else OutOfBounds
           end);
  if s_warm s then
    if s_du s then do _ <- chk (Nat.eqb (length (s_x s)) (3 * n + m)); Ok (Some (mkStart x (Some (skipn n (s_x s))))) else Ok None
  else Ok (Some (mkStart x None)).
(** A solve.  If no starting point is given, Ipopt ends with an error. *)
Definition call (s : st) : outcome st :=
  do q <- get_start s;
  let a := ans (length (s_log s)) in
  Ok (match q with
      | None => mkSt (s_x s) (s_alloc s) (s_du s) (s_warm s) (s_xs s) (s_ds s) Failed (s_ws s) (s_log s ++ [None])
      | Some q => mkSt (s_x s) (s_alloc s) (s_du s) (s_warm s) (a_x a) (a_d a) (a_kind a) (s_ws s) (s_log s ++ [Some q])
      end).

(** IpoptSolver::setWarmStart, 369-401. *)
Definition solver_setWarmStart (w : option ws) (s : st) : outcome st :=
  match w with
  | None => Ok s
  | Some w =>
      if w_empty w then Ok (set_warm false s)
      else
        do s <- (if Nat.ltb 0 (length (w_d w)) then do s <- setDualsInit (w_d w) s; Ok (set_warm true s) else Ok (set_warm false s));
        do _ <- chk (Nat.eqb n (length (w_x w))); do _ <- chk (Nat.eqb (2 * n + m) (length (w_d w)));
        setxInit (w_x w) s
  end.
(** getUsedWarmStart, 345-355.  x_init() is the start of the vector's storage, used or not. *)
Definition used (s : st) : outcome (option ws) :=
  if (negb (s_alloc s) || negb (s_du s))%bool then Ok None
  else if Nat.leb (3 * n + m) (length (s_x s)) then Ok (Some (mkWs false (firstn n (s_x s)) (firstn (2 * n + m) (skipn n (s_x s))))) else OutOfBounds.
(** getWarmStart, 357-366. *)
Definition solver_getWarmStart (s : st) : outcome ws :=
  if (Nat.leb n (length (s_xs s)) && Nat.leb (2 * n + m) (length (s_ds s)))%bool then Ok (mkWs false (firstn n (s_xs s)) (firstn (2 * n + m) (s_ds s))) else OutOfBounds.
(** warmStartIsValid, 403-410. *)
Definition valid (w : ws) : bool := negb (w_empty w).

(** randomStartingPoint, BonOsiTMINLPInterface.cpp 1748-1796. *)
Definition randomStart (s : st) : outcome st := setxInit (rnd (length (s_log s))) (set_warm false s).

(** resolveForCost, 836-986.  [best]: which of the points is kept; the kind is that of the first solve or of an optimal one. *)
Fixpoint tries (k : nat) (s : st) : outcome st :=
  match k with O => Ok s | S k => do s <- randomStart s; do s <- call s; tries k s end.
Definition cost (k : nat) (keep : bool) (best : list Q * list Q) (s : st) : outcome st :=
  let s := set_ws None s in
  do b <- (if (Nat.leb mode 2 && keep)%bool then used s else Ok None);
  let kd := s_kind s in
  do s <- tries k s;
  let s := mkSt (s_x s) (s_alloc s) (s_du s) (s_warm s) (fst best) (snd best) kd (s_ws s) (s_log s) in
  if (Nat.ltb mode 2 && keep)%bool then solver_setWarmStart b s else Ok s.

(** resolveForRobustness, 988-1093. *)
Definition failed (s : st) : bool := match s_kind s with Failed => true | _ => false end.
Fixpoint again (k : nat) (s : st) : outcome (bool * st) :=
  match k with
  | O => Ok (false, s)
  | S k => do s <- randomStart s; do s <- call s; if failed s then again k s else Ok (true, s)
  end.
Definition robust (k : nat) (s : st) : outcome st :=
  let s := set_ws None s in
  do b <- (if Nat.ltb mode 2 then used s else Ok None);
  let s := reset (set_warm false s) in
  do s <- call s;
  do ' p <- (if failed s then again k s else Ok (true, s));
  let '(solved, s) := p in
  let s := if solved then set_warm true s else s in
  do s <- (if Nat.ltb mode 2 then solver_setWarmStart b s else Ok s);
  if (solved || pretend)%bool then Ok s else Thrown.

(** After the first solve, 2816-2836 and 2885-2899: [retry]: the number of solves from random points that are due if the first one ended well. *)
Definition after (retry : nat) (keep : bool) (best : list Q * list Q) (s : st) : outcome st :=
  do s <- (match s_kind s with
           | Failed | Odd => robust retry_unsolved s
           | Good => if Nat.ltb 0 retry then cost retry keep best s else Ok s
           end);
  match s_ws s with
  | None => if (negb (failed s) && Nat.leb 2 mode)%bool then do w <- solver_getWarmStart s; Ok (set_ws (Some w) s) else Ok s
  | Some _ => Ok s
  end.
(** initialSolve, 2779-2836. *)
Definition initialSolve (retry : nat) (keep : bool) (best : list Q * list Q) (s : st) : outcome st :=
  let s := set_ws None s in
  let s := if Nat.leb 2 mode then set_warm false s else s in
  do s <- call s; after retry keep best s.
(** resolve, 2846-2900. *)
Definition resolve (retry : nat) (best : list Q * list Q) (s : st) : outcome st :=
  match s_ws s with
  | None => initialSolve retry false best s
  | Some w =>
      if valid w then
        do s <- solver_setWarmStart (Some w) s;
        let s := set_ws None s in
        do s <- call (set_warm (s_du s) s); after retry false best s
      else initialSolve retry false best s
  end.
(** setWarmStart of the interface, 1456-1464 and 1508-1536.  The warm start is one of Ipopt's. *)
Definition setWarmStart (w : option ws) (s : st) : st :=
  if Nat.leb 2 mode then set_ws (match w with Some w => if valid w then Some w else Some (mkWs false (w_x w) (w_d w)) | None => None end) s else s.

Inductive op :=
| OInit (retry : nat) (keep : bool) (best : list Q * list Q)
| OResolve (retry : nat) (best : list Q * list Q)
| OSetWs (w : option ws)
| OSetCol (x : option (list Q))          (* setColSolution, 1402-1410 *)
| OSetPrice (d : list Q).                (* setRowPrice, 1422-1427 *)
Definition step (s : st) (o : op) : outcome st :=
  match o with
  | OInit r k b => initialSolve r k b s
  | OResolve r b => resolve r b s
  | OSetWs w => Ok (setWarmStart w s)
  | OSetCol (Some x) => setxInit x s
  | OSetCol None => Ok (reset s)
  | OSetPrice d => setDualsInit d s
  end.
Fixpoint run (ops : list op) (s : st) : outcome st := match ops with [] => Ok s | o :: ops => do s <- step s o; run ops s end.
End Problem.

(** ** Copies and differences, BonIpoptWarmStart.cpp 58-105, hpp 104-141.  [A]: the interior warm starter.  [D]: the difference of the values, made
    and applied by CoinWarmStartPrimalDual. *)
Section Diff.
Variable A D : Type.
Variable vgen : list Q * list Q -> list Q * list Q -> D.
Variable vapply : D -> list Q * list Q -> list Q * list Q.
Record iws := mkIws { i_empty : bool; i_val : list Q * list Q; i_starter : option A }.
Definition copy (w : iws) : iws := mkIws (i_empty w) (i_val w) None.
Definition generateDiff (w old : iws) : D * option A := (vgen (i_val w) (i_val old), None).
Definition applyDiff (d : D * option A) (w : iws) : iws := mkIws (i_empty w) (vapply (fst d) (i_val w)) (snd d).
End Diff.

(** ** IpoptInteriorWarmStarter *)
(** The vectors of an iterate: x of the variables that are not fixed, z_L and z_U of their finite bounds, the others unchanged in size. *)
Record iterate := mkIt { t_x : list Q; t_zl : list Q; t_zu : list Q; t_s : list Q; t_yc : list Q; t_yd : list Q; t_vl : list Q; t_vu : list Q }.
Section Interior.
Variable low high : Q.                   (* nlp_lower_bound_inf_, nlp_upper_bound_inf_ *)
(** UpdateStoredIterates, 49-85; [several]: store_several_iterates_; regular: not in the restoration phase. *)
Definition update (several : bool) (regular : bool) (i : iterate) (l : list iterate) : list iterate :=
  if negb regular then l
  else match l with
       | [] => [i]
       | _ :: t => if several then l ++ [i] else i :: t
       end.
(** The loop of WarmStartIterate, 158-190: the values written, and the positions read from. *)
Fixpoint walk (prev new : list (Q * Q)) (p : iterate) (ix il iu : nat) : outcome (list Q * list Q * list Q) :=
  match prev, new with
  | [], [] => Ok ([], [], [])
  | (pl, pu) :: prev, (l, u) :: new =>
      if Qltb l u then
        do x <- rd ix (t_x p);
        do zl <- (if Qltb low l then do z <- rd il (t_zl p); Ok [z] else Ok []);
        do zu <- (if Qltb u high then do z <- rd iu (t_zu p); Ok [z] else Ok []);
        do r <- walk prev new p (S ix) (il + length zl) (iu + length zu);
        Ok (x :: fst (fst r), zl ++ snd (fst r), zu ++ snd r)
      else if Qltb pl pu then walk prev new p (S ix) (S il) (S iu)
      else walk prev new p ix il iu
  | _, _ => AssertFail                                      (* assert(n==n_) *)
  end.
(** Values written to the start of an array. *)
Definition put (v dst : list Q) : outcome (list Q) := if Nat.leb (length v) (length dst) then Ok (v ++ skipn (length v) dst) else OutOfBounds.
(** WarmStartIterate, 96-218; [dst]: the iterate to be filled.  None: no iterate is stored. *)
Definition warmStartIterate (stored : list iterate) (prev new : list (Q * Q)) (dst : iterate) : outcome (option iterate) :=
  do _ <- chk (Nat.eqb (length prev) (length new));
  match stored with
  | [] => Ok None
  | _ =>
      do p <- rd (length stored - 5) stored;
      do r <- walk prev new p 0 0 0;
      do x <- put (fst (fst r)) (t_x dst); do zl <- put (snd (fst r)) (t_zl dst); do zu <- put (snd r) (t_zu dst);
      do s <- put (t_s p) (t_s dst); do yd <- put (firstn (length (t_s p)) (t_yd p)) (t_yd dst);
      do yc <- put (t_yc p) (t_yc dst); do vl <- put (t_vl p) (t_vl dst); do vu <- put (t_vu p) (t_vu dst);
      Ok (Some (mkIt x zl zu s yc yd vl vu))
  end.
End Interior.

(** ** BqpdWarmStart *)
Record bws := mkBws { h_x : list Q; h_lam : list Q; h_size : nat; h_lws : option (list Z); h_istat : list Z; h_empty : bool }.
Definition copy_lws (size : nat) (a : option (list Z)) : outcome (option (list Z)) :=
  if Nat.ltb 0 size then match a with Some l => if Nat.leb size (length l) then Ok (Some (firstn size l)) else OutOfBounds | None => NullDeref end else Ok None.
(** 16-39 *)
Definition new_bws (x lam : list Q) (size : nat) (a : option (list Z)) (istat : list Z) : outcome bws :=
  do l <- copy_lws size a; if Nat.leb 14 (length istat) then Ok (mkBws x lam size l (firstn 14 istat) false) else OutOfBounds.
(** 42-59 *)
Definition copy_bws (w : bws) : outcome bws := do l <- copy_lws (h_size w) (h_lws w); Ok (mkBws (h_x w) (h_lam w) (h_size w) l (h_istat w) (h_empty w)).
(** 84-91 *)
Definition flush_bws (w : bws) : bws := mkBws [] [] (h_size w) None (h_istat w) (h_empty w).
