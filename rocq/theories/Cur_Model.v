(** Strong branching by curvature:
    src/Interfaces/BonCurvatureEstimator.cpp 199-816 (the estimator),
    src/Algorithms/Branching/BonCurvBranchingSolver.cpp 56-185 (the strong branching solver),
    src/Interfaces/BonOsiTMINLPInterface.cpp 3039-3095 (hot starts with such a solver).

    [P] is the TMINLP2TNLP given to the estimator, [ls] the linear solver.  Simplifications:
    user callbacks succeed; the second attempt after SYMSOLVER_SINGULAR (741-746) is part of
    [ls]; printing is left out, DBG_ASSERT is compiled out.  A user may keep what it computed for
    a point until it is told of a new one; with [kl] it does the same for the multipliers
    (Ipopt's documentation of new_x and new_lambda allows both). *)
From Verif Require Import Base Arr Nlp.
#[local] Open Scope Q_scope.

(** Comparisons of bounds, lines 379, 412, 577, 609. *)
Definition eeqb (a b : ext) : bool :=
  match a, b with Fin x, Fin y => Qeq_bool x y | MInf, MInf | PInf, PInf => true | _, _ => false end.
Definition eltb (a b : ext) : bool :=
  match a, b with
  | Fin x, Fin y => Qltb x y
  | MInf, Fin _ | MInf, PInf | Fin _, PInf => true
  | _, _ => false
  end.

Section Estimator.
Variables (P : nlp) (kl : bool).
(** TSymLinearSolver::Solve for the matrix [I J^T; J 0]: sizes, entries of J (from 0), the two
    right-hand sides; [None]: not SYMSOLVER_SUCCESS. *)
Variable ls : nat -> nat -> list (nat * nat * Q) -> list Q -> list Q -> option (list Q * list Q).

(** What the user's functions remember. *)
Record user := mkU { u_x : option (list Q); u_l : option (list Q) }.
Definition told {A} (new : bool) (v : A) (old : option A) : outcome A :=
  if new then Ok v else match old with Some w => Ok w | None => Uninit end.
(** eval_jac_g and eval_h of the user. *)
Definition call_jac (x : list Q) (new_x : bool) (u : user) : outcome (list Q * user) :=
  do x <- told new_x x (u_x u); Ok (p_jv P x, mkU (Some x) (u_l u)).
Definition call_h (x : list Q) (new_x : bool) (lam : list Q) (new_l : bool) (u : user) : outcome (list Q * user) :=
  do x <- told new_x x (u_x u);
  do l <- told (new_l || negb kl)%bool lam (u_l u);
  Ok (p_hv P x 1 l, mkU (Some x) (Some l)).

(** ** PrepareNewMatrixStructure, 544-661 *)
(** A projection space: free variables and fixed rows with their new numbers (None: -1),
    their counts, and the positions of the entries of the Jacobian kept. *)
Record space := mkS {
  s_x : list (option nat); s_nx : nat; s_g : list (option nat); s_ng : nat; s_st : list (nat * nat)
}.
Fixpoint number (marks : list bool) (k : nat) : list (option nat) * nat :=      (* 581-588, 613-620 *)
  match marks with
  | [] => ([], k)
  | true :: r => let (l, k') := number r (S k) in (Some k :: l, k')
  | false :: r => let (l, k') := number r k in (None :: l, k')
  end.
Fixpoint mark_all (l : list nat) (b : bool) (marks : list bool) : outcome (list bool) :=  (* 562-574, 594-606 *)
  match l with [] => Ok marks | i :: l => do m <- lset i b marks; mark_all l b m end.
Fixpoint mark_eq (lo up : list ext) (b : bool) (marks : list bool) {struct marks} : outcome (list bool) :=  (* 575-580, 607-612 *)
  match marks with
  | [] => Ok []
  | v :: marks =>
      match lo, up with
      | l :: lo, u :: up => do r <- mark_eq lo up b marks; Ok ((if eeqb l u then b else v) :: r)
      | _, _ => OutOfBounds
      end
  end.
Fixpoint keep_st (xm gm : list (option nat)) (st : list (nat * nat)) : outcome (list (nat * nat)) :=  (* 624-636 *)
  match st with
  | [] => Ok []
  | (r, c) :: st =>
      do a <- rd c xm; do b <- rd r gm; do t <- keep_st xm gm st;
      Ok match a, b with Some i, Some j => (j, i) :: t | _, _ => t end
  end.

(** ** The estimator, BonCurvatureEstimator.hpp 110-200 *)
Record est := mkE {
  e_init : bool;                      (* initialized_ *)
  e_n : nat; e_m : nat;               (* n_, m_ *)
  e_jst : list (nat * nat); e_hst : list (nat * nat);   (* from 0 *)
  e_jv : option (list Q);             (* jac_vals_; None: not written *)
  e_hv : option (list Q);             (* hess_vals_; None: NULL *)
  e_ax : list nat; e_ag : list nat;   (* active_x_, active_g_ without their signs *)
  e_eq : option (space * list Q);     (* eq_*: the space and the values of its matrix *)
  e_all : option (space * list Q)     (* all_* *)
}.
Definition new_est : est := mkE false 0 0 [] [] None None [] [] None None.
(** Initialize, 199-285. *)
Definition from0 (rc : nat * nat) : nat * nat := (fst rc - p_off P, snd rc - p_off P)%nat.
Definition e_initialize : est :=
  mkE true (p_n P) (p_m P) (map from0 (p_jst P)) (map from0 (p_hst P)) None None [] [] None None.

Definition structure (e : est) (xl xu gl gu : list ext) (ax ag : list nat) : outcome space :=
  do mx <- mark_all ax false (repeat true (e_n e));
  do mx <- mark_eq xl xu false mx;
  let (xm, nx) := number mx 0 in
  do mg <- mark_all ag true (repeat false (e_m e));
  do mg <- mark_eq gl gu true mg;
  let (gm, ng) := number mg 0 in
  do st <- keep_st xm gm (e_jst e);
  Ok (mkS xm nx gm ng st).
(** PrepareNewMatrixValues, 663-689: the values written in the order of the entries. *)
Fixpoint keep_vals (xm gm : list (option nat)) (st : list (nat * nat)) (jv : list Q) : outcome (list Q) :=
  match st with
  | [] => Ok []
  | (r, c) :: st =>
      match jv with
      | [] => OutOfBounds
      | v :: jv =>
          do a <- rd c xm; do b <- rd r gm; do t <- keep_vals xm gm st jv;
          Ok match a, b with Some _, Some _ => v :: t | _, _ => t end
      end
  end.
Definition values (e : est) (s : space) : outcome (list Q) :=
  match e_jv e with
  | None => Uninit
  | Some jv => do v <- keep_vals (s_x s) (s_g s) (e_jst e) jv;
               if Nat.ltb (length (s_st s)) (length v) then OutOfBounds else Ok v
  end.

(** ** SolveSystem, 691-787, with rhs_g and sol_g NULL as in both calls *)
Fixpoint fill (xm : list (option nat)) (rhs : list Q) (a : arr Q) : outcome (arr Q) :=   (* 705-716 *)
  match xm with
  | [] => Ok a
  | o :: xm =>
      match rhs with
      | [] => OutOfBounds
      | v :: rhs => do a <- match o with Some ix => aset ix v a | None => Ok a end; fill xm rhs a
      end
  end.
Fixpoint sealed (a : arr Q) : outcome (list Q) :=
  match a with [] => Ok [] | None :: _ => Uninit | Some v :: a => do r <- sealed a; Ok (v :: r) end.
Fixpoint spread (xm : list (option nat)) (xv : list Q) : outcome (list Q) :=             (* 755-769 *)
  match xm with
  | [] => Ok []
  | o :: xm => do v <- match o with Some ix => rd ix xv | None => Ok 0 end;
               do r <- spread xm xv; Ok (v :: r)
  end.
Definition SolveSystem (rhs : list Q) (sv : space * list Q) : outcome (option (list Q)) :=
  let (s, v) := sv in
  do a <- fill (s_x s) rhs (fresh (s_nx s));
  do r <- sealed a;
  match ls (s_nx s) (s_ng s) (combine (s_st s) v) r (repeat 0 (s_ng s)) with
  | None => Ok None
  | Some (xv, _) => do d <- spread (s_x s) xv; Ok (Some d)
  end.

(** ** ComputeNullSpaceCurvature, 287-542 *)
Definition ztol : Q := 1 # 10000.
(** Variables taken as fixed, 374-393. *)
Fixpoint active_x (i : nat) (xl xu : list ext) (zL zU d : list Q) {struct d} : outcome (list nat) :=
  match d with
  | [] => Ok []
  | di :: d =>
      match xl, xu, zL, zU with
      | l :: xl, u :: xu, a :: zL, b :: zU =>
          do r <- active_x (S i) xl xu zL zU d;
          Ok (if (eltb l u && ((Qltb 0 di && Qltb ztol (b * di)) ||
                               (Qltb di 0 && Qltb ztol (- a * di))))%bool
              then i :: r else r)
      | _, _, _, _ => OutOfBounds
      end
  end.
(** jacTd, 396-406, and the residuals of the sanity check, 480-494 (where only kept entries count). *)
Fixpoint jprod (keep : nat -> nat -> outcome bool) (st : list (nat * nat)) (jv d : list Q) (acc : list Q) : outcome (list Q) :=
  match st with
  | [] => Ok acc
  | (r, c) :: st =>
      match jv with
      | [] => OutOfBounds
      | v :: jv =>
          do k <- keep r c;
          do acc <- (if k then do w <- rd r acc; do dc <- rd c d; lset r (w + v * dc) acc else Ok acc);
          jprod keep st jv d acc
      end
  end.
(** Rows taken as fixed, 408-428. *)
Fixpoint active_g (j : nat) (gl gu : list ext) (lam jd : list Q) {struct jd} : outcome (list nat) :=
  match jd with
  | [] => Ok []
  | v :: jd =>
      match gl, gu, lam with
      | l :: gl, u :: gu, a :: lam =>
          do r <- active_g (S j) gl gu lam jd;
          Ok (if (eltb l u && Qltb ztol (Qabs a) && Qltb 0 (a * v))%bool then j :: r else r)
      | _, _, _ => OutOfBounds
      end
  end.
(** IpBlasIdamax, 501-502: the entry of largest absolute value, the first one if several. *)
Fixpoint idamax (best : Q) (l : list Q) : Q :=
  match l with [] => best | v :: l => idamax (if Qltb (Qabs best) (Qabs v) then v else best) l end.
Definition max_trash (t : list Q) : outcome Q :=
  match t with [] => OutOfBounds (* trash[-1] *) | v :: t => Ok (idamax v t) end.
Definition trash_tol : Q := 1 # 1000000.
(** Compute_dTHLagd, 789-816. *)
Fixpoint quad (st : list (nat * nat)) (hv d : list Q) (acc : Q) : outcome Q :=
  match st with
  | [] => Ok acc
  | (r, c) :: st =>
      match hv with
      | [] => OutOfBounds
      | h :: hv => do a <- rd r d; do b <- rd c d;
                   quad st hv d (acc + (if Nat.eqb r c then a * a * h else 2 * a * b * h))
      end
  end.
Definition kept (s : space) (r c : nat) : outcome bool :=
  do a <- rd c (s_x s); do b <- rd r (s_g s);
  Ok match a, b with Some _, Some _ => true | _, _ => false end.

Record call := mkC {
  k_x : list Q; k_newx : bool; k_xl : list ext; k_xu : list ext; k_gl : list ext; k_gu : list ext;
  k_zL : list Q; k_zU : list Q; k_lam : list Q; k_d : list Q
}.
(** The values of the Jacobian and the space of the equality constraints, 327-355. *)
Definition curv_start (c : call) (e : est) (u : user) : outcome (est * user) :=
  let e := if e_init e then e else e_initialize in
  if k_newx c then
    do ' (jv, u) <- call_jac (k_x c) true u;
    let e := mkE (e_init e) (e_n e) (e_m e) (e_jst e) (e_hst e) (Some jv) (e_hv e) (e_ax e) (e_ag e) (e_eq e) (e_all e) in
    do s <- structure e (k_xl c) (k_xu c) (k_gl c) (k_gu c) [] [];
    do v <- values e s;
    Ok (mkE (e_init e) (e_n e) (e_m e) (e_jst e) (e_hst e) (e_jv e) (e_hv e) (e_ax e) (e_ag e) (Some (s, v)) (e_all e), u)
  else Ok (e, u).
(** The activities for the direction [d] and the space of all active rows, 369-455 (new_bounds is
    true, 321-322). *)
Definition curv_active (c : call) (d : list Q) (ng : nat) (e : est) : outcome (est * (space * list Q)) :=
  do ax <- (if Nat.ltb 0 ng then active_x 0 (k_xl c) (k_xu c) (k_zL c) (k_zU c) d else Ok []);
  do jd <- match e_jv e with
           | None => Uninit
           | Some jv => jprod (fun _ _ => Ok true) (e_jst e) jv d (repeat 0 (e_m e))
           end;
  do ag <- active_g 0 (k_gl c) (k_gu c) (k_lam c) jd;
  do s <- structure e (k_xl c) (k_xu c) (k_gl c) (k_gu c) ax ag;
  do v <- values e s;
  Ok (mkE (e_init e) (e_n e) (e_m e) (e_jst e) (e_hst e) (e_jv e) (e_hv e) ax ag (e_eq e) (Some (s, v)), (s, v)).
(** From line 357 on.  Result: [None] for false; otherwise projected_d, gradLagTd (always 0, line 521)
    and dTHLagd. *)
Definition curv_rest (c : call) (e : est) (u : user) : outcome (option (list Q * Q * Q) * est * user) :=
  match e_eq e with
  | None => Uninit
  | Some sv =>
      do o <- (if Nat.ltb 0 (s_ng (fst sv)) then SolveSystem (k_d c) sv else Ok (Some (k_d c)));   (* 357-367 *)
      match o with
      | None => Ok (None, e, u)
      | Some d =>
          do ' (e, sv') <- curv_active c d (s_ng (fst sv)) e;
          do o <- SolveSystem d sv';                                                              (* 470-476 *)
          match o with
          | None => Ok (None, e, u)
          | Some pd =>
              do t <- match e_jv e with
                      | None => Uninit
                      | Some jv => jprod (kept (fst sv')) (e_jst e) jv pd (repeat 0 (e_m e))
                      end;
              do w <- max_trash t;
              if Qltb trash_tol w then Ok (None, e, u)                                            (* 504-509 *)
              else
                do ' (hv, u) <- (if (k_newx c || match e_hv e with None => true | _ => false end)%bool
                                 then call_h (k_x c) (k_newx c) (k_lam c) false u                 (* 534, new_lambda = false *)
                                 else match e_hv e with Some hv => Ok (hv, u) | None => NullDeref end);
                let e := mkE (e_init e) (e_n e) (e_m e) (e_jst e) (e_hst e) (e_jv e) (Some hv) (e_ax e) (e_ag e) (e_eq e) (e_all e) in
                do q <- quad (e_hst e) hv pd 0;
                Ok (Some (pd, 0, q), e, u)
          end
      end
  end.
Definition curvature (c : call) (e : est) (u : user) : outcome (option (list Q * Q * Q) * est * user) :=
  do ' (e, u) <- curv_start c e u; curv_rest c e u.

(** ** CurvBranchingSolver and the interface's hot starts *)
Inductive status := solvedOptimal | iterationLimit | computationError | otherStatus (k : nat).
(** The node held by the interface: bounds, last solution (NULL before a solve), its value and status. *)
Record node := mkN {
  n_xl : list ext; n_xu : list ext; n_gl : list ext; n_gu : list ext;
  n_x : option (list Q); n_du : option (list Q); n_obj : Q; n_stat : status
}.
Record csb := mkCS {
  c_est : option est;                                   (* cur_estimator_ *)
  c_new : bool;                                         (* new_x_ (new_bounds_, new_mults_ are always equal to it) *)
  c_sol : option (list Q); c_du : option (list Q); c_obj : Q;
  c_bnd : option (list ext * list ext * list ext * list ext)   (* x_l_orig_, ... *)
}.
Definition new_csb : csb := mkCS None true None None 0 None.
Record world := mkW { w_node : node; w_csb : csb; w_user : user; w_before : option status }.

(** markHotStart, 56-109; interface 3050-3051. *)
Definition markHotStart (w : world) : world :=
  let n := w_node w in
  mkW n (mkCS (Some match c_est (w_csb w) with None => new_est | Some e => e end) true (n_x n) (n_du n) (n_obj n)
              (Some (n_xl n, n_xu n, n_gl n, n_gu n))) (w_user w) (Some (n_stat n)).
(** unmarkHotStart, 111-131; interface 3087-3088. *)
Definition set_stat (s : status) (n : node) : node :=
  mkN (n_xl n) (n_xu n) (n_gl n) (n_gu n) (n_x n) (n_du n) (n_obj n) s.
Definition unmarkHotStart (w : world) : outcome world :=
  match w_before w with
  | None => Uninit
  | Some s => Ok (mkW (set_stat s (w_node w))
                      (mkCS (c_est (w_csb w)) (c_new (w_csb w)) None None (c_obj (w_csb w)) None)
                      (w_user w) (w_before w))
  end.
(** The step, 148-160. *)
Definition step1 (l u : ext) (x : Q) : Q :=
  match l with
  | Fin a => if Qltb x a then x - a else match u with Fin b => if Qltb b x then x - b else 0 | _ => 0 end
  | _ => match u with Fin b => if Qltb b x then x - b else 0 | _ => 0 end
  end.
Fixpoint steps (xl xu : list ext) (x : list Q) {struct x} : outcome (list Q) :=
  match x with
  | [] => Ok []
  | v :: x => match xl, xu with
              | l :: xl, u :: xu => do r <- steps xl xu x; Ok (step1 l u v :: r)
              | _, _ => OutOfBounds
              end
  end.
(** solveFromHotStart, 133-185; interface 3067-3068. *)
Definition solveFromHotStart (w : world) : outcome world :=
  let n := w_node w in let c := w_csb w in
  match c_est c, c_sol c, c_du c, c_bnd c with
  | Some e, Some x, Some du, Some (xl, xu, gl, gu) =>
      do d <- steps (n_xl n) (n_xu n) x;
      let k := length x in
      do ' (o, e, u) <- curvature (mkC x (c_new c) xl xu gl gu (firstn k du) (firstn k (skipn k du)) (skipn (2 * k) du) d)
                                  e (w_user w);
      Ok match o with
         | None => mkW (set_stat computationError n) (mkCS (Some e) (c_new c) (c_sol c) (c_du c) (c_obj c) (c_bnd c)) u (w_before w)
         | Some (_, g, q) =>
             mkW (mkN (n_xl n) (n_xu n) (n_gl n) (n_gu n) (n_x n) (n_du n) (c_obj c + 1 * g + (1 # 2) * 1 * 1 * q) iterationLimit)
                 (mkCS (Some e) false (c_sol c) (c_du c) (c_obj c) (c_bnd c)) u (w_before w)
         end
  | None, _, _, _ => NullDeref
  | _, _, _, _ => NullDeref
  end.

(** What happens to the interface: bounds are changed, the node's relaxation is solved (the user's
    functions end up remembering some point and multipliers), and hot starts. *)
Inductive op :=
| OBounds (xl xu : list ext)
| OSolve (x du : list Q) (obj : Q) (s : status) (u : user)
| OMark | OHot | OUnmark.
Definition step (o : op) (w : world) : outcome world :=
  match o with
  | OBounds xl xu => let n := w_node w in
      Ok (mkW (mkN xl xu (n_gl n) (n_gu n) (n_x n) (n_du n) (n_obj n) (n_stat n)) (w_csb w) (w_user w) (w_before w))
  | OSolve x du obj s u => let n := w_node w in
      Ok (mkW (mkN (n_xl n) (n_xu n) (n_gl n) (n_gu n) (Some x) (Some du) obj s) (w_csb w) u (w_before w))
  | OMark => Ok (markHotStart w)
  | OHot => solveFromHotStart w
  | OUnmark => unmarkHotStart w
  end.
Fixpoint run (h : list op) (w : world) : outcome world :=
  match h with [] => Ok w | o :: h => do w <- step o w; run h w end.
Definition start (u : user) : world :=
  mkW (mkN (p_xl P) (p_xu P) (p_gl P) (p_gu P) None None 0 (otherStatus 0)) new_csb u None.

End Estimator.
