(** Outer approximation: the linear cuts and the linear relaxation built from
    a nonlinear problem.
    src/Interfaces/BonOsiTMINLPInterface.cpp 1882-2275 and 2378-2590,
    src/Algorithms/QuadCuts/BonOuterApprox.{hpp,cpp}.
    Simplifications.  Numbers are exact rationals; infty_, getInfinity(),
    COIN_DBL_MAX, 1e20 and 1e300 used as infinities are all MInf/PInf.  No cut
    strengthener and no external linearizer are installed (both pointers null).
    A column bound of the wrong infinity (lower = +inf) is treated as absent; such
    a box is empty.  The global flag only labels the cut and is not part of the
    data below. *)
From Verif Require Import Base Arr Nlp.
#[local] Open Scope Q_scope.

(** ** Arithmetic on a possibly infinite bound *)
Definition eadd (e : ext) (q : Q) : ext := match e with Fin a => Fin (a + q) | _ => e end.
Definition fin (e : ext) : bool := match e with Fin _ => true | _ => false end.
(** [e > -inf] and [e < inf] as the code tests them. *)
Definition gtm (e : ext) : bool := match e with MInf => false | _ => true end.
Definition ltp (e : ext) : bool := match e with PInf => false | _ => true end.

(** A packed vector: (index, value) pairs in insertion order.
    CoinPackedVector::insert (CoinUtils, not in /repo) throws when the index is
    already present. *)
Definition pvec := list (nat * Q).
Definition pv_insert (c : nat) (v : Q) (p : pvec) : outcome pvec :=
  if existsb (fun e => Nat.eqb (fst e) c) p then Thrown else Ok (p ++ [(c, v)]).
(** CoinPackedVector::dotProduct with a dense array. *)
Fixpoint pv_dot (p : pvec) (x : list Q) : outcome Q :=
  match p with
  | [] => Ok 0
  | (c, v) :: p => do a <- rd c x; do r <- pv_dot p x; Ok (v * a + r)
  end.

(** ** cleanNnz, BonOsiTMINLPInterface.cpp 1882-1919.
    Result: keep the coefficient?, new lb, new ub. *)
Definition clean_nnz (value : Q) (colLower colUpper rowLower rowUpper : ext) (colsol : Q)
    (lb ub : ext) (tiny veryTiny : Q) : bool * ext * ext :=
  if Qle_bool tiny (Qabs value) then (true, lb, ub)                                  (* 1888 *)
  else if Qltb (Qabs value) veryTiny then (false, lb, ub)                            (* 1890 *)
  else
    let rowNotLo := negb (gtm rowLower) in                                           (* 1895 *)
    let rowNotUp := negb (ltp rowUpper) in                                           (* 1896 *)
    let pos := Qltb 0 value in
    match colUpper, colLower with
    | Fin u, _ =>
        if pos && rowNotUp then (false, eadd lb (value * (colsol - u)), ub)          (* 1898 *)
        else if negb pos && rowNotLo then (false, lb, eadd ub (value * (colsol - u))) (* 1903 *)
        else match colLower with
             | Fin l =>
                 if negb pos && rowNotUp then (false, eadd lb (value * (colsol - l)), ub)
                 else if pos && rowNotLo then (false, lb, eadd ub (value * (colsol - l)))
                 else (true, lb, ub)
             | _ => (true, lb, ub)
             end
    | _, Fin l =>
        if negb pos && rowNotUp then (false, eadd lb (value * (colsol - l)), ub)     (* 1908 *)
        else if pos && rowNotLo then (false, lb, eadd ub (value * (colsol - l)))     (* 1913 *)
        else (true, lb, ub)
    | _, _ => (true, lb, ub)
    end.

(** ** A loop over items, each of which updates one cell of an array. *)
Section Loop.
Context {T S : Type} (key : T -> outcome (option nat)) (step : T -> S -> outcome S).
Fixpoint cell_loop (ts : list T) (ss : list S) : outcome (list S) :=
  match ts with
  | [] => Ok ss
  | t :: ts =>
      do k <- key t;
      match k with
      | None => cell_loop ts ss
      | Some k => do s <- rd k ss; do s' <- step t s; do ss' <- lset k s' ss; cell_loop ts ss'
      end
  end.
Fixpoint foldM (ts : list T) (s : S) : outcome S :=
  match ts with
  | [] => Ok s
  | t :: ts => do s' <- step t s; foldM ts s'
  end.
End Loop.

(** ** The data the interface works with *)
Record oaenv := mkOaenv {
  e_cl : list ext; e_cu : list ext;      (* getColLower(), getColUpper(): current column bounds *)
  e_duals : list Q;                      (* getRowPrice() + 2n: multipliers of the rows *)
  e_tiny : Q; e_vtiny : Q;               (* tiny_, veryTiny_ *)
  e_relax : Q;                           (* rhsRelax_ *)
  e_level : nat;                         (* oaHandler_->logLevel() *)
  e_linobj : bool                        (* problem_->hasLinearObjective() *)
}.
Record cutst := mkCut { c_row : pvec; c_lb : ext; c_ub : ext }.

(** Jacobian triplets with zero-based indices, 1810-1820 and 1940. *)
Definition triplets (P : nlp) (x : list Q) : list (nat * nat * Q) :=
  map (fun p => ((fst (fst p) - p_off P, snd (fst p) - p_off P)%nat, snd p)) (combine (p_jst P) (p_jv P x)).

(** row2cutIdx, 1947-1978: nonlinear rows are numbered in order, linear rows get -1. *)
Fixpoint row2cut (k : nat) (lin : list bool) : list (option nat) :=
  match lin with
  | [] => []
  | true :: lin => None :: row2cut k lin
  | false :: lin => Some k :: row2cut (S k) lin
  end.
(** Right-hand sides of one nonlinear row, 1960-1974. *)
Definition oa_init (rl ru : ext) (g dual : Q) : cutst :=
  let lb := eadd rl (- g) in
  let ub := eadd ru (- g) in
  if (gtm rl && ltp ru)%bool then
    mkCut [] (if Qle_bool 0 dual then MInf else lb) (if Qle_bool dual 0 then PInf else ub)
  else mkCut [] lb ub.
(** Loop 1957-1978: one cut under construction per nonlinear row. *)
Fixpoint oa_inits (lin : list bool) (gl gu : list ext) (g duals : list Q) : outcome (list cutst) :=
  match lin with
  | [] => Ok []
  | b :: lin =>
      match gl, gu, g, duals with
      | rl :: gl, ru :: gu, gi :: g, d :: duals =>
          do r <- oa_inits lin gl gu g duals;
          Ok (if b then r else oa_init rl ru gi d :: r)
      | _, _, _, _ => OutOfBounds
      end
  end.
(** Treatment of one coefficient, 1987-1997 (also 2065-2073 and 2249-2259). *)
Definition oa_coef (tiny vtiny : Q) (v : Q) (c : nat) (cl cu rl ru : ext) (xc : Q) (s : cutst) : outcome cutst :=
  let '(kept, lb, ub) := clean_nnz v cl cu rl ru xc (c_lb s) (c_ub s) tiny vtiny in
  if kept then do row <- pv_insert c v (c_row s); Ok (mkCut row (eadd lb (v * xc)) (eadd ub (v * xc)))
  else Ok (mkCut (c_row s) lb ub).
Definition oa_key (r2c : list (option nat)) (t : nat * nat * Q) : outcome (option nat) :=
  rd (fst (fst t)) r2c.
Definition oa_step (P : nlp) (e : oaenv) (x : list Q) (t : nat * nat * Q) (s : cutst) : outcome cutst :=
  let '((r, c), v) := t in
  do cl <- rd c (e_cl e); do cu <- rd c (e_cu e);
  do rl <- rd r (p_gl P); do ru <- rd r (p_gu P); do xc <- rd c x;
  oa_coef (e_tiny e) (e_vtiny e) v c cl cu rl ru xc s.
(** The cuts of the nonlinear rows before filtering, 1957-1999. *)
Definition oa_rows (P : nlp) (e : oaenv) (x : list Q) : outcome (list cutst) :=
  do cs <- oa_inits (p_lin P) (p_gl P) (p_gu P) (p_g P x) (e_duals e);
  cell_loop (oa_key (row2cut 0 (p_lin P))) (oa_step P e x) (triplets P x) cs.
(** max(0, rhs - ub, lb - rhs), 2014-2017. *)
Definition eviol (lb ub : ext) (rhs : Q) : ext :=
  match lb, ub with
  | PInf, _ | _, MInf => PInf
  | Fin l, Fin u => Fin (qmax (qmax 0 (rhs - u)) (l - rhs))
  | Fin l, PInf => Fin (qmax 0 (l - rhs))
  | MInf, Fin u => Fin (qmax 0 (rhs - u))
  | MInf, PInf => Fin 0
  end.
Definition ext_ltb (a : ext) (q : Q) : bool :=
  match a with MInf => true | Fin a => Qltb a q | PInf => false end.
(** Right-hand side relaxation, 2043-2044.  Line 2043 tests lb > infty, never true. *)
Definition relax_ub (relax : Q) (ub : ext) : ext :=
  match ub with Fin u => Fin (u + relax * qmax (Qabs u) 1) | _ => ub end.
Definition oa_finish (e : oaenv) (s : cutst) : cutst :=
  mkCut (c_row s) (c_lb s) (relax_ub (e_relax e) (c_ub s)).
(** The output loop, 2011-2051. *)
Fixpoint oa_filter (e : oaenv) (x2 : option (list Q)) (theta : Q) (ss : list cutst) : outcome (list cutst) :=
  match ss with
  | [] => Ok []
  | s :: ss =>
      do skip <- match x2 with
                 | None => Ok false
                 | Some y => do rhs <- pv_dot (c_row s) y;
                             Ok (ext_ltb (eviol (c_lb s) (c_ub s) rhs) theta && Nat.ltb 0 (e_level e))%bool  (* 2018 *)
                 end;
      do r <- oa_filter e x2 theta ss;
      Ok (if skip then r else oa_finish e s :: r)
  end.
(** The objective cut, 2053-2106.  Column n is the objective variable alpha. *)
Fixpoint obj_loop (tiny vtiny : Q) (i : nat) (gf : list Q) (e : oaenv) (x : list Q) (s : cutst) : outcome cutst :=
  match gf with
  | [] => Ok s
  | v :: gf =>
      do cl <- rd i (e_cl e); do cu <- rd i (e_cu e); do xc <- rd i x;
      do s <- oa_coef tiny vtiny v i cl cu MInf (Fin 0) xc s;
      obj_loop tiny vtiny (S i) gf e x s
  end.
Definition obj_vtiny : Q := 1 # 1000000000000000.                    (* 1e-15, line 2069 *)
Definition obj_cut (P : nlp) (e : oaenv) (x : list Q) : outcome cutst :=
  let f := p_f P x in
  do s <- obj_loop (e_tiny e) obj_vtiny 0 (p_gf P x) e x (mkCut [] (Fin (- f)) (Fin (- f)));
  do row <- pv_insert (p_n P) (-(1)) (c_row s);                      (* 2075 *)
  Ok (mkCut row MInf (c_ub s)).                                       (* 2101-2103 *)
Definition oa_obj (P : nlp) (e : oaenv) (x : list Q) (getObj : nat) (x2 : option (list Q)) (theta : Q)
    : outcome (list cutst) :=
  if (Nat.eqb getObj 2 || (negb (Nat.eqb getObj 0) && negb (e_linobj e)))%bool then
    do s <- obj_cut P e x;
    do gen <- match x2 with
              | None => Ok true
              | Some y => do rhs <- pv_dot (c_row s) y;
                          Ok (negb (ext_ltb (eviol MInf (c_ub s) rhs) theta))
              end;
    Ok (if gen then [s] else [])
  else Ok [].
(** getOuterApproximation, 1924-2107. *)
Definition getOuterApproximation (P : nlp) (e : oaenv) (x : list Q) (getObj : nat)
    (x2 : option (list Q)) (theta : Q) : outcome (list cutst) :=
  do ss <- oa_rows P e x;
  do cs <- oa_filter e x2 theta ss;
  do os <- oa_obj P e x getObj x2 theta;
  Ok (cs ++ os).

(** ** getConstraintOuterApproximation, 2207-2275.
    [gi] is what eval_grad_gi answers: the packed gradient of row i. *)
Fixpoint one_loop (P : nlp) (e : oaenv) (x : list Q) (i : nat) (gi : pvec) (s : cutst) : outcome cutst :=
  match gi with
  | [] => Ok s
  | (c, v) :: gi => do s <- oa_step P e x ((i, c), v) s; one_loop P e x i gi s
  end.
Definition getConstraintOuterApproximation (P : nlp) (e : oaenv) (x : list Q) (i : nat) (gi : pvec) (g : Q)
    : outcome cutst :=
  do rl <- rd i (p_gl P); do ru <- rd i (p_gu P); do d <- rd i (e_duals e);
  one_loop P e x i gi (oa_init rl ru g d).

(** ** getBendersCut, 2111-2202 *)
Definition bd_tol : Q := 1 # 1000000.                                 (* 1e-06, line 2138 *)
Definition bd_big : Q := inject_Z 10000000000.                        (* 1e10 *)
(** Right-hand side of one kept row, 2140-2151. *)
Definition bd_rhs (rl ru : ext) (g lam : Q) : outcome Q :=
  if Qltb lam 0 then
    match rl with
    | Fin l => do _ <- chk (Qltb (- bd_big) l); Ok (lam * (l - g))
    | _ => AssertFail
    end
  else
    match ru with
    | Fin u => do _ <- chk (Qltb u bd_big); Ok (lam * (u - g))
    | _ => AssertFail
    end.
Definition bd_keep (lin : bool) (lam : Q) : bool := (negb lin && Qltb bd_tol (Qabs lam))%bool.
Fixpoint bd_rows (lin : list bool) (gl gu : list ext) (g duals : list Q) (ub : Q) : outcome (list bool * Q) :=
  match lin with
  | [] => Ok ([], ub)
  | b :: lin =>
      match gl, gu, g, duals with
      | rl :: gl, ru :: gu, gi :: g, d :: duals =>
          if bd_keep b d then
            do v <- bd_rhs rl ru gi d;
            do r <- bd_rows lin gl gu g duals (ub + v);
            Ok (true :: fst r, snd r)
          else
            do r <- bd_rows lin gl gu g duals ub;
            Ok (false :: fst r, snd r)
      | _, _, _, _ => OutOfBounds
      end
  end.
(** State of the aggregation: dense row [cut], lb, ub. *)
Record bdst := mkBd { d_cut : list Q; d_lb : ext; d_ub : ext }.
Definition bd_coef (tiny vtiny v : Q) (c : nat) (cl cu rl ru : ext) (xc : Q) (s : bdst) : outcome bdst :=
  let '(kept, lb, ub) := clean_nnz v cl cu rl ru xc (d_lb s) (d_ub s) tiny vtiny in
  if kept then do a <- rd c (d_cut s); do cut <- lset c (a + v) (d_cut s);
               Ok (mkBd cut lb (eadd ub (v * xc)))
  else Ok (mkBd (d_cut s) lb ub).
Fixpoint bd_loop (P : nlp) (e : oaenv) (x : list Q) (keep : list bool) (ts : list (nat * nat * Q)) (s : bdst)
    : outcome bdst :=
  match ts with
  | [] => Ok s
  | ((r, c), v) :: ts =>
      do k <- rd r keep;
      if (k : bool) then
        do lam <- rd r (e_duals e);
        do cl <- rd c (e_cl e); do cu <- rd c (e_cu e);
        do rl <- rd r (p_gl P); do ru <- rd r (p_gu P); do xc <- rd c x;
        do s <- bd_coef (e_tiny e) (e_vtiny e) (lam * v) c cl cu rl ru xc s;
        bd_loop P e x keep ts s
      else bd_loop P e x keep ts s
  end.
Fixpoint bd_obj (i : nat) (gf : list Q) (e : oaenv) (x : list Q) (s : bdst) : outcome bdst :=
  match gf with
  | [] => Ok s
  | v :: gf =>
      do cl <- rd i (e_cl e); do cu <- rd i (e_cu e); do xc <- rd i x;
      do s <- bd_coef (e_tiny e) obj_vtiny v i cl cu MInf (Fin 0) xc s;
      bd_obj (S i) gf e x s
  end.
Definition bd_zero : Q := 1 # 100000000000000000000.                  (* 1e-20, line 2191 *)
Fixpoint bd_pack (i : nat) (cut : list Q) : pvec :=
  match cut with
  | [] => []
  | v :: cut => if Qltb bd_zero (Qabs v) then (i, v) :: bd_pack (S i) cut else bd_pack (S i) cut
  end.
(** [opt]: isProvenOptimal(). *)
Definition getBendersCut (P : nlp) (e : oaenv) (x : list Q) (opt : bool) : outcome cutst :=
  do ku <- bd_rows (p_lin P) (p_gl P) (p_gu P) (p_g P x) (e_duals e) 0;
  let s := mkBd (repeat 0 (S (p_n P))) (Fin 0) (Fin (snd ku)) in
  do s <- bd_loop P e x (fst ku) (triplets P x) s;
  do s <- (if (negb (e_linobj e) && opt)%bool then
             bd_obj 0 (p_gf P x) e x (mkBd (d_cut s) (d_lb s) (Fin (- p_f P x)))      (* 2179: ub = -f *)
           else Ok s);
  let pre := if (negb (e_linobj e) && opt)%bool then [(p_n P, -(1))] else [] in        (* 2188 *)
  Ok (mkCut (pre ++ bd_pack 0 (firstn (p_n P) (d_cut s))) MInf (d_ub s)).

(** ** extractLinearRelaxation, 2378-2537 *)
Record lp := mkLp {
  l_rows : list pvec; l_lo : list ext; l_up : list ext;     (* rows and their bounds *)
  l_cl : list ext; l_cu : list ext; l_int : list bool;
  l_obj : list Q; l_const : Q;                              (* objective, constant term *)
}.
Definition ex_eps : Q := 1 # 10000000.                                (* 1e-07 *)
(** Bounds of one row, 2418-2462; the flag says that the row is to be removed.
    A removed row keeps the initial (0, 0). *)
Definition ex_init (lin : bool) (rl ru : ext) (g dual : Q) : bool * (ext * ext) :=
  if lin then (false, (rl, ru))
  else if (gtm rl && ltp ru && Qeq_bool dual 0)%bool then (true, (Fin 0, Fin 0))           (* 2421 *)
  else
    let lo := eadd rl (- g - ex_eps) in
    let up := eadd ru (- g + ex_eps) in
    if (gtm rl && ltp ru)%bool then
      (false, (if Qle_bool 0 dual then MInf else lo, if Qle_bool dual 0 then PInf else up))
    else (false, (lo, up)).
Fixpoint ex_inits (lin : list bool) (gl gu : list ext) (g duals : list Q) : outcome (list (bool * (ext * ext))) :=
  match lin with
  | [] => Ok []
  | b :: lin =>
      match gl, gu, g, duals with
      | rl :: gl, ru :: gu, gi :: g, d :: duals =>
          do r <- ex_inits lin gl gu g duals; Ok (ex_init b rl ru gi d :: r)
      | _, _, _, _ => OutOfBounds
      end
  end.
(** One triplet, 2468-2487.  The coefficient itself stays in jValues_. *)
Definition ex_key (t : nat * nat * Q) : outcome (option nat) := Ok (Some (fst (fst t))).
Definition ex_step (P : nlp) (e : oaenv) (x : list Q) (t : nat * nat * Q) (s : ext * ext) : outcome (ext * ext) :=
  let '((r, c), v) := t in
  do lin <- rd r (p_lin P);
  if (lin : bool) then Ok s
  else
    do cl <- rd c (e_cl e); do cu <- rd c (e_cu e);
    do rl <- rd r (p_gl P); do ru <- rd r (p_gu P); do xc <- rd c x;
    let '(kept, lo, up) := clean_nnz v cl cu rl ru xc (fst s) (snd s) (e_tiny e) (e_vtiny e) in
    Ok (if (kept : bool) then (eadd lo (v * xc), eadd up (v * xc)) else (lo, up)).
(** Row r of the matrix made from the triplets, 2490. *)
Definition mat_row (ts : list (nat * nat * Q)) (r : nat) : pvec :=
  map (fun t => (snd (fst t), snd t)) (filter (fun t => Nat.eqb (fst (fst t)) r) ts).
(** deleteRows, 2494: rows flagged in [del] disappear, the others keep their order. *)
Fixpoint delete_rows {A} (del : list bool) (rows : list A) : list A :=
  match del, rows with
  | d :: del, r :: rows => if d then delete_rows del rows else r :: delete_rows del rows
  | _, _ => rows
  end.
(** addObjectiveFunction, 2539-2590: column alpha (free, cost 1) and one row. *)
Definition un_tiny : Q := 1 # 1000.                                   (* 1e-03 *)
Definition un_vtiny : Q := 1 # 100000000.                             (* 1e-08 *)
Definition addObjectiveFunction (P : nlp) (e : oaenv) (x : list Q) (L : lp) : outcome lp :=
  let tiny := if Nat.eqb (length (l_rows L)) 0 then un_tiny else e_tiny e in
  let vtiny := if Nat.eqb (length (l_rows L)) 0 then un_vtiny else e_vtiny e in
  do s <- obj_loop tiny vtiny 0 (p_gf P x) e x (mkCut [] MInf (Fin (- p_f P x)));
  do row <- pv_insert (p_n P) (-(1)) (c_row s);
  Ok (mkLp (l_rows L ++ [row]) (l_lo L ++ [c_lb s]) (l_up L ++ [c_ub s])
           (l_cl L ++ [MInf]) (l_cu L ++ [PInf]) (l_int L ++ [false]) (l_obj L ++ [1]) (l_const L)).
Definition extractLinearRelaxation (P : nlp) (e : oaenv) (x : list Q) (getObj : bool) : outcome lp :=
  do init <- ex_inits (p_lin P) (p_gl P) (p_gu P) (p_g P x) (e_duals e);
  do bds <- cell_loop ex_key (ex_step P e x) (triplets P x) (map snd init);
  let rows := delete_rows (map fst init) (map (mat_row (triplets P x)) (seq 0 (p_m P))) in  (* 2490-2494 *)
  let k := length rows in
  (* 2506-2511: loadProblem reads as many bounds as the matrix has rows, from the
     start of the arrays, which were not compacted *)
  let L := mkLp rows (firstn k (map fst bds)) (map (relax_ub (e_relax e)) (firstn k (map snd bds)))
                (e_cl e) (e_cu e) (p_int P) (repeat 0 (p_n P)) 0 in
  if getObj then
    if e_linobj e then
      Ok (mkLp (l_rows L) (l_lo L) (l_up L) (l_cl L) (l_cu L) (l_int L)
               (p_gf P x) (p_f P (repeat 0 (p_n P))))
    else addObjectiveFunction P e x L
  else Ok L.

(** ** OuterApprox::cleanNnz, BonOuterApprox.hpp 78-119.
    Result: keep?, the (possibly changed) coefficient, lb, ub. *)
Definition q_big : Q := inject_Z 10000.
Definition q_clean (value : Q) (colLower colUpper rowLower rowUpper : ext) (colsol : Q)
    (lb ub : ext) (tiny veryTiny : Q) : bool * Q * ext * ext :=
  if Qle_bool tiny (Qabs value) then (true, value, lb, ub)
  else if Qltb (Qabs value) veryTiny then (false, value, lb, ub)
  else
    let rowNotLo := negb (gtm rowLower) in
    let rowNotUp := negb (ltp rowUpper) in
    let pos := Qltb 0 value in
    let up := match colUpper with
              | Fin u => if Qltb u q_big then
                           if negb pos && rowNotUp then Some (eadd lb (value * (colsol - u)), ub)
                           else if pos && rowNotLo then Some (lb, eadd ub (value * (colsol - u)))
                           else None
                         else None
              | _ => None
              end in
    let lo := match colLower with
              | Fin l => if Qltb (- q_big) l then
                           if pos && rowNotUp then Some (eadd lb (value * (colsol - l)), ub)
                           else if negb pos && rowNotLo then Some (lb, eadd ub (value * (colsol - l)))
                           else None
                         else None
              | _ => None
              end in
    match lo with
    | Some (l, u) => (false, value, l, u)
    | None => match up with
              | Some (l, u) => (false, value, l, u)
              | None => (true, (if pos then tiny else - tiny), lb, ub)               (* 112-116 *)
              end
    end.

(** OuterApprox::extractLinearRelaxation, BonOuterApprox.cpp 25-174, the part for
    the constraints (objective: q_obj below).  The triplets carry the coefficients,
    which the loop may change. *)
Definition q_init (rl ru : ext) (g : Q) : ext * ext :=                 (* 71-80 *)
  (eadd rl (- g - ex_eps), eadd ru (- g + ex_eps)).
Fixpoint q_inits (gl gu : list ext) (g : list Q) : outcome (list (ext * ext)) :=
  match gl, gu, g with
  | [], [], [] => Ok []
  | rl :: gl, ru :: gu, gi :: g => do r <- q_inits gl gu g; Ok (q_init rl ru gi :: r)
  | _, _, _ => OutOfBounds
  end.
(** Lines 84-94.  State per row: entries so far, bounds. *)
Definition q_step (P : nlp) (tiny vtiny : Q) (x : list Q) (t : nat * nat * Q) (s : pvec * (ext * ext))
    : outcome (pvec * (ext * ext)) :=
  let '((r, c), v) := t in
  let '(row, (lo, up)) := s in
  do lin <- rd r (p_lin P); do xc <- rd c x;
  if (lin : bool) then
    do cl <- rd c (p_xl P); do cu <- rd c (p_xu P);
    let '(kept, v', lo', up') := q_clean v cl cu lo up xc lo up tiny vtiny in
    Ok (if (kept : bool) then (row ++ [(c, v')], (eadd lo' (v' * xc), eadd up' (v' * xc)))
        else (row ++ [(c, v')], (lo', up')))
  else Ok (row ++ [(c, v)], (eadd lo (v * xc), eadd up (v * xc))).
Definition q_rows (P : nlp) (tiny vtiny : Q) (x : list Q) : outcome (list (pvec * (ext * ext))) :=
  do init <- q_inits (p_gl P) (p_gu P) (p_g P x);
  cell_loop ex_key (q_step P tiny vtiny x) (triplets P x) (map (fun b => ([], b)) init).
(** The objective row, 121-163: entries, lower and upper bound. *)
Fixpoint q_obj_loop (tiny vtiny : Q) (i : nat) (gf : list Q) (xl xu : list ext) (x : list Q)
    (row : pvec) (lb ub : ext) : outcome (pvec * ext * ext) :=
  match gf with
  | [] => Ok (row, lb, ub)
  | v :: gf =>
      do cl <- rd i xl; do cu <- rd i xu; do xc <- rd i x;
      let '(kept, v', lb', ub') := q_clean v cl cu MInf (Fin 0) xc lb ub tiny vtiny in
      if (kept : bool) then
        do row <- pv_insert i v' row;
        q_obj_loop tiny vtiny (S i) gf xl xu x row (eadd lb' (v' * xc)) (eadd ub' (v' * xc))
      else q_obj_loop tiny vtiny (S i) gf xl xu x row lb' ub'
  end.
Definition q_obj (P : nlp) (tiny vtiny : Q) (x : list Q) : outcome (pvec * ext * ext) :=
  let t := if Nat.eqb (length (p_jst P)) 0 then un_tiny else tiny in
  let vt := if Nat.eqb (length (p_jst P)) 0 then un_vtiny else vtiny in
  do r <- q_obj_loop t vt 0 (p_gf P x) (p_xl P) (p_xu P) x [] MInf (Fin (- p_f P x));
  do row <- pv_insert (p_n P) (-(1)) (fst (fst r));
  Ok (row, snd (fst r), snd r).
