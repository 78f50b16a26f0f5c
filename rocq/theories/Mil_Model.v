(** Heuristics that solve a MILP.
    src/CbcBonmin/Heuristics/BonMilpRounding.cpp 74-351,
    src/CbcBonmin/Heuristics/BonHeuristicDiveMIP.cpp 84-489.
    Simplifications.  Doubles are exact rationals with explicit infinities.  Both heuristics
    work on a clone of the NLP interface, so only the clone's bounds change.  The MILP
    solver, the NLP solver, std::sort and the rule that selects a variable are arguments.
    Callbacks succeed.  CoinPackedMatrix keeps, for each column, the entries its start and
    length give; CoinPackedVector::insert throws when the index is already there.  Message
    handlers and the ownership of the LP solver are left out. *)
From Verif Require Import Base Arr Nlp Oad_Model Nls_Model Div_Model.
#[local] Open Scope Q_scope.

(** MatComp, BonMilpRounding.cpp 74-81 and BonHeuristicDiveMIP.cpp 84-91, on positions in
    the list of Jacobian entries (row, column). *)
Definition matcomp (st : list (nat * nat)) (i j : nat) : bool :=
  let a := nth i st (0, 0)%nat in let b := nth j st (0, 0)%nat in
  (Nat.ltb (snd a) (snd b) || (Nat.eqb (snd a) (snd b) && Nat.ltb (fst a) (fst b)))%bool.

(** A matrix by columns: starts, lengths, row indices, values. *)
Record cmat := mkCmat { c_start : list nat; c_len : list nat; c_row : list nat; c_val : list Q }.
Definition column (A : cmat) (j : nat) : list (nat * Q) :=
  firstn (nth j (c_len A) 0%nat) (skipn (nth j (c_start A) 0%nat) (combine (c_row A) (c_val A))).

(** ** MilpRounding *)
(** c_idx, 125-132: number of each linear constraint. *)
Fixpoint lin_index (k : nat) (lin : list bool) : list (option nat) :=
  match lin with
  | [] => []
  | b :: r => if (b : bool) then Some k :: lin_index (S k) r else None :: lin_index k r
  end.
(** The loop 161-176; [i] is the loop counter, [perm] what is left of sortedIndex. *)
Fixpoint mr_loop (st : list (nat * nat)) (off : nat) (cidx : list (option nat)) (jac : list Q) (i : nat) (perm : list nat)
    (ini : option nat) (A : cmat) : outcome cmat :=
  match perm with
  | [] => Ok A
  | s :: perm =>
      do rc <- rd s st;
      let col := (snd rc - off)%nat in
      do row <- rd (fst rc - off)%nat cidx;
      do A <- (if match ini with Some q => Nat.eqb col q | None => false end then Ok A
               else do a <- lset col (length (c_row A)) (c_start A);
                    do l <- lset col 0%nat (c_len A);
                    Ok (mkCmat a l (c_row A) (c_val A)));                                      (* 166-170 *)
      match row with
      | None => mr_loop st off cidx jac (S i) perm (Some col) A                                (* 171 *)
      | Some r =>
          do c <- rd col (c_len A);
          do l <- lset col (S c) (c_len A);
          do v <- rd i jac;                                                                    (* 174: jac_g[i] *)
          mr_loop st off cidx jac (S i) perm (Some col) (mkCmat (c_start A) l (c_row A ++ [r]) (c_val A ++ [v]))
      end
  end.
(** The matrix, 121-192.  [x] is x_sol. *)
Definition mr_matrix (sort : sorter) (P : nlp) (x : list Q) : outcome cmat :=
  mr_loop (p_jst P) (p_off P) (lin_index 0 (p_lin P)) (p_jv P x) 0
    (sort (matcomp (p_jst P)) (seq 0 (length (p_jst P)))) None
    (mkCmat (repeat 0%nat (p_n P)) (repeat 0%nat (p_n P)) [] []).
(** newRowLower, newRowUpper, 178-185: the bounds of the linear constraints, in order. *)
Fixpoint pick_lin (lin : list bool) (g : list ext) : list ext :=
  match lin, g with
  | b :: lin, e :: g => if (b : bool) then e :: pick_lin lin g else pick_lin lin g
  | _, _ => []
  end.
(** A no-good cut: the variables with coefficient -1, and the lower bound. *)
Record nogood := mkNg { ng_vars : list nat; ng_lb : Q }.
(** objective, 198-206 *)
Definition mr_obj (ints : list bool) (colsol : list Q) : list Q :=
  map (fun p => if (fst p : bool) then 1 - 2 * snd p else 0) (combine ints colsol).
(** The MILP given to the solver. *)
Record milp := mkMilp { m_A : cmat; m_box : cols; m_obj : list Q; m_rl : list ext; m_ru : list ext; m_cuts : list nogood; m_ints : list bool }.

(** Fixing the integers and building the cut, 301-320: (feasible, v, lb, bounds). *)
Fixpoint mr_fix (i k : nat) (tol : Q) (ints : list bool) (x : list Q) (v : list nat) (lb : Q) (b : cols) : outcome (bool * list nat * Q * cols) :=
  match k with
  | O => Ok (true, v, lb, b)
  | S k =>
      do t <- rd i ints;
      if (t : bool) then
        do w <- rd i x;
        if frac tol w then Ok (false, v, lb, b)                                                (* 306-309 *)
        else
          let z := inject_Z (nearest w) in
          let '(v, lb) := if Qltb (1 # 2) z then (v ++ [i], lb - z) else (v, lb) in
          do b <- set_up i (Fin z) b; do b <- set_lo i (Fin z) b;
          mr_fix (S i) k tol ints x v lb b
      else mr_fix (S i) k tol ints x v lb b
  end.
(** What a call leaves; [h_asked] are the bounds handed to the NLP solver, if it is called
    (for the statement of the properties only). *)
Record mresult := mkMR { h_found : bool; h_value : Q; h_better : list Q; h_cuts : list nogood; h_asked : option cols }.
(** MilpRounding::solution, 85-351.  [M] is the MILP solver (None: no solution within the
    limits), [N] the NLP solver (success, x_sol), [x] is x_sol of the clone, [colsol] and
    [lpbox] the solution and the bounds of the node's relaxation, [b0] the clone's bounds,
    [cuts] the no-good cuts of earlier calls. *)
Definition milp_rounding (sort : sorter) (M : milp -> option (list Q)) (N : cols -> bool * list Q) (P : nlp) (tol : Q)
    (depth node howOften pass : nat) (x colsol : list Q) (lpbox b0 : cols) (cuts : list nogood) (val : Q) (old : list Q) : outcome mresult :=
  if (Nat.ltb 1 pass || (Nat.ltb 2 depth && negb (Nat.eqb (Nat.modulo node howOften) 0)))%bool then Ok (mkMR false val old cuts None)   (* 87-89 *)
  else
  do A <- mr_matrix sort P x;
  let m := mkMilp A lpbox (mr_obj (p_int P) colsol) (pick_lin (p_lin P) (p_gl P)) (pick_lin (p_lin P) (p_gu P)) cuts (p_int P) in
  match M m with
  | None => Ok (mkMR false val old cuts None)
  | Some sol =>
      do ' (fe, v, lb, b) <- mr_fix 0 (p_n P) tol (p_int P) sol [] 1 b0;
      let cuts := cuts ++ [mkNg v lb] in                                                       (* 321-325 *)
      if (fe : bool) then
        let '(ok, xs) := N b in
        if (ok && Qltb (p_f P xs) val)%bool then Ok (mkMR true (p_f P xs) xs cuts (Some b))     (* 326-341 *)
        else Ok (mkMR false val old cuts (Some b))
      else Ok (mkMR false val old cuts None)
  end.

(** ** HeuristicDiveMIP *)
(** linearVariable, nonlinearVariable, 139-147: positions with a given mark. *)
Definition positions (want : bool) (l : list bool) : list nat := int_cols 0 (map (fun b => Bool.eqb b want) l).
(** The loop 182-200: all entries sorted by column. *)
Fixpoint dm_loop (st : list (nat * nat)) (off : nat) (perm : list nat) (ini : option nat) (A : cmat) : outcome cmat :=
  match perm with
  | [] => Ok A
  | s :: perm =>
      do rc <- rd s st;
      let col := (snd rc - off)%nat in
      do A <- (if match ini with Some q => Nat.eqb (snd rc) q | None => false end
               then do c <- rd col (c_len A); do l <- lset col (S c) (c_len A); Ok (mkCmat (c_start A) l (c_row A) (c_val A))
               else do a <- lset col (length (c_row A)) (c_start A); do l <- lset col 1%nat (c_len A); Ok (mkCmat a l (c_row A) (c_val A)));
      dm_loop st off perm (Some (snd rc)) (mkCmat (c_start A) (c_len A) (c_row A ++ [(fst rc - off)%nat]) [])
  end.
(** numberColumnsLinear[iRow] > 0, 198-199, and mapRows, 278-285. *)
Definition has_linear (st : list (nat * nat)) (off : nat) (vlin : list bool) (i : nat) : bool :=
  existsb (fun rc => (Nat.eqb (fst rc - off) i && nth (snd rc - off) vlin false)%bool) st.
Definition map_rows (st : list (nat * nat)) (off : nat) (vlin : list bool) (m : nat) : list (option nat) :=
  lin_index 0 (map (has_linear st off vlin) (seq 0 m)).
(** One column of the MILP, 341-347. *)
Fixpoint dm_column (perm : list nat) (rows : list nat) (mapr : list (option nat)) (jac : list Q) (j k : nat) (acc : list (nat * Q)) : outcome (list (nat * Q)) :=
  match k with
  | O => Ok acc
  | S k =>
      do r <- rd j rows; do mr <- rd r mapr; do s <- rd j perm; do v <- rd s jac;
      match mr with
      | None => OutOfBounds                                                                     (* insert(-1, ...) *)
      | Some q => if existsb (fun e => Nat.eqb (fst e) q) acc then Thrown
                  else dm_column perm rows mapr jac (S j) k (acc ++ [(q, v)])
      end
  end.
Fixpoint dm_columns (perm : list nat) (A : cmat) (mapr : list (option nat)) (jac : list Q) (lv : list nat) : outcome (list (list (nat * Q))) :=
  match lv with
  | [] => Ok []
  | i :: lv =>
      do s <- rd i (c_start A); do l <- rd i (c_len A);
      do c <- dm_column perm (c_row A) mapr jac s l [];
      do r <- dm_columns perm A mapr jac lv;
      Ok (c :: r)
  end.
(** The MILP over the linear variables, 277-366. *)
Record lmilp := mkLmilp { l_cols : list (list (nat * Q)); l_obj : list Q; l_lb : list ext; l_ub : list ext; l_rl : list ext; l_ru : list ext; l_ints : list bool }.
(** row_lb, row_ub, 304-316: bounds of the mapped rows less the constraint values at the
    point whose linear variables are 0. *)
Fixpoint shift_rows (mapr : list (option nat)) (g : list ext) (v : list Q) : list ext :=
  match mapr, g, v with
  | Some _ :: mapr, e :: g, q :: v => eplus e (- q) :: shift_rows mapr g v
  | None :: mapr, _ :: g, _ :: v => shift_rows mapr g v
  | _, _, _ => []
  end.
Fixpoint set_all (l : list nat) (f : nat -> Q) (x : list Q) : outcome (list Q) :=
  match l with
  | [] => Ok x
  | i :: l => do x <- lset i (f i) x; set_all l f x
  end.
Fixpoint reads {A} (l : list nat) (x : list A) : outcome (list A) :=
  match l with [] => Ok [] | i :: l => do v <- rd i x; do r <- reads l x; Ok (v :: r) end.
(** [xs] is x_sol, [x] newSolution. *)
Definition dm_milp (sort : sorter) (P : nlp) (vlin : list bool) (b : cols) (xs x : list Q) : outcome (list Q * lmilp) :=
  let st := p_jst P in
  let perm := sort (matcomp st) (seq 0 (length st)) in
  let lv := positions true vlin in
  do A <- dm_loop st (p_off P) perm None (mkCmat (repeat 0%nat (p_n P)) (repeat 0%nat (p_n P)) [] []);
  let mapr := map_rows st (p_off P) vlin (p_m P) in
  do x <- set_all lv (fun _ => 0) x;                                                            (* 289-295 *)
  do obj <- reads lv (p_gf P x);
  do lb <- reads lv (k_lo b); do ub <- reads lv (k_up b);
  do ints <- reads lv (p_int P);
  do cs <- dm_columns perm A mapr (p_jv P xs) lv;
  Ok (x, mkLmilp cs obj lb ub (shift_rows mapr (p_gl P) (p_g P x)) (shift_rows mapr (p_gu P) (p_g P x)) ints).
(** Write the MILP solution into newSolution, 370-377. *)
Fixpoint put_back (lv : list nat) (sol x : list Q) : outcome (list Q) :=
  match lv, sol with
  | [], _ => Ok x
  | i :: lv, v :: sol => do x <- lset i v x; put_back lv sol x
  | _ :: _, [] => OutOfBounds
  end.
(** The dive on the nonlinear integer variables, 224-261. *)
Fixpoint dm_dive (fuel : nat) (S' : solver) (R : rule) (tol : Q) (cs : list nat) (it : nat) (b : cols) (xs x : list Q) : outcome (cols * list Q * list Q) :=
  do nf <- count_frac tol cs x;
  if Nat.eqb nf 0 then Ok (b, xs, x)
  else match fuel with
  | O => Diverges
  | S fuel =>
      do best <- R it b x;
      match best with
      | None => Ok (b, xs, x)
      | Some (j, up) =>
          do v <- rd j x;
          do b <- (if (up : bool) then set_lo j (ce v) b else set_up j (fl v) b);
          let '(ok, xs) := S' it b in
          if (ok : bool) then dm_dive fuel S' R tol cs (S it) b xs xs else Ok (b, xs, x)
      end
  end.
(** Fix the integers, 436-453. *)
Fixpoint dm_fix (i k : nat) (tol : Q) (ints : list bool) (x : list Q) (b : cols) : outcome (bool * cols) :=
  match k with
  | O => Ok (true, b)
  | S k =>
      do t <- rd i ints;
      if (t : bool) then
        do w <- rd i x;
        if frac tol w then Ok (false, b)
        else do b <- set_up i (Fin (inject_Z (nearest w))) b; do b <- set_lo i (Fin (inject_Z (nearest w))) b;
             dm_fix (S i) k tol ints x b
      else dm_fix (S i) k tol ints x b
  end.
(** Both marks at once: integer variables among [l]. *)
Definition int_among (l : list nat) (ints : list bool) : list nat := filter (fun i => nth i ints false) l.
(** HeuristicDiveMIP::solution, 94-489: (found, solutionValue, betterSolution).  The NLP
    solver is called with the number of rounds made; the last call, 455, with [last]. *)
Definition dive_mip (fuel : nat) (sort : sorter) (M : lmilp -> option (list Q)) (S' : solver) (last : nat) (R : rule) (P : nlp) (vlin : list bool) (tol : Q)
    (node pass : nat) (b0 : cols) (x0 gs : list Q) (val : Q) (old : list Q) : outcome (bool * Q * list Q) :=
  if (negb (Nat.eqb node 0) || Nat.ltb 1 pass)%bool then Ok (false, val, old)                   (* 97-99 *)
  else
  let p := mkDprob (p_int P) (p_gl P) (p_gu P) (p_f P) (p_g P) in
  do t <- adjust 0 (length (p_gl P)) gs (p_gl P) (p_gu P) (1 # 1000000);
  do fe <- isNlpFeasible p b0 x0 gs t;
  do _ <- chk fe;                                                                               (* 133 *)
  let lv := positions true vlin in
  let nv := positions false vlin in
  do ' (b, xs, x) <- dm_dive fuel S' R tol (int_among nv (p_int P)) 0 b0 x0 x0;
  do nf <- count_frac tol (int_among lv (p_int P)) x;                                           (* 264-274 *)
  do ' (fe, x) <-
    (if Nat.eqb nf 0 then Ok (true, x)
     else do ' (x, m) <- dm_milp sort P vlin b xs x;
          match M m with
          | None => Ok (false, x)
          | Some sol => do x <- put_back lv sol x; Ok (true, x)
          end);
  if (fe : bool) then
    do ' (fe, b) <- dm_fix 0 (p_n P) tol (p_int P) x b;
    if (fe : bool) then
      let '(ok, xs) := S' last b in
      if (ok && Qltb (p_f P xs) val)%bool then Ok (true, p_f P xs, xs) else Ok (false, val, old)   (* 454-472 *)
    else Ok (false, val, old)
  else Ok (false, val, old).
