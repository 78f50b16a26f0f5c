(** Outer descriptions of separable problems: tangents at sampled points, tangents linked to an indicator variable, and the linear program built from them.
    experimental/Separable/BonOuterDescription.cpp 19-61 (cleanNnz), 64-182 (getMyOuterApproximation), 274-376 (addOuterDescription);
    experimental/Separable/SepaTMINLP2OsiLP.cpp 23-144 (extract), 146-256 (get_oas), 258-346 (get_oa), 348-414 (get_refined_oa), 416-511
    (add_outer_description_function_values); src/Interfaces/BonTMINLP2OsiLP.hpp 27-160 and BonTMINLP2OsiLP.cpp 24-48.
    Simplifications.  Doubles are exact rationals; the infinities of the solvers and of the problem are MInf and PInf.  A row is given by its own
    function and gradient; entries of different rows do not interact.  CoinPackedVector::insert (CoinUtils) throws for an index already there. *)
From Verif Require Import Base Arr.
#[local] Open Scope Q_scope.

Definition eadd (e : ext) (q : Q) : ext := match e with Fin a => Fin (a + q) | _ => e end.
Definition pvec := list (nat * Q).
Definition pv_insert (c : nat) (v : Q) (p : pvec) : outcome pvec :=
  if existsb (fun e => Nat.eqb (fst e) c) p then Thrown else Ok (p ++ [(c, v)]).

(** A row of the problem: its sides, function, gradient entries (in the order of the problem) and the variable that switches it on
    (get_const_xtra_id; None if there is none). *)
Record row := mkRow { r_linear : bool; r_lo : ext; r_up : ext; r_g : list Q -> Q; r_j : list Q -> pvec; r_id : option nat }.
Record cut := mkCut { c_row : pvec; c_lo : ext; c_up : ext }.

Definition bounded_up (u : ext) : option Q := match u with Fin u => if Qltb u 10000 then Some u else None | _ => None end.
Definition bounded_lo (l : ext) : option Q := match l with Fin l => if Qltb (-10000) l then Some l else None | _ => None end.
Definition is_minf (e : ext) : bool := match e with MInf => true | _ => false end.
Definition is_pinf (e : ext) : bool := match e with PInf => true | _ => false end.
(** TMINLP2OsiLP::cleanNnz, BonTMINLP2OsiLP.hpp 118-159: is the entry kept, its value, and the sides. *)
Definition clean_lp (tiny vtiny : Q) (cl cu rl ru : ext) (x v : Q) (lb ub : ext) : bool * Q * ext * ext :=
  if Qle_bool tiny (Qabs v) then (true, v, lb, ub)
  else if Qltb (Qabs v) vtiny then (false, v, lb, ub)
  else
    let pos := Qltb 0 v in
    let low := match bounded_lo cl with
               | Some l => if (negb pos && is_pinf ru)%bool then Some (eadd lb (v * (x - l)), ub)
                           else if (pos && is_minf rl)%bool then Some (lb, eadd ub (v * (x - l))) else None
               | None => None
               end in
    match low with
    | Some (lb, ub) => (false, v, lb, ub)
    | None =>
        match bounded_up cu with
        | Some u => if (pos && is_pinf ru)%bool then (false, v, eadd lb (v * (x - u)), ub)
                    else if (negb pos && is_minf rl)%bool then (false, v, lb, eadd ub (v * (x - u))) else (true, v, lb, ub)
        | None => (true, v, lb, ub)
        end
    end.
(** cleanNnz of BonOuterDescription.cpp, 19-61: as above with other signs, and an entry that stays is raised to the threshold. *)
Definition clean_od (tiny vtiny : Q) (cl cu rl ru : ext) (x v : Q) (lb ub : ext) : bool * Q * ext * ext :=
  if Qle_bool tiny (Qabs v) then (true, v, lb, ub)
  else if Qltb (Qabs v) vtiny then (false, v, lb, ub)
  else
    let pos := Qltb 0 v in
    let low := match bounded_lo cl with
               | Some l => if (pos && is_pinf ru)%bool then Some (eadd lb (v * (x - l)), ub)
                           else if (negb pos && is_minf rl)%bool then Some (lb, eadd ub (v * (x - l))) else None
               | None => None
               end in
    let raised := if pos then tiny else - tiny in
    match low with
    | Some (lb, ub) => (false, v, lb, ub)
    | None =>
        match bounded_up cu with
        | Some u => if (negb pos && is_pinf ru)%bool then (false, v, eadd lb (v * (x - u)), ub)
                    else if (pos && is_minf rl)%bool then (false, v, lb, eadd ub (v * (x - u))) else (true, raised, lb, ub)
        | None => (true, raised, lb, ub)
        end
    end.

Section Tangent.
Variable clean : ext -> ext -> ext -> ext -> Q -> Q -> ext -> ext -> bool * Q * ext * ext.
Variable cl cu : list ext.
Variable big : Q -> bool.                (* an entry that stops the cut *)
(** The loop over the entries, BonOuterDescription.cpp 115-129, SepaTMINLP2OsiLP.cpp 196-218 and 296-315; None: a coefficient is too big. *)
Fixpoint entries (r : row) (x : list Q) (es : pvec) (c : cut) : outcome (option cut) :=
  match es with
  | [] => Ok (Some c)
  | (j, v) :: es =>
      do l <- rd j cl; do u <- rd j cu; do xj <- rd j x;
      let '(keep, v, lb, ub) := clean l u (r_lo r) (r_up r) xj v (c_lo c) (c_up c) in
      if keep then
        if big v then Ok None
        else do p <- pv_insert j v (c_row c); entries r x es (mkCut p (eadd lb (v * xj)) (eadd ub (v * xj)))
      else entries r x es (mkCut (c_row c) lb ub)
  end.
(** The link with the indicator, BonOuterDescription.cpp 154-176, SepaTMINLP2OsiLP.cpp 224-247 and 320-342: only an index above 0 counts. *)
Definition link (r : row) (c : cut) : outcome cut :=
  match r_id r with
  | Some (S z) =>
      do a <- (match c_lo c with Fin l => do p <- pv_insert (S z) (- l) (c_row c); Ok (mkCut p (Fin 0) (c_up c)) | _ => Ok (mkCut (c_row c) MInf PInf) end);
      match c_up c with Fin u => do p <- pv_insert (S z) (- u) (c_row a); Ok (mkCut p (c_lo c) (Fin 0)) | _ => Ok a end
  | _ => Ok c
  end.
(** The tangent of one row at x. *)
Definition tangent (r : row) (lb ub : ext) (x : list Q) : outcome (option cut) :=
  do c <- entries r x (r_j r x) (mkCut [] (eadd lb (- r_g r x)) (eadd ub (- r_g r x)));
  match c with None => Ok None | Some c => do c <- link r c; Ok (Some c) end.
End Tangent.

(** ** SepaTMINLP2OsiLP *)
Section Lp.
Variable tiny vtiny : Q.
Variable cl cu : list ext.
Definition too_big (v : Q) : bool := Qltb 1000000000000000 (Qabs v).
(** get_oa, SepaTMINLP2OsiLP.cpp 258-346: one row. *)
Definition get_oa (r : row) (x : list Q) : outcome (list cut) :=
  do c <- tangent (clean_lp tiny vtiny) cl cu too_big r (r_lo r) (r_up r) x; Ok (match c with Some c => [c] | None => [] end).
(** get_oas, 146-256: all nonlinear rows; with one coefficient too big there are no cuts at all. *)
Fixpoint tangents (rows : list row) (x : list Q) : outcome (option (list cut)) :=
  match rows with
  | [] => Ok (Some [])
  | r :: rows =>
      if r_linear r then tangents rows x
      else do c <- entries (clean_lp tiny vtiny) cl cu too_big r x (r_j r x) (mkCut [] (eadd (r_lo r) (- r_g r x)) (eadd (r_up r) (- r_g r x)));
           match c with
           | None => Ok None
           | Some c => do l <- tangents rows x; Ok (match l with Some l => Some (c :: l) | None => None end)
           end
  end.
Fixpoint links (rows : list row) (cs : list cut) : outcome (list cut) :=
  match rows with
  | [] => Ok []
  | r :: rows => if r_linear r then links rows cs
                 else match cs with [] => Ok [] | c :: cs => do c <- link r c; do l <- links rows cs; Ok (c :: l) end
  end.
Definition get_oas (rows : list row) (x : list Q) : outcome (list cut) :=
  do l <- tangents rows x; match l with None => Ok [] | Some l => links rows l end.

(** extract, 23-144 (constraints only): one row of the linear program.  Cleaned entries stay in the matrix. *)
Fixpoint lp_entries (r : row) (x : list Q) (es : pvec) (lb ub : ext) : outcome (ext * ext) :=
  match es with
  | [] => Ok (lb, ub)
  | (j, v) :: es =>
      do l <- rd j cl; do u <- rd j cu; do xj <- rd j x;
      let '(keep, _, lb, ub) := clean_lp tiny vtiny l u (r_lo r) (r_up r) xj v lb ub in
      if keep then lp_entries r x es (eadd lb (v * xj)) (eadd ub (v * xj)) else lp_entries r x es lb ub
  end.
Definition slack : Q := 1 # 10000000.
Definition lp_row (r : row) (x : list Q) : outcome cut :=
  if r_linear r then Ok (mkCut (r_j r x) (r_lo r) (r_up r))
  else do s <- lp_entries r x (r_j r x) (eadd (r_lo r) (- r_g r x - slack)) (eadd (r_up r) (- r_g r x + slack)); Ok (mkCut (r_j r x) (fst s) (snd s)).
Fixpoint lp_rows (rows : list row) (x : list Q) : outcome (list cut) :=
  match rows with [] => Ok [] | r :: rows => do c <- lp_row r x; do l <- lp_rows rows x; Ok (c :: l) end.
Definition extract (rows : list row) (x : list Q) : outcome (list cut) := do a <- lp_rows rows x; do b <- get_oas rows x; Ok (a ++ b).
End Lp.

(** ** Sampling *)
Definition shift (low step : list Q) (k : nat) : list Q := map (fun p => fst p + inject_Z (Z.of_nat k) * snd p) (combine low step).
(** The loop over the points of one row, BonOuterDescription.cpp 341-359, SepaTMINLP2OsiLP.cpp 484-501: [cnt] tangents so far, [ref] the value at
    the last of them; the numbers of the points used.  Diverges: [fuel] steps were not enough. *)
Fixpoint sample (g : nat -> Q) (thr : Q) (nb : nat) (fuel : nat) (k cnt : nat) (ref : Q) : outcome (list nat) :=
  if Nat.leb nb cnt then Ok []
  else match fuel with
       | O => Diverges
       | S fuel => if Qle_bool thr (Qabs (ref - g (S k))) then do l <- sample g thr nb fuel (S k) (S cnt) (g (S k)); Ok (S k :: l)
                   else sample g thr nb fuel (S k) cnt ref
       end.
Definition large : Q := 100000000.
Definition above (u : ext) : bool := match u with PInf => true | Fin u => Qltb large u | MInf => false end.
Definition below (l : ext) : bool := match l with MInf => true | Fin l => Qltb l (- large) | PInf => false end.
Definition val (e : ext) : Q := match e with Fin a => a | _ => 0 end.
(** addOuterDescription, 296-320: p, up and step; in the loop over the rows (339-340) the points start at the bounds as they are, an infinite one
    being a number like any other. *)
Definition od_low (l : ext) : Q := if below l then 0 else val l.
Definition od_up (u : ext) : Q := if above u then 0 else val u.
Definition od_raw (l : ext) : Q := match l with MInf => - (100000000000000000000) | Fin l => l | PInf => 100000000000000000000 end.
Definition od_step (int : bool) (l u : ext) : Q := if (above u || below l || int)%bool then 0 else (od_up u - val l) / 200.
Definition map3 {A B C D} (f : A -> B -> C -> D) (a : list A) (b : list B) (c : list C) : list D := map (fun p => f (fst (fst p)) (snd (fst p)) (snd p)) (combine (combine a b) c).
(** The points at which one nonlinear row gets tangents: 323-335, 341-359, 363-366. *)
Definition od_points (nb fuel : nat) (int : list bool) (cl cu : list ext) (r : row) : outcome (list (list Q)) :=
  let low := map od_low cl in let up := map od_up cu in let raw := map od_raw cl in let step := map3 od_step int cl cu in
  let thr := Qabs (r_g r up - r_g r low) / inject_Z (Z.of_nat nb) in
  do ks <- sample (fun k => r_g r (shift raw step k)) thr nb fuel 0 2 (r_g r raw);
  Ok (low :: map (shift raw step) ks ++ [up]).
(** add_outer_description_function_values: points clipped to 10000, 437-465; variables that occur linearly stay at 0. *)
Definition clip_lo (l : ext) : Q := match l with Fin l => if Qltb l (-10000) then -10000 else l | MInf => -10000 | PInf => 0 end.
Definition clip_up (u : ext) : Q := match u with Fin u => if Qltb 10000 u then 10000 else u | PInf => 10000 | MInf => 0 end.
Definition fv_points (nb fuel : nat) (lin : list bool) (cl cu : list ext) (r : row) : outcome (list (list Q)) :=
  let low := map (fun p => if fst p : bool then 0 else clip_lo (snd p)) (combine lin cl) in
  let up := map (fun p => if fst p : bool then 0 else clip_up (snd p)) (combine lin cu) in
  let step := map (fun p => (snd p - fst p) / inject_Z (Z.of_nat (nb * 20))) (combine low up) in
  let thr := Qabs (r_g r up - r_g r low) / inject_Z (Z.of_nat nb - 1) in
  do ks <- sample (fun k => r_g r (shift low step k)) thr nb fuel 0 2 (r_g r low);
  Ok (low :: up :: map (shift low step) ks).
(** get_refined_oa, 348-414: all rows at once. *)
Definition refined_points (nb : nat) (lin : list bool) (cl cu : list ext) : list (list Q) :=
  match nb with
  | O => []
  | _ =>
      let low := map (fun p => if fst p : bool then 0 else clip_lo (snd p)) (combine lin cl) in
      let up := map (fun p => if fst p : bool then 0 else clip_up (snd p)) (combine lin cu) in
      let step := map (fun p => (snd p - fst p) / inject_Z (Z.of_nat nb)) (combine low up) in
      low :: map (shift low step) (seq 1 nb) ++ [up]
  end.

(** ** getMyOuterApproximation, BonOuterDescription.cpp 64-182 *)
Definition od_tiny : Q := 1 # 100000000.
Definition od_vtiny : Q := 1 # 100000000000000000000.
(** 97-110: a row with two sides keeps the one its multiplier points to. *)
Definition sides (r : row) (dual : Q) : ext * ext :=
  match r_lo r, r_up r with
  | Fin _, Fin _ => (if Qle_bool 0 dual then MInf else r_lo r, if Qle_bool dual 0 then PInf else r_up r)
  | _, _ => (r_lo r, r_up r)
  end.
Fixpoint pv_dot (p : pvec) (x : list Q) : outcome Q := match p with [] => Ok 0 | (c, v) :: p => do a <- rd c x; do r <- pv_dot p x; Ok (v * a + r) end.
(** 134-140: the distance of x2 from the sides. *)
Definition distance (c : cut) (a : Q) : Q :=
  let d := match c_up c with Fin u => qmax 0 (Qabs (a - u)) | _ => 0 end in match c_lo c with Fin l => qmax d (Qabs (l - a)) | _ => d end.
Definition getMyOuterApproximation (cl cu : list ext) (r : row) (dual : Q) (x : list Q) (x2 : option (list Q)) (theta : Q) : outcome (list cut) :=
  let '(lb, ub) := sides r dual in
  do c <- entries (clean_od od_tiny od_vtiny) cl cu (fun _ => false) r x (r_j r x) (mkCut [] (eadd lb (- r_g r x)) (eadd ub (- r_g r x)));
  match c with
  | None => Ok []
  | Some c =>
      do add <- (match x2 with None => Ok true | Some y => do a <- pv_dot (c_row c) y; Ok (negb (Qltb (distance c a) theta)) end);
      if add then do c <- link r c; Ok [c] else Ok []
  end.

(** ** Copies of the transformer, BonTMINLP2OsiLP.hpp 31-67 and BonTMINLP2OsiLP.cpp 24-48.  Tolerances may be unset; the Jacobian storage has as many entries as were asked for. *)
Record transformer := mkTr { t_tiny : Q; t_vtiny : Q; t_relax : option Q; t_infty : option Q; t_model : option (nat * nat); t_jac : nat; t_types : nat }.
Definition new_tr : transformer := mkTr 0 0 None None None 0 0.
Definition set_tols (a b c d : Q) (t : transformer) : transformer := mkTr a b (Some c) (Some d) (t_model t) (t_jac t) (t_types t).
(** set_model: the problem has m rows and nnz Jacobian entries. *)
Definition set_model (m nnz : nat) (t : transformer) : transformer := mkTr (t_tiny t) (t_vtiny t) (t_relax t) (t_infty t) (Some (m, nnz)) nnz m.
Definition clone (t : transformer) : transformer := mkTr (t_tiny t) (t_vtiny t) None None (t_model t) 0 0.
(** What get_oas needs of it: the Jacobian values are written to the storage, the types of the rows and the infinity are read. *)
Definition uses (t : transformer) : outcome (Q * Q * Q) :=
  match t_model t with
  | None => NullDeref
  | Some (m, nnz) =>
      if Nat.ltb (t_jac t) nnz then OutOfBounds
      else if Nat.ltb (t_types t) m then OutOfBounds
      else match m, t_infty t with O, _ => Ok (t_tiny t, t_vtiny t, 0) | S _, None => Uninit | S _, Some i => Ok (t_tiny t, t_vtiny t, i) end
  end.
