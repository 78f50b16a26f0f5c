(** The feasibility pump heuristic, src/CbcBonmin/Heuristics/BonHeuristicFPump.cpp.

    Arguments: the answers of the feasibility NLPs (by number of the iteration and target;
    their status is not looked at by the code), the order found by std::sort (only its
    first entry matters, see [flip_one]), the random numbers, the answer of the last NLP.
    Simplified: -COIN_DBL_MAX, which fills the store of old targets at the start, is
    [None], different from every value; static_cast<int> does not overflow; the solver
    clone and the arrays, all released on every path (153-156, 341-346, 388-391), are
    left out. *)
From Verif Require Import Base Arr Oad_Model.
#[local] Open Scope Q_scope.

(** fabs(floor(v+0.5)-v) <= tol *)
Definition isint (tol v : Q) : bool := Qle_bool (Qabs (inject_Z (nearest v) - v)) tol.
(** primalTolerance, line 115 *)
Definition ptol : Q := 1 # 1000000.
(** value < x_l - primalTolerance, value > x_u + primalTolerance *)
Definition below_lo (l : ext) (v : Q) : bool := match l with MInf => false | Fin a => Qltb v (a - ptol) | PInf => true end.
Definition above_up (u : ext) (v : Q) : bool := match u with MInf => true | Fin b => Qltb (b + ptol) v | PInf => false end.
(** Lines 251-254, 289-292, 548-551 *)
Definition adjust (l u : ext) (v : Q) : Q := if below_lo l v then v + 1 else if above_up u v then v - 1 else v.

(** ** RoundingFPump *)
(** static_cast<int>(double) *)
Definition trunc (q : Q) : Z := Z.quot (Qnum q) (Zpos (Qden q)).
(** gutsOfConstructor 441-486: the entries of a row, in the order of the Jacobian at the
    starting point. *)
Definition row_of (jac : list (nat * nat * Q)) (r : nat) : list (nat * Z) :=
  map (fun e => (snd (fst e), trunc (snd e))) (filter (fun e => Nat.eqb (fst (fst e)) r) jac).
(** 505-521: None if the row is not treated as "one of these is 1". *)
Fixpoint scan (tol : Q) (ty : list bool) (x : list Q) (row : list (nat * Z)) (counter : Z) (ws : Q) : outcome (option Q) :=
  match row with
  | [] => Ok (Some ws)
  | (c, k) :: row =>
      do v <- rd c x;
      if (Qle_bool (1 - tol) v || negb (Z.eqb k 1))%bool then Ok None
      else do t <- rd c ty;
           if negb t then Ok None else scan tol ty x row (counter + 1) (ws + inject_Z counter * v)
  end.
(** 535-541 *)
Fixpoint unit_row (row : list (nat * Z)) (j : nat) (sel : Z) (x : list Q) : outcome (list Q) :=
  match row with
  | [] => Ok x
  | (c, _) :: row => do x <- lset c (if Z.eqb (Z.of_nat j) sel then 1 else 0) x; unit_row row (S j) sel x
  end.
(** 500-544: one row with g_l = g_u = 1. *)
Definition sos_row (tol : Q) (ty : list bool) (row : list (nat * Z)) (x : list Q) : outcome (list Q) :=
  do w <- scan tol ty x row 1 0;
  match w with
  | None => Ok x
  | Some ws =>
      let sel := (Qfloor (ws + (1 # 2)) - 1)%Z in
      if Z.ltb sel 0 then Ok x
      else do _ <- chk (Z.ltb sel (Z.of_nat (length row)));               (* 534 *)
           unit_row row 0 sel x
  end.
Definition is_one (e : ext) : bool := match e with Fin q => Qeq_bool q 1 | _ => false end.
Fixpoint sos_rows (tol : Q) (ty : list bool) (jac : list (nat * nat * Q)) (r : nat) (g : list (ext * ext)) (x : list Q) : outcome (list Q) :=
  match g with
  | [] => Ok x
  | (gl, gu) :: g =>
      do x <- (if (is_one gl && is_one gu)%bool then sos_row tol ty (row_of jac r) x else Ok x);
      sos_rows tol ty jac (S r) g x
  end.
(** 547-561 *)
Fixpoint round_cols (tol : Q) (ty : list bool) (lo up : list ext) (x : list Q) : outcome (list Q) :=
  match x, ty, lo, up with
  | [], [], [], [] => Ok []
  | v :: x, t :: ty, l :: lo, u :: up =>
      do x <- round_cols tol ty lo up x;
      Ok ((if (t && negb (isint tol v))%bool then adjust l u (inject_Z (nearest v)) else v) :: x)
  | _, _, _, _ => OutOfBounds
  end.
Record prob := mkProb { p_ty : list bool; p_lo : list ext; p_up : list ext; p_g : list (ext * ext); p_jac : list (nat * nat * Q); p_tol : Q }.
(** RoundingFPump::round, 488-562 *)
Definition round (P : prob) (x : list Q) : outcome (list Q) :=
  do x <- sos_rows (p_tol P) (p_ty P) (p_jac P) 0 (p_g P) x;
  round_cols (p_tol P) (p_ty P) (p_lo P) (p_up P) x.

(** ** The pump *)
(** 163-173: the integer columns *)
Fixpoint int_from (i : nat) (ty : list bool) : list nat :=
  match ty with [] => [] | t :: ty => if t then i :: int_from (S i) ty else int_from (S i) ty end.
Definition ints (P : prob) : list nat := int_from 0 (p_ty P).
Fixpoint pick {A} (l : list nat) (x : list A) : outcome (list A) :=
  match l with [] => Ok [] | i :: l => do v <- rd i x; do r <- pick l x; Ok (v :: r) end.
(** 312-318 *)
Definition nfrac (tol : Q) (y : list Q) : nat := length (filter (fun v => negb (isint tol v)) y).
Definition olds := list (list (option Q)).
Definition old_none (n : nat) : olds := repeat (repeat None n) 4.
(** 218-220, 260-266: all entries within the tolerance *)
Fixpoint same (tol : Q) (a : list Q) (b : list (option Q)) : bool :=
  match a, b with
  | [], _ => true
  | v :: a, Some w :: b => (Qle_bool (Qabs (v - w)) tol && same tol a b)%bool
  | _, _ => false
  end.
(** One step from the old target [o] towards the relaxation value [v], 246-254 and
    284-293, with the assertion. *)
Definition stepv (tol : Q) (l u : ext) (v : Q) (o : option Q) : outcome Q :=
  match o with
  | None => Uninit
  | Some o =>
      let w := adjust l u (if Qltb 0 (v - o) then o + 1 else o - 1) in
      do _ <- chk (isint tol w); Ok w
  end.
(** 228-265: maxNumberToMove is 1, so only the first of the sorted columns is looked at:
    it is moved if its score is positive, otherwise nothing is. *)
Definition score (v : Q) (o : option Q) : outcome Q := match o with None => Uninit | Some o => Ok (Qabs (v - o)) end.
Fixpoint scores (y : list Q) (o : list (option Q)) : outcome (list Q) :=
  match y, o with
  | [], [] => Ok []
  | v :: y, w :: o => do s <- score v w; do r <- scores y o; Ok (s :: r)
  | _, _ => OutOfBounds
  end.
Definition flip_one (srt : list Q -> nat) (tol : Q) (lo up : list ext) (y : list Q) (o : list (option Q)) (xbar : list Q) : outcome (list Q) :=
  do sc <- scores y o;
  match y with
  | [] => Ok xbar
  | _ =>
      let h := srt sc in
      do s <- rd h sc;
      if Qltb 0 s then
        do v <- rd h y; do w <- rd h o; do l <- rd h lo; do u <- rd h up;
        do t <- stepv tol l u v w; lset h t xbar
      else Ok xbar
  end.
(** 276-301: [rnd i] is CoinDrand48 *)
Fixpoint perturb (rnd : nat -> Q) (i : nat) (tol : Q) (lo up : list ext) (y : list Q) (o : list (option Q)) : outcome (list Q) :=
  match y, o, lo, up with
  | [], [], [], [] => Ok []
  | v :: y, Some w :: o, l :: lo, u :: up =>
      do t <- (if Qltb (1 # 2) (Qabs (v - w) + qmax 0 (rnd i - (3 # 10))) then stepv tol l u v (Some w) else Ok w);
      do r <- perturb rnd (S i) tol lo up y o; Ok (t :: r)
  | _, None :: _, _, _ => Uninit
  | _, _, _, _ => OutOfBounds
  end.
Inductive how := Rounded | Flipped | Perturbed.
(** 203-311: the next target. *)
Definition target (P : prob) (srt : list Q -> nat) (rnd : nat -> Q) (x : list Q) (old : olds) : outcome (list Q * how) :=
  do xr <- round P x;
  do xbar <- pick (ints P) xr;
  do o0 <- rd 0 old;
  if negb (same (p_tol P) xbar o0) then Ok (xbar, Rounded)
  else
    do y <- pick (ints P) x;
    do lo <- pick (ints P) (p_lo P);
    do up <- pick (ints P) (p_up P);
    do xbar <- flip_one srt (p_tol P) lo up y o0 xbar;
    if existsb (same (p_tol P) xbar) (tl old) then                           (* 257-269 *)
      do xbar <- perturb rnd 0 (p_tol P) lo up y o0; Ok (xbar, Perturbed)
    else Ok (xbar, Flipped).
Record pump := mkPump { w_x : list Q; w_old : olds; w_log : list (list Q * how) }.
(** 195-345: [k] iterations are left; [it] have been done.  The log has the targets, last
    first. *)
Fixpoint iterate (P : prob) (O : nat -> list Q -> Q * list Q) (srt : nat -> list Q -> nat) (rnd : nat -> nat -> Q) (k it : nat) (w : pump) : outcome pump :=
  do y <- pick (ints P) (w_x w);
  if Nat.eqb (nfrac (p_tol P) y) 0 then Ok w
  else match k with
       | O => Ok w
       | S k =>
           do ' (xbar, hw) <- target P (srt it) (rnd it) (w_x w) (w_old w);
           let a := O it xbar in
           let w' := mkPump (snd a) (map Some xbar :: firstn 3 (w_old w)) ((xbar, hw) :: w_log w) in
           if Qltb (fst a) (1 # 100000) then Ok w' else iterate P O srt rnd k (S it) w'
       end.
(** 350-356: bounds for the last NLP; floor and ceil of an integer value are that value. *)
Fixpoint fix_ints (l : list nat) (x : list Q) (c : cols) : outcome cols :=
  match l with
  | [] => Ok c
  | i :: l =>
      do v <- rd i x;
      do c <- setUpper i (Fin (inject_Z (nearest v))) c;
      do c <- setLower i (Fin (inject_Z (nearest v))) c;
      fix_ints l x c
  end.
Record env := mkEnv { v_node : nat; v_pass : nat; v_nsol : nat; v_adv : bool }.
Record res := mkRes { r_ret : nat; r_val : Q; r_sol : list Q; r_log : list (list Q * how); r_cols : option cols }.
(** solution, 82-394.  [x0]: the point of the relaxation, None unless its status is
    SUCCESS; [fin]: the last NLP, None unless SUCCESS; [f]: eval_f.  1e50 is [big]. *)
Definition big : Q := inject_Z (10 ^ 50).
Definition solution (P : prob) (O : nat -> list Q -> Q * list Q) (srt : nat -> list Q -> nat) (rnd : nat -> nat -> Q)
    (fin : cols -> option (list Q)) (f : list Q -> Q) (e : env) (x0 : option (list Q)) (val : Q) (buf : list Q) : outcome res :=
  let no := Ok (mkRes 0 val buf [] None) in
  if (negb (Nat.eqb (v_node e) 0) || Nat.ltb 1 (v_pass e))%bool then no
  else if (negb (Nat.eqb (v_nsol e) 0) && negb (v_adv e))%bool then no
  else
    do _ <- (if Nat.eqb (v_nsol e) 0 then Ok tt else chk (Qltb val big));
    match x0 with
    | None => no
    | Some x0 =>
        do w <- iterate P O srt rnd 200 0 (mkPump x0 (old_none (length (ints P))) []);
        do c <- fix_ints (ints P) (w_x w) (mkCols (p_lo P) (p_up P));
        match fin c with
        | None => Ok (mkRes 0 val buf (w_log w) (Some c))
        | Some x =>
            if Qltb (f x) val then Ok (mkRes 1 (f x) x (w_log w) (Some c))
            else Ok (mkRes 0 val buf (w_log w) (Some c))
        end
    end.
