(** Diving heuristics on the NLP.
    src/CbcBonmin/Heuristics/BonHeuristicDive.cpp 66-362,
    src/CbcBonmin/Heuristics/BonHeuristicDiveFractional.cpp 54-108,
    src/CbcBonmin/Heuristics/BonHeuristicDiveVectorLength.cpp 54-159,
    src/Interfaces/BonTMINLP2TNLP.cpp 268-278.
    Simplifications.  Doubles are exact rationals with explicit infinities.  The heuristic
    works on a clone of the solver, so only the clone's bounds change.  The NLP solver and
    the rule that selects a variable are oracles that may depend on the number of calls made
    so far.  Callbacks succeed.  After a solve x_sol holds what the solver reported. *)
From Verif Require Import Base Arr Oad_Model.
#[local] Open Scope Q_scope.

(** fabs(floor(value+0.5)-value) > integerTolerance *)
Definition frac (tol v : Q) : bool := Qltb tol (Qabs (inject_Z (nearest v) - v)).
(** value < x_l, value > x_u *)
Definition below (v : Q) (l : ext) : bool := match l with MInf => false | Fin q => Qltb v q | PInf => true end.
Definition above (v : Q) (u : ext) : bool := match u with PInf => false | Fin q => Qltb q v | MInf => true end.
(** SetVariableLowerBound, SetVariableUpperBound (BonTMINLP2TNLP.cpp 268-278) *)
Definition set_lo (i : nat) (e : ext) (b : cols) : outcome cols :=
  do _ <- chk (Nat.ltb i (length (k_lo b))); setLower i e b.
Definition set_up (i : nat) (e : ext) (b : cols) : outcome cols :=
  do _ <- chk (Nat.ltb i (length (k_up b))); setUpper i e b.

(** What the heuristic reads from the problem. *)
Record dprob := mkDprob {
  d_ints : list bool;                 (* variableType[i] != CONTINUOUS *)
  d_gl : list ext; d_gu : list ext;
  d_f : list Q -> Q;                  (* eval_f *)
  d_g : list Q -> list Q              (* eval_g *)
}.
(** integerColumns, 114-119 *)
Fixpoint int_cols (i : nat) (ints : list bool) : list nat :=
  match ints with
  | [] => []
  | b :: r => if (b : bool) then i :: int_cols (S i) r else int_cols (S i) r
  end.
(** numberFractionalVariables, 119-123 and 234-240 *)
Fixpoint count_frac (tol : Q) (cs : list nat) (x : list Q) : outcome nat :=
  match cs with
  | [] => Ok 0%nat
  | i :: cs => do v <- rd i x; do r <- count_frac tol cs x; Ok (if frac tol v then S r else r)
  end.

(** adjustPrimalTolerance, 340-362 *)
Fixpoint adjust (i k : nat) (gs : list Q) (gl gu : list ext) (t : Q) : outcome Q :=
  match k with
  | O => Ok t
  | S k =>
      do v <- rd i gs; do l <- rd i gl; do u <- rd i gu;
      adjust (S i) k gs gl gu
        (if below v (eplus l (- t)) then match l with Fin q => q - v | _ => t end
         else if above v (eplus u t) then match u with Fin q => v - q | _ => t end else t)
  end.
(** The test on the bounds: isNlpFeasible 324-329. *)
Fixpoint box_ok (i k : nat) (x : list Q) (b : cols) : outcome bool :=
  match k with
  | O => Ok true
  | S k => do v <- rd i x; do l <- rd i (k_lo b); do u <- rd i (k_up b);
           if below v l || above v u then Ok false else box_ok (S i) k x b
  end.
(** The test on the constraints: isNlpFeasible 330-335, solution 260-278. *)
Fixpoint rows_ok (i k : nat) (gs : list Q) (gl gu : list ext) (t : Q) : outcome bool :=
  match k with
  | O => Ok true
  | S k => do v <- rd i gs; do l <- rd i gl; do u <- rd i gu;
           if below v (eplus l (- t)) || above v (eplus u t) then Ok false else rows_ok (S i) k gs gl gu t
  end.
(** isNlpFeasible, 305-338 *)
Definition isNlpFeasible (p : dprob) (b : cols) (x gs : list Q) (t : Q) : outcome bool :=
  do r <- box_ok 0 (length (d_ints p)) x b;
  if (r : bool) then rows_ok 0 (length (d_gl p)) gs (d_gl p) (d_gu p) t else Ok false.
(** The test on bounds and integrality at the end of solution, 244-257. *)
Fixpoint end_ok (i k : nat) (tol : Q) (ints : list bool) (x : list Q) (b : cols) : outcome bool :=
  match k with
  | O => Ok true
  | S k => do v <- rd i x; do l <- rd i (k_lo b); do u <- rd i (k_up b); do t <- rd i ints;
           if below v l || above v u then Ok false
           else if (t && frac tol v)%bool then Ok false else end_ok (S i) k tol ints x b
  end.

(** ** The dive *)
(** fabs(bound - value) <= integerTolerance, and x_l != x_u *)
Definition near (tol : Q) (e : ext) (v : Q) : bool := match e with Fin q => Qle_bool (Qabs (q - v)) tol | _ => false end.
Definition ext_neb (a b : ext) : bool :=
  match a, b with
  | MInf, MInf | PInf, PInf => false
  | Fin p, Fin q => negb (Qeq_bool p q)
  | _, _ => true
  end.
(** columnFixed, originalBound, fixedAtLowerBound *)
Record fixed := mkFixed { x_col : nat; x_orig : ext; x_atLower : bool }.
(** Fix integer variables that are at a bound, 146-173. *)
Fixpoint fix_at_bounds (tol : Q) (most : nat) (cs : list nat) (x : list Q) (b : cols) (done : list fixed) : outcome (cols * list fixed) :=
  match cs with
  | [] => Ok (b, done)
  | i :: cs =>
      do v <- rd i x;
      if (negb (frac tol v) && Nat.ltb (length done) most)%bool then
        do l <- rd i (k_lo b); do u <- rd i (k_up b);
        do ' (b, done) <-
          (if (near tol l v && ext_neb l u)%bool then do b <- set_up i l b; Ok (b, done ++ [mkFixed i u true])
           else if (near tol u v && ext_neb l u)%bool then do b <- set_lo i u b; Ok (b, done ++ [mkFixed i l false])
           else Ok (b, done));
        if Nat.eqb (length done) most then Ok (b, done) else fix_at_bounds tol most cs x b done
      else fix_at_bounds tol most cs x b done
  end.
(** Undo it, 196-202. *)
Fixpoint unfix (l : list fixed) (b : cols) : outcome cols :=
  match l with
  | [] => Ok b
  | r :: l => do b <- (if x_atLower r then set_up (x_col r) (x_orig r) b else set_lo (x_col r) (x_orig r) b); unfix l b
  end.
Definition fl (v : Q) : ext := Fin (inject_Z (Qfloor v)).
Definition ce (v : Q) : ext := Fin (inject_Z (Qceiling v)).

(** initialSolve on the [k]-th call with bounds [b]: whether optimization_status() is
    SUCCESS, and x_sol. *)
Notation solver := (nat -> cols -> bool * list Q).
(** selectVariableToBranch in the [k]-th round: bestColumn (None for -1) and whether
    bestRound is up. *)
Notation rule := (nat -> cols -> list Q -> outcome (option (nat * bool))).

(** State of a dive: calls of the solver made, bounds handed to it (latest first, for the
    statement of the properties only), bounds, newSolution. *)
Record dstate := mkD { s_k : nat; s_log : list cols; s_b : cols; s_x : list Q }.

(** The loop 189-221; the boolean result is optimization_status() == SUCCESS. *)
Fixpoint inner (fuel : nat) (S' : solver) (j : nat) (v : Q) (orig : ext) (up0 up : bool) (done : list fixed)
    (k : nat) (log : list cols) (b : cols) : outcome (bool * list Q * nat * list cols * cols) :=
  match fuel with
  | O => Diverges
  | S fuel =>
      let '(ok, xs) := S' k b in
      let log := b :: log in
      if (ok : bool) then Ok (true, xs, S k, log, b)
      else match done with
           | _ :: _ => do b <- unfix done b; inner fuel S' j v orig up0 up [] (S k) log b       (* 194-204 *)
           | [] =>
               if Bool.eqb up up0 then                                                          (* 205-215 *)
                 do b <- (if up then do b <- set_lo j orig b; set_up j (fl v) b
                          else do b <- set_lo j (ce v) b; set_up j orig b);
                 inner fuel S' j v orig up0 (negb up) [] (S k) log b
               else Ok (false, xs, S k, log, b)
           end
  end.

(** What ends the outer loop: no fractional variable left, or a break. *)
(** The loop 136-242; [it] counts its rounds. *)
Fixpoint outer (fuel : nat) (p : dprob) (S' : solver) (R : rule) (tol : Q) (most : nat) (val : Q) (it : nat) (s : dstate) : outcome dstate :=
  do nf <- count_frac tol (int_cols 0 (d_ints p)) (s_x s);
  if Nat.eqb nf 0 then Ok s
  else
  match fuel with
  | O => Diverges
  | S fuel =>
      do best <- R it (s_b s) (s_x s);
      do ' (b, done) <- fix_at_bounds tol most (int_cols 0 (d_ints p)) (s_x s) (s_b s) [];
      match best with
      | None => Ok (mkD (s_k s) (s_log s) b (s_x s))                                            (* 185-187 *)
      | Some (j, up) =>
          do v <- rd j (s_x s);
          do ' (orig, b) <- (if (up : bool) then do l <- rd j (k_lo b); do b <- set_lo j (ce v) b; Ok (l, b)
                             else do u <- rd j (k_up b); do b <- set_up j (fl v) b; Ok (u, b));   (* 176-184 *)
          do ' (ok, xs, k, log, b) <- inner 4 S' j v orig up up done (s_k s) (s_log s) b;
          if (ok : bool) then
            if Qle_bool val (d_f p xs) then Ok (mkD k log b xs)                                  (* 231-232 *)
            else outer fuel p S' R tol most val (S it) (mkD k log b xs)
          else Ok (mkD k log b (s_x s))                                                          (* 223-225 *)
      end
  end.

(** percentageToFix_ * numberIntegers rounded down, 134; a negative number of variables to
    fix is never reached, like zero. *)
Definition most_fix (pct : Q) (p : dprob) : nat :=
  Z.to_nat (Qfloor (pct * inject_Z (Z.of_nat (length (int_cols 0 (d_ints p)))))).

(** What solution leaves: return code, solutionValue, betterSolution, and the last state of
    the dive. *)
Record dresult := mkDR { r_found : bool; r_value : Q; r_better : list Q; r_log : list cols }.
(** HeuristicDive::solution, 66-302.  [x0], [gs] are x_sol and g_sol of the clone, [val] and
    [old] the caller's solutionValue and betterSolution. *)
Definition dive (fuel : nat) (p : dprob) (S' : solver) (R : rule) (tol pct : Q) (node howOften pass : nat)
    (b0 : cols) (x0 gs : list Q) (val : Q) (old : list Q) : outcome dresult :=
  if (negb (Nat.eqb (Nat.modulo node howOften) 0) || Nat.ltb 1 pass)%bool then Ok (mkDR false val old [])   (* 70-71 *)
  else
  do t <- adjust 0 (length (d_gl p)) gs (d_gl p) (d_gu p) (1 # 1000000);                       (* 85, 103 *)
  do fe <- isNlpFeasible p b0 x0 gs t;
  do _ <- chk fe;                                                                              (* 105 *)
  do s <- outer fuel p S' R tol (most_fix pct p) val 0 (mkD 0 [] b0 x0);
  do e <- end_ok 0 (length (d_ints p)) tol (d_ints p) (s_x s) (s_b s);                         (* 244-257 *)
  do r <- rows_ok 0 (length (d_gl p)) (d_g p (s_x s)) (d_gl p) (d_gu p) t;                     (* 258-278 *)
  if (e && r && Qltb (d_f p (s_x s)) val)%bool                                                 (* 280-287 *)
  then Ok (mkDR true (d_f p (s_x s)) (s_x s) (s_log s))
  else Ok (mkDR false val old (s_log s)).

(** ** Selection rules *)
(** downFraction and upFraction; None is COIN_DBL_MAX.  DiveFractional 74-81 and
    DiveVectorLength 123-132. *)
Definition down_frac (v : Q) (l : ext) : option Q :=
  if below (inject_Z (Qfloor v)) l then None else Some (v - inject_Z (Qfloor v)).
Definition up_frac (v : Q) (u : ext) : option Q :=
  if above (inject_Z (Qceiling v)) u then None else Some (inject_Z (Qceiling v) - v).
Definition olt (a b : option Q) : bool :=
  match a, b with
  | Some p, Some q => Qltb p q
  | Some _, None => true
  | None, _ => false
  end.
(** DiveFractional 70-106; [coin k] is the k-th draw of CoinDrand48() < 0.5. *)
Fixpoint frac_rule (tol : Q) (coin : nat -> bool) (k : nat) (cs : list nat) (b : cols) (x : list Q)
    (best : option Q) (bc : option (nat * bool)) : outcome (option (nat * bool)) :=
  match cs with
  | [] => Ok bc
  | i :: cs =>
      do v <- rd i x;
      if frac tol v then
        do l <- rd i (k_lo b); do u <- rd i (k_up b);
        let d := down_frac v l in
        let a := up_frac v u in
        let '(fr, up, k) := if olt d a then (d, false, k)
                            else if olt a d then (a, true, k)
                            else if coin k then (d, false, S k) else (a, true, S k) in
        if olt fr best then frac_rule tol coin k cs b x fr (Some (i, up))
        else frac_rule tol coin k cs b x best bc
      else frac_rule tol coin k cs b x best bc
  end.
(** The draws of round [it] are [coin it 0], [coin it 1], ... *)
Definition fractional_rule (tol : Q) (coin : nat -> nat -> bool) (ints : list bool) : rule :=
  fun it b x => frac_rule tol (coin it) 0 (int_cols 0 ints) b x None None.

(** DiveVectorLength 54-91: columnLength_ from the column indices of the Jacobian
    (corrected to start at 0). *)
Fixpoint col_len (js : list nat) (prev : option nat) (a : arr nat) : outcome (arr nat) :=
  match js with
  | [] => Ok a
  | j :: js =>
      if match prev with Some q => Nat.eqb q j | None => false end
      then do c <- aget j a; do a <- aset j (S c) a; col_len js (Some j) a
      else do a <- aset j 1%nat a; col_len js (Some j) a
  end.
Definition columnLength (n : nat) (js : list nat) : outcome (arr nat) := col_len js None (fresh n).

(** gradient*downFraction and gradient*upFraction, with downFraction and upFraction possibly
    COIN_DBL_MAX; a product beyond it overflows to an infinity. *)
Definition dmax : Q := inject_Z (2 ^ 1024).
Definition times (g : Q) (o : option Q) : ext :=
  match o with
  | Some q => Fin (g * q)
  | None => if Qltb 1 g then PInf else if Qltb g (-1) then MInf else Fin (g * dmax)
  end.
(** (objdelta + 1e-6)/(columnLength_+1) *)
Definition score (o : ext) (len : nat) : ext :=
  match o with Fin q => Fin ((q + (1 # 1000000)) / inject_Z (Z.of_nat (S len))) | _ => o end.
(** DiveVectorLength 115-155 *)
Fixpoint len_rule (tol : Q) (a : arr nat) (cs : list nat) (gf : list Q) (b : cols) (x : list Q)
    (best : ext) (bc : option (nat * bool)) : outcome (option (nat * bool)) :=
  match cs with
  | [] => Ok bc
  | i :: cs =>
      do v <- rd i x;
      if frac tol v then
        do g <- rd i gf;
        do l <- rd i (k_lo b); do u <- rd i (k_up b);
        let d := down_frac v l in
        let c := up_frac v u in
        let '(od, up) := if (Qle_bool 0 g && olt c None)%bool then (times g c, true)
                         else if (Qltb g 0 && olt d None)%bool then (times g d, false)
                         else if olt c None then (times g c, true) else (times g d, false) in
        do len <- aget i a;
        let sc := score od len in
        if ext_ltb sc best then len_rule tol a cs gf b x sc (Some (i, up))
        else len_rule tol a cs gf b x best bc
      else len_rule tol a cs gf b x best bc
  end.
Definition vectorLength_rule (tol : Q) (ints : list bool) (js : list nat) (gf : list Q -> list Q) : rule :=
  fun _ b x => do a <- columnLength (length ints) js;
               len_rule tol a (int_cols 0 ints) (gf x) b x (Fin dmax) None.
