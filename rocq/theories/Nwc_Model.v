(** * Choosing among sets: the list of candidates, usefulness, pseudo-costs

    experimental/RobotBonmin/BonNWayChoose.cpp: compute_usefulness 141-191, setupList
    193-343, the learning of doStrongBranching 555-576.  The branches themselves, the fixings
    and the final choice are in Nwy_Model.

    Simplified: doubles are rationals; -DBL_MAX, the mark of a member not branched on, is
    [unset]; pow(x, 1/n) is the argument [root]; CoinSort_2 is the argument [srt]. *)
From Coq Require Import List Arith ZArith QArith Qabs Bool.
From Verif Require Import Base Arr.
Import ListNotations.
Open Scope Q_scope.

(** ** The list, 193-343 *)

(** One set: infeasibility, priority, usefulness (by compute_usefulness). *)
Record cand := Cand { c_inf : Q; c_prio : Z; c_use : Q }.

(** Lines 261-265: at the root the infeasibility is compared, below it the usefulness. *)
Definition value (root : bool) (c : cand) : Q := if root then c_inf c else c_use c.

(** list_ (None: -1), useful_, putOther, maximumStrong, check, checkIndex, bestPriority,
    numberUnsatisfied_. *)
Record st := St {
  s_list : list (option nat); s_use : list Q; s_put : nat; s_max : nat;
  s_check : ext; s_ci : nat; s_prio : Z; s_uns : nat }.

(** 246-255: the candidates of a worse priority go to the end; [j] counts down. *)
Fixpoint flush (j : nat) (l : list (option nat)) (u : list Q) (put : nat)
  : outcome (list (option nat) * list Q * nat) :=
  match j with
  | O => Ok (l, u, put)
  | S j =>
      do e <- rd j l;
      match e with
      | None => flush j l u put
      | Some o =>
          do l <- lset j None l;
          do u <- lset j 0 u;
          match put with
          | O => OutOfBounds
          | S put => do l <- lset put (Some o) l; flush j l u put
          end
      end
  end.

(** 277-292: the slot to be replaced next. *)
Fixpoint worst (n j : nat) (l : list (option nat)) (u : list Q) (ck : ext) (ci : nat)
  : outcome (ext * nat) :=
  match n with
  | O => Ok (ck, ci)
  | S n =>
      do e <- rd j l;
      match e with
      | None => Ok (Fin 0, j)
      | Some _ =>
          do v <- rd j u;
          if match ck with PInf => true | Fin c => Qltb v c | MInf => false end
          then worst n (S j) l u (Fin v) j
          else worst n (S j) l u ck ci
      end
  end.

Definition empty (e : option nat) : bool := match e with None => true | Some _ => false end.

(** 269-273, 295-297, 303-305: one entry to the end. *)
Definition to_end (o : nat) (l : list (option nat)) (put : nat) : outcome (list (option nat) * nat) :=
  match put with
  | O => OutOfBounds
  | S put =>
      do e <- rd put l;
      do _ <- chk (empty e);
      do l <- lset put (Some o) l;
      Ok (l, put)
  end.

(** 267-293 and 294-299: a candidate of the best priority. *)
Definition enter (o : nat) (v : Q) (s : st) : outcome st :=
  if match s_check s with MInf => true | Fin c => Qltb c v | PInf => false end
  then
    do e <- rd (s_ci s) (s_list s);
    do ' (l, put) <- match e with Some p => to_end p (s_list s) (s_put s)
                                | None => Ok (s_list s, s_put s) end;
    do l <- lset (s_ci s) (Some o) l;
    do _ <- chk (Nat.ltb (s_ci s) put);
    do u <- lset (s_ci s) v (s_use s);
    let m := Nat.min (s_max s) put in
    do ' (ck, ci) <- worst m 0 l u PInf (s_ci s);
    Ok (St l u put m ck ci (s_prio s) (s_uns s))
  else
    do ' (l, put) <- to_end o (s_list s) (s_put s);
    Ok (St l (s_use s) put (Nat.min (s_max s) put) (s_check s) (s_ci s) (s_prio s) (s_uns s)).

(** 240-309: set number [i]. *)
Definition step (root : bool) (start i : nat) (c : cand) (s : st) : outcome st :=
  if Qltb 0 (c_inf c) then
    let s := St (s_list s) (s_use s) (s_put s) (s_max s) (s_check s) (s_ci s) (s_prio s) (S (s_uns s)) in
    do s <- (if Z.ltb (c_prio c) (s_prio s)
             then do ' (l, u, put) <- flush (s_max s) (s_list s) (s_use s) (s_put s);
                  Ok (St l u put (s_max s) MInf 0 (c_prio c) (s_uns s))
             else Ok s);
    if Z.eqb (c_prio c) (s_prio s) then enter (i + start) (value root c) s
    else
      do ' (l, put) <- to_end (i + start) (s_list s) (s_put s);
      Ok (St l (s_use s) put (Nat.min (s_max s) put) (s_check s) (s_ci s) (s_prio s) (s_uns s))
  else Ok s.

Fixpoint loop (root : bool) (start i : nat) (cs : list cand) (s : st) : outcome st :=
  match cs with
  | [] => Ok s
  | c :: cs => do s <- step root start i c s; loop root start (S i) cs s
  end.

(** 312-320. *)
Fixpoint compact (n i k : nat) (l : list (option nat)) (u : list Q)
  : outcome (list (option nat) * list Q * nat) :=
  match n with
  | O => Ok (l, u, k)
  | S n =>
      do e <- rd i l;
      match e with
      | None => compact n (S i) k l u
      | Some o =>
          do l <- lset k (Some o) l;
          do v <- rd i u;
          do u <- lset k (- v) u;
          compact n (S i) (S k) l u
      end
  end.

(** 324-327. *)
Fixpoint moves (n i put : nat) (l : list (option nat)) : outcome (list (option nat) * nat) :=
  match n with
  | O => Ok (l, i)
  | S n => do e <- rd put l; do l <- lset i e l; moves n (S i) (S put) l
  end.

(** list_, useful_, numberOnList_, numberUnsatisfied_. *)
Record result := Res { r_list : list (option nat); r_use : list Q; r_on : nat; r_uns : nat }.

Section Setup.
  Variable srt : list (Q * nat) -> list (Q * nat).

  (** 194-343; [strong]: numberStrong_ is not zero. *)
  Definition setup (root strong : bool) (start : nat) (cs : list cand) : outcome result :=
    let n := length cs in
    do s <- loop root start 0 cs
              (St (repeat None n) (repeat 0 n) n n MInf 0 2147483647%Z 0);
    let m := Nat.min (s_max s) (s_put s) in
    do ' (l, u, k) <- compact m 0 0 (s_list s) (s_use s);
    match k with
    | O => Ok (Res l u 0 (s_uns s))
    | S _ =>
        let p := srt (combine (firstn k u)
                   (map (fun e => match e with Some o => o | None => O end) (firstn k l))) in
        do ' (l, i) <- moves (n - s_put s) k (s_put s) (map (fun q => Some (snd q)) p ++ skipn k l);
        do _ <- chk (Nat.eqb i (s_uns s));
        Ok (Res l (map fst p ++ skipn k u) (if strong then k else 0) (s_uns s))
    end.
End Setup.

(** ** Usefulness, 164-191 *)
Definition smin (a b : Q) : Q := if Qltb b a then b else a.     (* std::min *)
Definition smax (a b : Q) : Q := if Qltb a b then b else a.     (* std::max *)

(** A member: bounds, solution, unit change, bound found at the root. *)
Record memb := Memb { m_lo : Q; m_up : Q; m_x : Q; m_unit : Q; m_bnd : Q }.

Fixpoint useful (geo : bool) (tol cut obj : Q) (ms : list memb) (r : Q) : outcome Q :=
  match ms with
  | [] => Ok r
  | m :: ms =>
      if Qltb (Qabs (m_lo m - m_up m)) tol then useful geo tol cut obj ms r
      else
        do _ <- chk (Qltb (m_lo m) (m_up m));
        let score := smin (cut - obj) (smax ((m_up m - m_x m) * m_unit m) (m_bnd m - obj)) in
        useful geo tol cut obj ms (if geo then r * score else r + score)
  end.

Definition usefulness (geo : bool) (tol cutoff mult obj : Q) (ms : list memb) : outcome Q :=
  useful geo tol (cutoff * mult) obj ms (if geo then 1 else 0).

(** ** Learning *)

(** -DBL_MAX. *)
Definition unset : Q := inject_Z (- 10 ^ 308).

(** unit_changes_ and num_ps_costs_ of one set. *)
Definition pcs := list (Q * nat).

(** setupList 211-217, the first time at the root (num_ps_costs_ is not cleared later). *)
Definition pc_init (n : nat) : pcs := repeat (0, O) n.

(** One strong branching on the set: at the root or not; its unit changes, member by member;
    whether enough of its branches remain (564). *)
Record obs := Obs { o_root : bool; o_unit : list Q; o_enough : bool }.

(** 555-576. *)
Definition learn (geo : bool) (p : pcs) (o : obs) : pcs :=
  if o_root o then map (fun u => (u, 1%nat)) (o_unit o)
  else if o_enough o then
    map (fun q : (Q * nat) * Q =>
           let '((a, n), u) := q in
           if Qltb 0 u then (if geo then a * u else a + u, S n) else (a, n))
        (combine p (o_unit o))
  else p.

Section Means.
  Variable root : Q -> nat -> Q.
  (** 151-157; what compute_usefulness is given as unit changes. *)
  Definition mean (geo : bool) (q : Q * nat) : Q :=
    match snd q with
    | O => fst q
    | S _ => if geo then root (fst q) (snd q) else fst q / inject_Z (Z.of_nat (snd q))
    end.
End Means.
