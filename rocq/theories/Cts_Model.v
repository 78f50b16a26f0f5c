(** Collections of linear and quadratic cuts: src/Algorithms/QuadCuts/BonQuadCut.{hpp,cpp} (class Cuts) over sequences of calls.

    [A]: the contents of a quadratic cut (row, bounds, constant, matrix, storage type), which QuadCut's copy constructor and
    assignment carry over field by field (BonQuadCut.cpp 20-37).  [R]: a linear cut; the linear part is OsiCuts (outside the
    repository) and is a list of values.  A client keeps pointers to cuts it created with new in variables. *)
From Verif Require Import Base Arr.

Fixpoint put {B} (i : nat) (v : B) (l : list B) : list B :=
  match l, i with [], _ => [] | _ :: t, O => v :: t | x :: t, S i => x :: put i v t end.

Section Cuts.
Variables A R : Type.

(** Pointers to quadratic cuts; [None] is the null pointer. *)
Definition ptr := option nat.
(** The base OsiCuts and quadCuts_, BonQuadCut.hpp 106-160. *)
Record coll := mkColl { c_rows : list R; c_quads : list ptr }.
(** The cuts made by new ([None]: deleted), the collections ([None]: destroyed) and the pointers of the client. *)
Record world := mkW { heap : list (option A); colls : list (option coll); vars : list ptr }.
Definition start : world := mkW [] [] [].

Definition deref (H : list (option A)) (p : ptr) : outcome A :=
  match p with None => NullDeref | Some n => match nth n H None with Some v => Ok v | None => Dangling end end.
Definition alloc (v : A) (H : list (option A)) : list (option A) * ptr := (H ++ [Some v], Some (length H)).
(** delete; of the null pointer it does nothing. *)
Definition free (p : ptr) (H : list (option A)) : outcome (list (option A)) :=
  match p with None => Ok H | Some n => match nth n H None with Some _ => Ok (put n None H) | None => Dangling end end.
(** The loops of the copy constructor and the assignment, BonQuadCut.cpp 112-114 and 127-129. *)
Fixpoint dup (ps : list ptr) (H : list (option A)) : outcome (list (option A) * list ptr) :=
  match ps with
  | [] => Ok (H, [])
  | p :: q => do v <- deref H p; let '(H1, n) := alloc v H in do ' (H2, ns) <- dup q H1; Ok (H2, n :: ns)
  end.
(** The loops of the assignment and the destructor, 122-125 and 135-138. *)
Fixpoint free_all (ps : list ptr) (H : list (option A)) : outcome (list (option A)) :=
  match ps with [] => Ok H | p :: q => do H1 <- free p H; free_all q H1 end.

(** A collection given to a call; one that was never made or is destroyed must not be used. *)
Definition coll_at (i : nat) (w : world) : outcome coll :=
  match nth i (colls w) None with Some c => Ok c | None => Dangling end.
Definition set_coll (i : nat) (c : option coll) (w : world) : world := mkW (heap w) (put i c (colls w)) (vars w).
Definition with_heap (H : list (option A)) (w : world) : world := mkW H (colls w) (vars w).
Definition quad_at (k : nat) (c : coll) : outcome ptr := match nth_error (c_quads c) k with Some p => Ok p | None => OutOfBounds end.
Definition var_at (x : nat) (w : world) : outcome ptr := match nth_error (vars w) x with Some p => Ok p | None => OutOfBounds end.

(** The loop of insert(const Cuts &), BonQuadCut.hpp 175-177.  The length of the collection inserted is asked again in every
    round, and is that of the growing collection if both are one. *)
Fixpoint ins_loop (fuel k i j : nat) (w : world) : outcome world :=
  match fuel with
  | O => Diverges
  | S f =>
      do cj <- coll_at j w;
      if Nat.ltb k (length (c_quads cj)) then
        do p <- quad_at k cj; do v <- deref (heap w) p; do ci <- coll_at i w;
        let '(H, n) := alloc v (heap w) in
        ins_loop f (S k) i j (set_coll i (Some (mkColl (c_rows ci) (c_quads ci ++ [n]))) (with_heap H w))
      else Ok w
  end.

Inductive op :=
| New                              (* Cuts() *)
| CopyOf (i : nat)                 (* Cuts(const Cuts &) *)
| Assign (i j : nat)               (* i = j *)
| Destroy (i : nat)                (* ~Cuts() *)
| AddRow (i : nat) (r : R)         (* OsiCuts::insert(const OsiRowCut &) *)
| InsVal (i : nat) (v : A)         (* insert(const QuadCut &), a cut of the client's *)
| InsRef (i j k : nat)             (* i.insert(j.quadCut(k)) *)
| NewCut (v : A)                   (* QuadCut * x = new QuadCut(v), x a new variable *)
| DelCut (x : nat)                 (* delete x; x = NULL *)
| InsPtr (i x : nat)               (* i.insert(x), takes control of the pointer *)
| InsAll (i j : nat)               (* i.insert(j), both collections *)
| Erase (i k : nat)                (* i.eraseQuadCut(k) *)
| Write (i k : nat) (v : A).       (* i.quadCut(k) = v *)

Definition step (fuel : nat) (w : world) (o : op) : outcome world :=
  match o with
  | New => Ok (mkW (heap w) (colls w ++ [Some (mkColl [] [])]) (vars w))                                (* BonQuadCut.cpp 103-106 *)
  | CopyOf i => do c <- coll_at i w;                                                                      (* 108-115 *)
      do ' (H, ns) <- dup (c_quads c) (heap w); Ok (mkW H (colls w ++ [Some (mkColl (c_rows c) ns)]) (vars w))
  | Assign i j => do ci <- coll_at i w; do cj <- coll_at j w;                                             (* 117-132 *)
      if Nat.eqb i j then Ok w
      else do H1 <- free_all (c_quads ci) (heap w); do ' (H2, ns) <- dup (c_quads cj) H1;
           Ok (set_coll i (Some (mkColl (c_rows cj) ns)) (with_heap H2 w))
  | Destroy i => do c <- coll_at i w; do H <- free_all (c_quads c) (heap w); Ok (set_coll i None (with_heap H w))   (* 134-139 *)
  | AddRow i r => do c <- coll_at i w; Ok (set_coll i (Some (mkColl (c_rows c ++ [r]) (c_quads c))) w)
  | InsVal i v => do c <- coll_at i w; let '(H, n) := alloc v (heap w) in                               (* BonQuadCut.hpp 162-165 *)
      Ok (set_coll i (Some (mkColl (c_rows c) (c_quads c ++ [n]))) (with_heap H w))
  | InsRef i j k => do cj <- coll_at j w; do p <- quad_at k cj; do v <- deref (heap w) p; do c <- coll_at i w;
      let '(H, n) := alloc v (heap w) in Ok (set_coll i (Some (mkColl (c_rows c) (c_quads c ++ [n]))) (with_heap H w))
  | NewCut v => let '(H, n) := alloc v (heap w) in Ok (mkW H (colls w) (vars w ++ [n]))
  | DelCut x => do p <- var_at x w; do H <- free p (heap w); Ok (mkW H (colls w) (put x None (vars w)))
  | InsPtr i x => do p <- var_at x w; do c <- coll_at i w;                                              (* 167-171 *)
      Ok (mkW (heap w) (put i (Some (mkColl (c_rows c) (c_quads c ++ [p]))) (colls w)) (put x None (vars w)))
  | InsAll i j => do ci <- coll_at i w; do cj <- coll_at j w;                                             (* 173-179 *)
      ins_loop fuel 0 i j (set_coll i (Some (mkColl (c_rows ci ++ c_rows cj) (c_quads ci))) w)
  | Erase i k => do c <- coll_at i w; do p <- quad_at k c; do H <- free p (heap w);                       (* 211-215 *)
      Ok (set_coll i (Some (mkColl (c_rows c) (firstn k (c_quads c) ++ skipn (S k) (c_quads c)))) (with_heap H w))
  | Write i k v => do c <- coll_at i w; do p <- quad_at k c;                                              (* 200-203 *)
      match p with
      | None => NullDeref
      | Some n => do u <- deref (heap w) p; Ok (with_heap (put n (Some v) (heap w)) w)
      end
  end.
Fixpoint run (fuel : nat) (ops : list op) (w : world) : outcome world :=
  match ops with [] => Ok w | o :: t => do w1 <- step fuel w o; run fuel t w1 end.

(** sizeQuadCuts and sizeCuts, BonQuadCut.hpp 181-189; quadCut(k), 200-209. *)
Definition size_quads (c : coll) : nat := length (c_quads c).
Definition size_cuts (c : coll) : nat := length (c_quads c) + length (c_rows c).
Definition quad (H : list (option A)) (k : nat) (c : coll) : outcome A := do p <- quad_at k c; deref H p.
End Cuts.
Arguments mkColl {R}. Arguments c_rows {R}. Arguments c_quads {R}.
Arguments mkW {A R}. Arguments heap {A R}. Arguments colls {A R}. Arguments vars {A R}. Arguments start {A R}.
Arguments deref {A}. Arguments alloc {A}. Arguments free {A}. Arguments dup {A}. Arguments free_all {A}.
Arguments coll_at {A R}. Arguments set_coll {A R}. Arguments with_heap {A R}. Arguments quad_at {R}. Arguments var_at {A R}.
Arguments ins_loop {A R}. Arguments step {A R}. Arguments run {A R}. Arguments size_quads {R}. Arguments size_cuts {R}. Arguments quad {A R}.
Arguments New {A R}. Arguments CopyOf {A R}. Arguments Assign {A R}. Arguments Destroy {A R}. Arguments AddRow {A R}. Arguments InsVal {A R}.
Arguments InsRef {A R}. Arguments NewCut {A R}. Arguments DelCut {A R}. Arguments InsPtr {A R}. Arguments InsAll {A R}. Arguments Erase {A R}.
Arguments Write {A R}.
