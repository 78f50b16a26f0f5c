(** Models of the three search trees of src/CbcBonmin/BonDiver.{hpp,cpp}.

    A tree stores pointers to Cbc nodes.  A [node] here is what the tree code
    reads from the node when a pointer is pushed: its objective value, its
    guessed objective value, its depth and how many of its branches are left.
    [nid] is the identity of the node.  A parent that is put back after one
    branch is a second push, with a smaller [nleft]. *)
From Verif Require Import Base.

Record node := mkNode {
  nid : nat;
  nobj : Q;      (* CbcNode::objectiveValue() *)
  nguess : Q;    (* CbcNode::guessedObjectiveValue() *)
  ndepth : Z;    (* CbcNode::depth() *)
  nleft : nat;   (* branchingObject()->numberBranchesLeft() *)
  nbr : nat      (* branchingObject()->numberBranches() *)
}.

(** BonDiver.cpp:84 and 262: the node has not been branched on yet. *)
Definition fresh (x : node) : bool := Nat.eqb (nleft x) (nbr x).

(** What a caller sees of one call.  [EvBest c r d]: bestNode(c) returned [r];
    [d] are the nodes the heap scan discarded.  [EvClean c d]: cleanTree(c)
    deleted the nodes [d]. *)
Inductive event :=
| EvPush (x : node)
| EvPop (x : node)
| EvTop (x : node)
| EvBest (cutoff : Q) (r : option node) (d : list node)
| EvClean (cutoff : Q) (d : list node)
| EvMode.

Inductive mode := Enlarge | FindSolutions | CloseBound | LimitTreeSize.

Inductive op :=
| Push (x : node)
| Pop
| Top
| Best (cutoff : Q)
| Clean (cutoff : Q)
| SetMode (m : mode).   (* only meaningful for the depth-first tree *)

(** Run a list of operations, recording the events. *)
Fixpoint run {S} (step : S -> op -> outcome (S * event)) (s : S) (ops : list op)
  : outcome (S * list event) :=
  match ops with
  | [] => Ok (s, [])
  | o :: os =>
      do ' (s1, e) <- step s o;
      do ' (s2, es) <- run step s1 os;
      Ok (s2, e :: es)
  end.

(** ** CbcTree: the Cbc heap (external code).

    The heap is the list of its nodes.  Which node is on top is decided by the
    user chosen comparison; here it is an arbitrary function [sel] of the
    contents.  Assumed of Cbc (trusted): push adds the node; top/pop act on the
    top node and need a non-empty heap; bestNode repeatedly removes the top
    node, discarding those with objective >= cutoff, and returns the first one
    below the cutoff, or NULL when the heap runs out; cleanTree deletes exactly
    the nodes with objective >= cutoff. *)
Section Heap.
  Variable sel : list node -> nat.

  Definition heap_take (h : list node) : option (node * list node) :=
    take_nth (Nat.modulo (sel h) (length h)) h.

  Fixpoint heap_best_fuel (fuel : nat) (cutoff : Q) (h : list node)
    : option node * list node * list node :=
    match fuel with
    | O => (None, h, [])
    | S f =>
        match heap_take h with
        | None => (None, h, [])
        | Some (x, h') =>
            if Qle_bool cutoff (nobj x)
            then let '(r, h2, d) := heap_best_fuel f cutoff h' in (r, h2, x :: d)
            else (Some x, h', [])
        end
    end.

  (** (returned node, heap afterwards, discarded nodes); the fuel is the size
      of the heap and each round removes one node. *)
  Definition heap_best (cutoff : Q) (h : list node) : option node * list node * list node :=
    heap_best_fuel (length h) cutoff h.

  Definition heap_clean (cutoff : Q) (h : list node) : list node * list node :=
    (filter (fun x => negb (Qle_bool cutoff (nobj x))) h,
     filter (fun x => Qle_bool cutoff (nobj x)) h).

  Definition big : Q := inject_Z (10 ^ 100)%Z.    (* 1e100 *)

  (** BonDiver.cpp:158-164, 428-434: the minimum loop over nodes_ *)
  Fixpoint min_obj (acc : Q) (h : list node) : Q :=
    match h with
    | [] => acc
    | x :: xs => min_obj (if Qltb (nobj x) acc then nobj x else acc) xs
    end.

  (** ** CbcDiver, BonDiver.cpp:24-188, BonDiver.hpp:25-101 *)
  Record diver := mkDiver {
    d_heap : list node;
    d_clean : bool;             (* treeCleaning_ *)
    d_next : option node;       (* nextOnBranch_ *)
    d_stop : bool               (* stop_diving_on_cutoff_ *)
  }.

  (** BonDiver.cpp:24-28 (constructor) and 183-188 (initialize) *)
  Definition diver_init (stop : bool) : diver := mkDiver [] false None stop.

  (** BonDiver.cpp:63-73 *)
  Definition diver_top (t : diver) : outcome node :=
    match d_next t, d_clean t with
    | Some x, false => Ok x
    | _, _ => match heap_take (d_heap t) with
              | Some (x, _) => Ok x
              | None => OutOfBounds
              end
    end.

  (** BonDiver.cpp:76-90 *)
  Definition diver_push (t : diver) (x : node) : outcome diver :=
    if d_clean t then Ok (mkDiver (x :: d_heap t) (d_clean t) (d_next t) (d_stop t))
    else if fresh x then
      match d_next t with
      | Some _ => AssertFail
      | None => Ok (mkDiver (d_heap t) (d_clean t) (Some x) (d_stop t))
      end
    else Ok (mkDiver (x :: d_heap t) (d_clean t) (d_next t) (d_stop t)).

  (** BonDiver.cpp:93-104; the removed node is returned for bookkeeping. *)
  Definition diver_pop (t : diver) : outcome (diver * node) :=
    match d_next t, d_clean t with
    | Some x, false => Ok (mkDiver (d_heap t) (d_clean t) None (d_stop t), x)
    | _, _ => match heap_take (d_heap t) with
              | Some (x, h) => Ok (mkDiver h (d_clean t) (d_next t) (d_stop t), x)
              | None => OutOfBounds
              end
    end.

  Definition diver_heap_best (t : diver) (cutoff : Q) : diver * option node * list node :=
    let '(r, h, d) := heap_best cutoff (d_heap t) in
    (mkDiver h (d_clean t) (d_next t) (d_stop t), r, d).

  (** BonDiver.cpp:106-130 *)
  Definition diver_best (t : diver) (cutoff : Q) : diver * option node * list node :=
    match d_next t, d_clean t with
    | Some x, false =>
        if Qltb (nobj x) cutoff then
          if d_stop t && Qle_bool cutoff (nguess x) then
            diver_heap_best (mkDiver (x :: d_heap t) (d_clean t) None (d_stop t)) cutoff
          else (mkDiver (d_heap t) (d_clean t) None (d_stop t), Some x, [])
        else diver_heap_best (mkDiver (x :: d_heap t) (d_clean t) None (d_stop t)) cutoff
    | _, _ => diver_heap_best t cutoff
    end.

  (** BonDiver.cpp:142-151 *)
  Definition diver_cleanTree (t : diver) (cutoff : Q) : diver * list node :=
    let h := match d_next t with Some x => x :: d_heap t | None => d_heap t end in
    let '(h', d) := heap_clean cutoff h in
    (mkDiver h' false None (d_stop t), d).

  (** BonDiver.cpp:134-137, BonDiver.hpp:62-65 *)
  Definition diver_empty (t : diver) : bool :=
    match d_heap t, d_next t with [], None => true | _, _ => false end.
  Definition diver_size (t : diver) : nat :=
    length (d_heap t) + match d_next t with Some _ => 1 | None => 0 end.

  (** BonDiver.cpp:154-166 *)
  Definition diver_bound (t : diver) : Q :=
    min_obj (match d_next t with Some x => nobj x | None => big end) (d_heap t).

  Definition diver_step (t : diver) (o : op) : outcome (diver * event) :=
    match o with
    | Push x => do t' <- diver_push t x; Ok (t', EvPush x)
    | Pop => do ' (t', x) <- diver_pop t; Ok (t', EvPop x)
    | Top => do x <- diver_top t; Ok (t, EvTop x)
    | Best c => let '(t', r, d) := diver_best t c in Ok (t', EvBest c r d)
    | Clean c => let '(t', d) := diver_cleanTree t c in Ok (t', EvClean c d)
    | SetMode _ => Ok (t, EvMode)
    end.

  (** ** CbcProbedDiver, BonDiver.cpp:196-444, BonDiver.hpp:108-182 *)
  Variable cmp : node -> node -> bool.   (* comparison_.compareNodes(x,y) *)

  Record probed := mkProbed {
    p_heap : list node;
    p_clean : bool;
    p_next : option node;       (* nextOnBranch_ *)
    p_cand : option node;       (* candidateChild_ *)
    p_stop : bool
  }.

  (** BonDiver.cpp:196-201, 439-444 *)
  Definition probed_init (stop : bool) : probed := mkProbed [] false None None stop.

  (** BonDiver.cpp:238-251 *)
  Definition probed_top (t : probed) : outcome node :=
    match p_clean t, p_next t, p_cand t with
    | false, Some x, _ => Ok x
    | false, None, Some x => Ok x
    | _, _, _ => match heap_take (p_heap t) with
                 | Some (x, _) => Ok x
                 | None => OutOfBounds
                 end
    end.

  (** BonDiver.cpp:254-315.  In the two-kid case (lines 281-298) the former
      nextOnBranch_ is overwritten without being saved. *)
  Definition probed_push (t : probed) (x : node) : outcome probed :=
    if p_clean t then Ok (mkProbed (x :: p_heap t) true (p_next t) (p_cand t) (p_stop t))
    else if fresh x then
      match p_next t, p_cand t with
      | None, None => Ok (mkProbed (p_heap t) false (Some x) None (p_stop t))
      | _, None => Ok (mkProbed (p_heap t) false (p_next t) (Some x) (p_stop t))
      | _, Some c =>
          if cmp x c
          then Ok (mkProbed (x :: p_heap t) false (Some c) None (p_stop t))
          else Ok (mkProbed (c :: p_heap t) false (Some x) None (p_stop t))
      end
    else
      match p_next t with
      | Some y =>
          match p_cand t with
          | Some _ => AssertFail
          | None => Ok (mkProbed (p_heap t) false (Some x) (Some y) (p_stop t))
          end
      | None => Ok (mkProbed (p_heap t) false (Some x) (p_cand t) (p_stop t))
      end.

  (** BonDiver.cpp:317-331 *)
  Definition probed_pop (t : probed) : outcome (probed * node) :=
    match p_clean t, p_next t, p_cand t with
    | false, Some x, _ => Ok (mkProbed (p_heap t) (p_clean t) None (p_cand t) (p_stop t), x)
    | false, None, Some x => Ok (mkProbed (p_heap t) (p_clean t) None None (p_stop t), x)
    | _, _, _ => match heap_take (p_heap t) with
                 | Some (x, h) => Ok (mkProbed h (p_clean t) (p_next t) (p_cand t) (p_stop t), x)
                 | None => OutOfBounds
                 end
    end.

  Definition probed_heap_best (t : probed) (cutoff : Q) : probed * option node * list node :=
    let '(r, h, d) := heap_best cutoff (p_heap t) in
    (mkProbed h (p_clean t) (p_next t) (p_cand t) (p_stop t), r, d).

  (** BonDiver.cpp:333-395.  Line 348 pushes candidateChild_ on the heap
      without testing it for NULL; CbcTree::push dereferences its argument. *)
  Definition probed_best (t : probed) (cutoff : Q)
    : outcome (probed * option node * list node) :=
    match p_clean t, p_next t, p_cand t with
    | false, Some x, c =>
        if Qltb (nobj x) cutoff then
          if p_stop t && Qle_bool cutoff (nguess x) then
            match c with
            | None => NullDeref
            | Some y =>
                Ok (probed_heap_best
                      (mkProbed (y :: x :: p_heap t) false None None (p_stop t)) cutoff)
            end
          else Ok (mkProbed (p_heap t) false None c (p_stop t), Some x, [])
        else Ok (probed_heap_best (mkProbed (x :: p_heap t) false None c (p_stop t)) cutoff)
    | false, None, Some y =>
        if Qltb (nobj y) cutoff then
          if p_stop t && Qle_bool cutoff (nguess y) then
            Ok (probed_heap_best (mkProbed (y :: p_heap t) false None None (p_stop t)) cutoff)
          else Ok (mkProbed (p_heap t) false None None (p_stop t), Some y, [])
        else Ok (probed_heap_best t cutoff)
    | _, _, _ => Ok (probed_heap_best t cutoff)
    end.

  (** BonDiver.cpp:408-419 *)
  Definition probed_cleanTree (t : probed) (cutoff : Q) : probed * list node :=
    let h1 := match p_next t with Some x => x :: p_heap t | None => p_heap t end in
    let h2 := match p_cand t with Some x => x :: h1 | None => h1 end in
    let '(h', d) := heap_clean cutoff h2 in
    (mkProbed h' false None None (p_stop t), d).

  (** BonDiver.cpp:399-402, BonDiver.hpp:144-147 *)
  Definition probed_empty (t : probed) : bool :=
    match p_heap t, p_next t, p_cand t with [], None, None => true | _, _, _ => false end.
  Definition probed_size (t : probed) : nat :=
    length (p_heap t) + match p_next t with Some _ => 1 | None => 0 end
                      + match p_cand t with Some _ => 1 | None => 0 end.

  (** BonDiver.cpp:423-436 *)
  Definition probed_bound (t : probed) : Q :=
    let b := match p_next t with Some x => nobj x | None => big end in
    let b := match p_cand t with
             | Some y => if Qltb (nobj y) b then nobj y else b
             | None => b
             end in
    min_obj b (p_heap t).

  Definition probed_step (t : probed) (o : op) : outcome (probed * event) :=
    match o with
    | Push x => do t' <- probed_push t x; Ok (t', EvPush x)
    | Pop => do ' (t', x) <- probed_pop t; Ok (t', EvPop x)
    | Top => do x <- probed_top t; Ok (t, EvTop x)
    | Best c => do ' (t', r, d) <- probed_best t c; Ok (t', EvBest c r d)
    | Clean c => let '(t', d) := probed_cleanTree t c in Ok (t', EvClean c d)
    | SetMode _ => Ok (t, EvMode)
    end.

  (** ** CbcDfsDiver, BonDiver.cpp:450-786, BonDiver.hpp:199-306 *)
  Record dfs := mkDfs {
    f_heap : list node;
    f_clean : bool;
    f_dive : list node;         (* dive_, front first *)
    f_size : Z;                 (* diveListSize_ *)
    f_board : Z;                (* divingBoardDepth_ *)
    f_nback : Z;                (* nBacktracks_ *)
    f_maxbfs : Z;               (* maxDepthBFS_ *)
    f_maxback : Z;              (* maxDiveBacktracks_ *)
    f_maxdepth : Z;             (* maxDiveDepth_ *)
    f_mode : mode
  }.

  (** BonDiver.cpp:450-461 with the two options of 749-754 *)
  Definition dfs_init (maxback maxdepth : Z) : dfs :=
    mkDfs [] false [] 0 (-1) 0 4 maxback maxdepth Enlarge.

  (** enum order Enlarge < FindSolutions < CloseBound < LimitTreeSize (BonDiver.hpp:202-206) *)
  Definition mode_late (m : mode) : bool :=
    match m with CloseBound | LimitTreeSize => true | _ => false end.

  (** BonDiver.cpp:508-523.  The result of CbcTree::top() at line 517 is discarded;
      only its precondition matters. *)
  Definition dfs_top (t : dfs) : outcome node :=
    let heap_top := match heap_take (f_heap t) with
                    | Some (x, _) => Ok x
                    | None => OutOfBounds
                    end in
    if f_clean t then heap_top
    else
      let rest :=
        if Z.eqb (f_size t) 0 then heap_top
        else match f_dive t with x :: _ => Ok x | [] => OutOfBounds end in
      match f_mode t with
      | FindSolutions => rest
      | _ => match f_dive t with
             | [] => do _x <- heap_top; rest
             | _ => AssertFail
             end
      end.

  (** BonDiver.cpp:526-545 *)
  Definition dfs_push (t : dfs) (x : node) : outcome dfs :=
    let heaped := mkDfs (x :: f_heap t) (f_clean t) (f_dive t) (f_size t) (f_board t)
                        (f_nback t) (f_maxbfs t) (f_maxback t) (f_maxdepth t) (f_mode t) in
    if f_clean t then Ok heaped
    else if mode_late (f_mode t) then
      match f_dive t with [] => Ok heaped | _ => AssertFail end
    else Ok (mkDfs (f_heap t) (f_clean t) (x :: f_dive t) (f_size t + 1) (f_board t)
                   (f_nback t) (f_maxbfs t) (f_maxback t) (f_maxdepth t) (f_mode t)).

  (** BonDiver.cpp:548-564 *)
  Definition dfs_pop (t : dfs) : outcome (dfs * node) :=
    let heap_pop :=
      match heap_take (f_heap t) with
      | Some (x, h) =>
          Ok (mkDfs h (f_clean t) (f_dive t) (f_size t) (f_board t)
                    (f_nback t) (f_maxbfs t) (f_maxback t) (f_maxdepth t) (f_mode t), x)
      | None => OutOfBounds
      end in
    if f_clean t then heap_pop
    else match f_dive t with
         | x :: dv =>
             if mode_late (f_mode t) then AssertFail
             else Ok (mkDfs (f_heap t) (f_clean t) dv (f_size t - 1) (f_board t)
                            (f_nback t) (f_maxbfs t) (f_maxback t) (f_maxdepth t) (f_mode t), x)
         | [] => heap_pop
         end.

  (** BonDiver.cpp:675-686: all nodes of the dive go to the heap, front first *)
  Definition dfs_pushDive (t : dfs) : dfs :=
    mkDfs (rev_append (f_dive t) (f_heap t)) (f_clean t) []
          (f_size t - Z.of_nat (length (f_dive t))) (f_board t)
          (f_nback t) (f_maxbfs t) (f_maxback t) (f_maxdepth t) (f_mode t).

  Definition mode_eqb (a b : mode) : bool :=
    match a, b with
    | Enlarge, Enlarge | FindSolutions, FindSolutions
    | CloseBound, CloseBound | LimitTreeSize, LimitTreeSize => true
    | _, _ => false
    end.

  Definition with_mode (t : dfs) (m : mode) : dfs :=
    mkDfs (f_heap t) (f_clean t) (f_dive t) (f_size t) (f_board t)
          (f_nback t) (f_maxbfs t) (f_maxback t) (f_maxdepth t) m.
  Definition with_nback (t : dfs) (k : Z) : dfs :=
    mkDfs (f_heap t) (f_clean t) (f_dive t) (f_size t) (f_board t)
          k (f_maxbfs t) (f_maxback t) (f_maxdepth t) (f_mode t).

  (** BonDiver.cpp:758-786 (re-sorting the heap has no effect on its contents) *)
  Definition dfs_setMode (t : dfs) (m : mode) : dfs :=
    if mode_eqb m (f_mode t) then t
    else let t1 := dfs_pushDive (with_mode t m) in
         with_nback t1 (f_maxback t1 - 1).

  (** CbcTree::bestNode on the heap part *)
  Definition dfs_heap_best (t : dfs) (cutoff : Q) : dfs * option node * list node :=
    let '(r, h, d) := heap_best cutoff (f_heap t) in
    (mkDfs h (f_clean t) (f_dive t) (f_size t) (f_board t)
           (f_nback t) (f_maxbfs t) (f_maxback t) (f_maxdepth t) (f_mode t), r, d).

  (** BonDiver.cpp:606-664, the loop over the dive list.  Result: Some node when
      the loop returns a node, None when it falls through.  Each round removes
      one node of the dive, so the dive length is enough fuel. *)
  Fixpoint dfs_loop (fuel : nat) (t : dfs) (cutoff : Q) : outcome (dfs * option node) :=
    if Z.leb (f_size t) 0 then Ok (t, None)
    else
      match fuel with
      | O => Diverges
      | S fl =>
          match f_dive t with
          | [] => AssertFail                                        (* line 611 *)
          | x :: dv =>
              let t1 := mkDfs (f_heap t) (f_clean t) dv (f_size t - 1) (f_board t)
                              (f_nback t) (f_maxbfs t) (f_maxback t) (f_maxdepth t) (f_mode t) in
              if negb (Z.leb (ndepth x - f_board t1) (f_maxdepth t1)) then AssertFail  (* 616 *)
              else
                let heaped := with_nback
                      (mkDfs (x :: f_heap t1) (f_clean t1) (f_dive t1) (f_size t1) (f_board t1)
                         (f_nback t1) (f_maxbfs t1) (f_maxback t1) (f_maxdepth t1) (f_mode t1))
                      (f_nback t1 + 1) in
                let '(t2, nd) :=
                  if Qltb cutoff (nobj x) then (heaped, None)                 (* 617-626 *)
                  else if negb (Z.leb (ndepth x - f_board t1) (f_maxdepth t1))
                       then (heaped, None)                                    (* 637-645 *)
                  else if Nat.ltb (nleft x) (nbr x)
                       then (with_nback t1 (f_nback t1 + 1), Some x)          (* 646-652 *)
                  else (t1, Some x) in
                let '(t3, nd3) :=
                  if Z.leb (f_maxback t2) (f_nback t2) then                   (* 653-661 *)
                    let t' := dfs_pushDive t2 in
                    match nd with
                    | Some y =>
                        (mkDfs (y :: f_heap t') (f_clean t') (f_dive t') (f_size t') (f_board t')
                           (f_nback t') (f_maxbfs t') (f_maxback t') (f_maxdepth t') (f_mode t'),
                         None)
                    | None => (t', None)
                    end
                  else (t2, nd) in
                match nd3 with
                | Some y => Ok (t3, Some y)
                | None => dfs_loop fl t3 cutoff
                end
          end
      end.

  (** BonDiver.cpp:600-672, after the Enlarge part *)
  Definition dfs_best_tail (t : dfs) (cutoff : Q)
    : outcome (dfs * option node * list node) :=
    do ' (t1, d1) <-
      match f_mode t with
      | FindSolutions => Ok (t, [])
      | _ =>
          match f_dive t with
          | [] => let '(t', _, d) := dfs_heap_best t cutoff in Ok (t', d)   (* 602: node lost *)
          | _ => AssertFail
          end
      end;
    if negb (Z.ltb (f_nback t1) (f_maxback t1)) then AssertFail               (* 604 *)
    else
      do ' (t2, r) <- dfs_loop (S (length (f_dive t1))) t1 cutoff;
      match r with
      | Some x => Ok (t2, Some x, d1)
      | None =>
          match f_dive t2, Z.eqb (f_size t2) 0 with
          | [], true =>
              let '(t3, r3, d3) := dfs_heap_best t2 cutoff in
              match r3 with
              | None => NullDeref                                             (* 669 *)
              | Some x =>
                  Ok (mkDfs (f_heap t3) (f_clean t3) (f_dive t3) (f_size t3) (ndepth x)
                            0 (f_maxbfs t3) (f_maxback t3) (f_maxdepth t3) (f_mode t3),
                      Some x, d1 ++ d3)
              end
          | _, _ => AssertFail                                                (* 665-667 *)
          end
      end.

  (** BonDiver.cpp:567-672 *)
  Definition dfs_best (t : dfs) (cutoff : Q) : outcome (dfs * option node * list node) :=
    if f_clean t then Ok (dfs_heap_best t cutoff)
    else
      match f_mode t with
      | Enlarge =>
          if Z.eqb (f_size t) 0 then dfs_best_tail (with_mode t FindSolutions) cutoff
          else
            match rev (f_dive t) with
            | [] => OutOfBounds                                   (* back() of an empty list *)
            | x :: rdv =>
                if Z.ltb (f_maxbfs t) (ndepth x)
                then dfs_best_tail (dfs_setMode t FindSolutions) cutoff
                else Ok (mkDfs (f_heap t) (f_clean t) (rev rdv) (f_size t - 1) (f_board t)
                               (f_nback t) (f_maxbfs t) (f_maxback t) (f_maxdepth t) (f_mode t),
                         Some x, [])
            end
      | _ => dfs_best_tail t cutoff
      end.

  (** BonDiver.cpp:696-707 *)
  Definition dfs_cleanTree (t : dfs) (cutoff : Q) : dfs * list node :=
    let t1 := dfs_pushDive t in
    let '(h', d) := heap_clean cutoff (f_heap t1) in
    (mkDfs h' false (f_dive t1) (f_size t1) (f_board t1)
           (f_nback t1) (f_maxbfs t1) (f_maxback t1) (f_maxdepth t1) (f_mode t1), d).

  (** BonDiver.cpp:688-691, BonDiver.hpp:240-243 *)
  Definition dfs_empty (t : dfs) : bool :=
    match f_heap t, f_dive t with [], [] => true | _, _ => false end.
  Definition dfs_treesize (t : dfs) : Z := Z.of_nat (length (f_heap t)) + f_size t.

  (** BonDiver.cpp:710-725; CbcTree::getBestPossibleObjective (external) is the
      minimum over the heap starting from 1e100, COIN_DBL_MAX is a parameter. *)
  Definition dfs_bound (dblmax : Q) (t : dfs) : Q :=
    min_obj (match f_heap t with [] => dblmax | _ => min_obj big (f_heap t) end) (f_dive t).

  Definition dfs_step (t : dfs) (o : op) : outcome (dfs * event) :=
    match o with
    | Push x => do t' <- dfs_push t x; Ok (t', EvPush x)
    | Pop => do ' (t', x) <- dfs_pop t; Ok (t', EvPop x)
    | Top => do x <- dfs_top t; Ok (t, EvTop x)
    | Best c => do ' (t', r, d) <- dfs_best t c; Ok (t', EvBest c r d)
    | Clean c => let '(t', d) := dfs_cleanTree t c in Ok (t', EvClean c d)
    | SetMode m => Ok (dfs_setMode t m, EvMode)
    end.
End Heap.
