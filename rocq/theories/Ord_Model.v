(** The order in which the depth-first search tree hands out nodes: CbcDfsDiver together with the node
    comparison DiverCompare, src/CbcBonmin/BonDiver.{hpp,cpp}, as set up by Bab::branchAndBound,
    src/CbcBonmin/BonCbc.cpp 320-374.

    Tree_Model.v takes the top of Cbc's heap to be any node; here the heap is an array kept in order by the
    comparison in force, which depends on the mode of the tree and is not defined in the first mode.
    Simplified: diveListSize_ is the length of dive_ (Tree_Proofs.v shows that it is); the flag
    treeCleaning_ is only set inside cleanTree. *)
From Verif Require Import Base Tree_Model.
Open Scope Z_scope.

Definition cmp := node -> node -> bool.    (* test(x,y): y is to be preferred to x *)

(** CbcDfsDiver, BonDiver.hpp 269-300. *)
Record srch := mkS {
  s_heap : list node;       (* nodes_ of CbcTree *)
  s_dive : list node;       (* dive_, front first *)
  s_board : Z;              (* divingBoardDepth_ *)
  s_nback : Z;              (* nBacktracks_ *)
  s_bfs : Z;                (* maxDepthBFS_ *)
  s_back : Z;               (* maxDiveBacktracks_ *)
  s_depth : Z;              (* maxDiveDepth_ *)
  s_mode : mode
}.
(** BonDiver.cpp 450-461, and the options read by initialize, 748-753. *)
Definition srch_init (maxback maxdepth : Z) : srch := mkS [] [] (-1) 0 4 maxback maxdepth Enlarge.
(** Copy constructor, 464-475 (clone, 502-505), and operator=, 477-494: maxDiveDepth_ is assigned to itself. *)
Definition copy_tree (r : srch) : srch :=
  mkS (s_heap r) (s_dive r) (s_board r) (s_nback r) (s_bfs r) (s_back r) (s_depth r) (s_mode r).
Definition assign_tree (l r : srch) : srch :=
  mkS (s_heap r) (s_dive r) (s_board r) (s_nback r) (s_bfs r) (s_back r) (s_depth l) (s_mode r).

Definition with_heap (s : srch) (h : list node) : srch :=
  mkS h (s_dive s) (s_board s) (s_nback s) (s_bfs s) (s_back s) (s_depth s) (s_mode s).
Definition with_dive (s : srch) (d : list node) : srch :=
  mkS (s_heap s) d (s_board s) (s_nback s) (s_bfs s) (s_back s) (s_depth s) (s_mode s).
Definition with_nb (s : srch) (k : Z) : srch :=
  mkS (s_heap s) (s_dive s) (s_board s) k (s_bfs s) (s_back s) (s_depth s) (s_mode s).
Definition with_md (s : srch) (m : mode) : srch :=
  mkS (s_heap s) (s_dive s) (s_board s) (s_nback s) (s_bfs s) (s_back s) (s_depth s) m.

(** Calls made by Cbc: a node is pushed; the next node is asked for; nodes at or above a cutoff are deleted;
    a solution has been found ([n] so far; the new cutoff), after which Cbc calls cleanTree, newSolution and
    setComparison; a multiple of 1000 nodes has been reached. *)
Inductive call := CPush (x : node) | CBest (cutoff : Q) | CClean (cutoff : Q) | CSol (n : Z) (cutoff : Q) | CNodes (k : Z).
(** What is seen of a call: the node handed out and the nodes thrown away. *)
Record seen := mkSeen { e_ret : option node; e_drop : list node }.

Section Order.
  (** The comparisons used in a dive, to close the bound, and to limit the tree. *)
  Variables cdive cbound cdepth : cmp.
  (** std::push_heap after push_back, std::pop_heap with pop_back, std::make_heap (C++ library). *)
  Variable hpush : cmp -> list node -> node -> list node.
  Variable hpop : cmp -> list node -> list node.
  Variable hmake : cmp -> list node -> list node.
  (** DfsDiveDynamic (the comparison is a DiverCompare) or DfsDiveFromBest (the comparison is the user's), BonCbc.cpp 357-374. *)
  Variable dyn : bool.
  (** The tree whose mode the comparison reads (diver_): this one ([None]) or another one, which is in the given mode.
      The latter is what a copy of the tree and of the comparison have. *)
  Variable other : option mode.
  Definition view (s : srch) : mode := match other with None => s_mode s | Some m => m end.

  (** DiverCompare::test, BonDiver.cpp 812-832. *)
  Definition test (m : mode) : outcome cmp :=
    if dyn then
      match m with
      | FindSolutions => Ok cdive
      | CloseBound => Ok cbound
      | LimitTreeSize => Ok cdepth
      | Enlarge => Thrown
      end
    else Ok cdive.

  (** CbcTree::push: nothing is compared in an empty heap. *)
  Definition heap_push (s : srch) (x : node) : outcome srch :=
    match s_heap s with
    | [] => Ok (with_heap s [x])
    | h => do c <- test (view s); Ok (with_heap s (hpush c h x))
    end.
  Definition heap_pop (s : srch) : outcome srch :=
    match s_heap s with
    | [] => OutOfBounds
    | [_] => Ok (with_heap s [])
    | h => do c <- test (view s); Ok (with_heap s (hpop c h))
    end.
  (** CbcTree::setComparison. *)
  Definition setComparison (s : srch) : outcome srch :=
    match s_heap s with
    | [] | [_] => Ok s
    | h => do c <- test (view s); Ok (with_heap s (hmake c h))
    end.
  (** CbcTree::bestNode: nodes at or above the cutoff are discarded. *)
  Fixpoint heap_best (fuel : nat) (cutoff : Q) (s : srch) : outcome (srch * seen) :=
    match fuel with
    | O => Ok (s, mkSeen None [])
    | S f =>
        match s_heap s with
        | [] => Ok (s, mkSeen None [])
        | x :: _ =>
            do s' <- heap_pop s;
            if Qle_bool cutoff (nobj x)
            then do ' (s2, e) <- heap_best f cutoff s'; Ok (s2, mkSeen (e_ret e) (x :: e_drop e))
            else Ok (s', mkSeen (Some x) [])
        end
    end.
  Definition tree_best (cutoff : Q) (s : srch) : outcome (srch * seen) := heap_best (length (s_heap s)) cutoff s.
  Fixpoint push_all (l : list node) (s : srch) : outcome srch :=
    match l with [] => Ok s | x :: t => do s' <- heap_push s x; push_all t s' end.
  (** CbcTree::cleanTree: everything is popped, what stays is pushed again. *)
  Definition tree_clean (cutoff : Q) (s : srch) : outcome (srch * list node) :=
    let keep := filter (fun x => negb (Qle_bool cutoff (nobj x))) (s_heap s) in
    let drop := filter (fun x => Qle_bool cutoff (nobj x)) (s_heap s) in
    match s_heap s with
    | [] | [_] => Ok (with_heap s keep, drop)
    | _ => do c <- test (view s); Ok (with_heap s (fold_left (hpush c) keep []), drop)
    end.

  (** BonDiver.cpp 675-686. *)
  Definition pushDive (s : srch) : outcome srch := push_all (s_dive s) (with_dive s []).
  (** 758-789. *)
  Definition setMode (s : srch) (m : mode) : outcome srch :=
    if mode_eqb m (s_mode s) then Ok s
    else do s1 <- pushDive (with_md s m);
         setComparison (with_nb s1 (s_back s1 - 1)).
  (** push, 526-545. *)
  Definition push (s : srch) (x : node) : outcome srch :=
    match s_mode s with
    | CloseBound | LimitTreeSize =>
        do s' <- heap_push s x; match s_dive s with [] => Ok s' | _ => AssertFail end
    | _ => Ok (with_dive s (x :: s_dive s))
    end.
  (** 606-664: the nodes of the dive. *)
  Fixpoint loop (fuel : nat) (cutoff : Q) (s : srch) : outcome (srch * option node) :=
    match fuel with
    | O => Diverges
    | S f =>
        match s_dive s with
        | [] => Ok (s, None)
        | x :: dv =>
            let s := with_dive s dv in
            if negb (Z.leb (ndepth x - s_board s) (s_depth s)) then AssertFail
            else
              do ' (s, nd) <-
                (if Qltb cutoff (nobj x) then do s' <- heap_push s x; Ok (with_nb s' (s_nback s + 1), None)
                 else if Z.ltb (s_depth s) (ndepth x - s_board s) then do s' <- heap_push s x; Ok (with_nb s' (s_nback s + 1), None)
                 else if Nat.ltb (nleft x) (nbr x) then Ok (with_nb s (s_nback s + 1), Some x)
                 else Ok (s, Some x));
              do ' (s, nd) <-
                (if Z.leb (s_back s) (s_nback s) then
                   do s' <- pushDive s;
                   match nd with Some y => do s2 <- heap_push s' y; Ok (s2, None) | None => Ok (s', None) end
                 else Ok (s, nd));
              match nd with Some y => Ok (s, Some y) | None => loop f cutoff s end
        end
    end.
  (** 600-672. *)
  Definition best_tail (cutoff : Q) (s : srch) : outcome (srch * seen) :=
    do ' (s, d) <-
      match s_mode s with
      | FindSolutions => Ok (s, [])
      | _ => match s_dive s with
             | [] => do ' (s', e) <- tree_best cutoff s; Ok (s', e_drop e)     (* the node is not returned *)
             | _ => AssertFail
             end
      end;
    if negb (Z.ltb (s_nback s) (s_back s)) then AssertFail
    else
      do ' (s, r) <- loop (S (length (s_dive s))) cutoff s;
      match r with
      | Some x => Ok (s, mkSeen (Some x) d)
      | None =>
          do ' (s, e) <- tree_best cutoff s;
          match e_ret e with
          | None => NullDeref
          | Some x => Ok (mkS (s_heap s) (s_dive s) (ndepth x) 0 (s_bfs s) (s_back s) (s_depth s) (s_mode s),
                          mkSeen (Some x) (d ++ e_drop e))
          end
      end.
  (** bestNode, 567-672. *)
  Definition bestNode (cutoff : Q) (s : srch) : outcome (srch * seen) :=
    match s_mode s with
    | Enlarge =>
        match rev (s_dive s) with
        | [] => best_tail cutoff (with_md s FindSolutions)
        | x :: rdv =>
            if Z.ltb (s_bfs s) (ndepth x) then do s' <- setMode s FindSolutions; best_tail cutoff s'
            else Ok (with_dive s (rev rdv), mkSeen (Some x) [])
        end
    | _ => best_tail cutoff s
    end.
  (** cleanTree, 696-707. *)
  Definition cleanTree (cutoff : Q) (s : srch) : outcome (srch * list node) :=
    do s1 <- pushDive s; tree_clean cutoff s1.
  (** DiverCompare::newSolution, 795-810; numberSolToStopDive_ is 5 (BonDiver.hpp 314).  When diver_ is another tree, it is
      that one whose mode changes. *)
  Definition newSolution (n : Z) (s : srch) : outcome srch :=
    match dyn, other with
    | true, None =>
        do s <- (match s_mode s with Enlarge => setMode s FindSolutions | _ => Ok s end);
        match s_mode s with
        | FindSolutions => if Z.leb 5 n then setMode s CloseBound else Ok s
        | _ => Ok s
        end
    | _, _ => Ok s
    end.
  (** every1000Nodes, 846-856; numberNodesToLimitTreeSize_ is 1000000 (BonDiver.hpp 315). *)
  Definition every1000Nodes (k : Z) (s : srch) : outcome srch :=
    match dyn, other with
    | true, None =>
        match s_mode s with
        | LimitTreeSize => Ok s
        | _ => if Z.ltb 1000000 k then do s <- setMode s LimitTreeSize; setComparison s else Ok s
        end
    | _, _ => Ok s
    end.

  Definition step (s : srch) (o : call) : outcome (srch * seen) :=
    match o with
    | CPush x => do s' <- push s x; Ok (s', mkSeen None [])
    | CBest c => bestNode c s
    | CClean c => do ' (s', d) <- cleanTree c s; Ok (s', mkSeen None d)
    | CSol n c => do ' (s', d) <- cleanTree c s; do s' <- newSolution n s'; do s' <- setComparison s'; Ok (s', mkSeen None d)
    | CNodes k => do s' <- every1000Nodes k s; Ok (s', mkSeen None [])
    end.
  Fixpoint runs (s : srch) (l : list call) : outcome (srch * list seen) :=
    match l with
    | [] => Ok (s, [])
    | o :: t => do ' (s1, e) <- step s o; do ' (s2, es) <- runs s1 t; Ok (s2, e :: es)
    end.
End Order.
