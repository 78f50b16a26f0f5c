(** A whole branch-and-bound search on Bonmin's trees.

    Bonmin runs the search by CbcModel::branchAndBound() (src/CbcBonmin/BonCbc.cpp:525), after it has installed one of
    its trees by CbcModel::passInTreeHandler (BonCbc.cpp:345-377).  The loop itself is Cbc's.  It is modelled here as
    the client of the trees of Tree_Model.v, in the order in which Cbc calls them:

    - when the cutoff has improved: cleanTree, then the newSolution hook of the node comparison;
    - bestNode(cutoff); nothing is done when it answers NULL or a node above the cutoff;
    - a node with a branch left after this one is pushed back;
    - the subproblem of the branch is solved; its node is pushed when its bound is below the cutoff.

    The solve of a subproblem ([relax]) stands for OsiTMINLPInterface::resolve with the branching object's choice of
    a variable; primal heuristics ([heur]) may offer a point before each node.  Both are arguments.  Not modelled:
    cuts, strong branching fixings, node limits other than the number of rounds, objects with more than two branches. *)
From Verif Require Import Base Tree_Model.

(** What solving a subproblem gives: nothing, a point that needs no branching, or a bound, a guess and two branches. *)
Inductive answer (R P : Type) :=
| RInf
| RInt (v : Q) (x : P)
| RSplit (v g : Q) (a b : R).
Arguments RInf {R P}.
Arguments RInt {R P} v x.
Arguments RSplit {R P} v g a b.

Section Loop.
  Variables (R P T : Type).
  Variable relax : nat -> R -> answer R P.    (* the answer may depend on the round: cuts and warm starts accumulate *)
  Variable tstep : T -> op -> outcome (T * event).
  Variable tempty : T -> bool.
  Variable inc : Q.                           (* CbcModel::CbcCutoffIncrement, from cutoff_decr (BonCbc.cpp:309) *)
  Variable heur : nat -> option (Q * P).      (* what the heuristics offer before a round *)
  Variable onsol : T -> nat -> list mode.     (* newSolution: the modes it sets, given the number of solutions *)
  Variable tick : T -> nat -> list mode.      (* every1000Nodes: the modes it sets, given the number of rounds *)

  Record st := mkSt {
    s_tree : T;
    s_tab : list (R * R);         (* the two branches of node number i *)
    s_cut : Q;                    (* CbcModel::getCutoff() *)
    s_best : option (Q * P);      (* bestObjective_, bestSolution_ *)
    s_nsol : nat;                 (* getSolutionCount() *)
    s_round : nat
  }.
  Definition with_tree (s : st) (t : T) : st :=
    mkSt t (s_tab s) (s_cut s) (s_best s) (s_nsol s) (s_round s).

  (** BonDiver.cpp:802-808 and 850-852: the modes are set one after the other. *)
  Fixpoint set_modes (t : T) (ms : list mode) : outcome T :=
    match ms with
    | [] => Ok t
    | m :: ms' => do ' (t', _) <- tstep t (SetMode m); set_modes t' ms'
    end.

  (** CbcModel::setBestSolution (external): a point is taken when it is below the cutoff and better than the one
      held; the cutoff becomes its value less the increment; the tree is then cleaned and the comparison told. *)
  Definition accepts (s : st) (v : Q) : bool :=
    Qltb v (s_cut s) && match s_best s with None => true | Some (w, _) => Qltb v w end.
  Definition offer (s : st) (v : Q) (x : P) : outcome st :=
    if accepts s v then
      do ' (t1, _) <- tstep (s_tree s) (Clean (v - inc));
      do t2 <- set_modes t1 (onsol t1 (S (s_nsol s)));
      Ok (mkSt t2 (s_tab s) (v - inc) (Some (v, x)) (S (s_nsol s)) (s_round s))
    else Ok s.

  (** CbcModel::doOneNode (external), the child's side *)
  Definition expand (s : st) (depth : Z) (r : R) : outcome st :=
    match relax (s_round s) r with
    | RInf => Ok s
    | RInt v x => offer s v x
    | RSplit v g a b =>
        if Qltb v (s_cut s) then
          do ' (t', _) <- tstep (s_tree s) (Push (mkNode (length (s_tab s)) v g depth 2 2));
          Ok (mkSt t' (s_tab s ++ [(a, b)]) (s_cut s) (s_best s) (s_nsol s) (s_round s))
        else Ok s
    end.

  (** One round of the loop of CbcModel::branchAndBound (external) *)
  Definition round (s : st) : outcome st :=
    let s := mkSt (s_tree s) (s_tab s) (s_cut s) (s_best s) (s_nsol s) (S (s_round s)) in
    do t0 <- set_modes (s_tree s) (tick (s_tree s) (s_round s));
    let s := with_tree s t0 in
    do s <- match heur (s_round s) with Some (v, x) => offer s v x | None => Ok s end;
    if tempty (s_tree s) then Ok s
    else
      do ' (t1, e) <- tstep (s_tree s) (Best (s_cut s));
      let s := with_tree s t1 in
      match e with
      | EvBest _ (Some n) _ =>
          if Qltb (s_cut s) (nobj n) then Ok s
          else
            match nth_error (s_tab s) (nid n) with
            | None => OutOfBounds
            | Some (a, b) =>
                if Nat.eqb (nleft n) 2 then
                  do ' (t2, _) <- tstep (s_tree s)
                     (Push (mkNode (nid n) (nobj n) (nguess n) (ndepth n) 1 (nbr n)));
                  expand (with_tree s t2) (ndepth n + 1) a
                else expand s (ndepth n + 1) b
            end
      | _ => Ok s
      end.

  (** Rounds until the tree is empty; [Diverges] when the given number of rounds does not do. *)
  Fixpoint loop (fuel : nat) (s : st) : outcome st :=
    if tempty (s_tree s) then Ok s
    else match fuel with
         | O => Diverges
         | S f => do s' <- round s; loop f s'
         end.

  (** A search stopped after at most [k] rounds (node, time or solution limit) *)
  Fixpoint rounds (k : nat) (s : st) : outcome st :=
    match k with
    | O => Ok s
    | S k' => if tempty (s_tree s) then Ok s else do s' <- round s; rounds k' s'
    end.

  (** The root is solved and pushed as any other node, at depth 0; [cut] is the cutoff set before the search
      (BonCbc.cpp:311). *)
  Definition start (t : T) (cut : Q) (root : R) : outcome st :=
    expand (mkSt t [] cut None 0 0) 0 root.
  Definition search (fuel : nat) (t : T) (cut : Q) (root : R) : outcome st :=
    do s <- start t cut root; loop fuel s.
  Definition stopped (k : nat) (t : T) (cut : Q) (root : R) : outcome st :=
    do s <- start t cut root; rounds k s.
End Loop.
Arguments s_tree {R P T}.
Arguments s_tab {R P T}.
Arguments s_cut {R P T}.
Arguments s_best {R P T}.
Arguments s_nsol {R P T}.
Arguments s_round {R P T}.

(** The plain CbcTree (tree_search_strategy top-node, BonCbc.cpp:345-347: no tree is passed in) *)
Definition heap_step (sel : list node -> nat) (h : list node) (o : op) : outcome (list node * event) :=
  match o with
  | Push x => Ok (x :: h, EvPush x)
  | Pop => match heap_take sel h with Some (x, h') => Ok (h', EvPop x) | None => OutOfBounds end
  | Top => match heap_take sel h with Some (x, _) => Ok (h, EvTop x) | None => OutOfBounds end
  | Best c => let '(r, h', d) := heap_best sel c h in Ok (h', EvBest c r d)
  | Clean c => let '(h', d) := heap_clean c h in Ok (h', EvClean c d)
  | SetMode _ => Ok (h, EvMode)
  end.
Definition heap_empty (h : list node) : bool := match h with [] => true | _ => false end.
Definition heap_bound (h : list node) : Q := min_obj big h.

(** No hook: every strategy but dfs-dive-dynamic leaves the mode of the tree alone. *)
Definition no_modes {T} (_ : T) (_ : nat) : list mode := [].

(** DiverCompare::newSolution, BonDiver.cpp:793-810 with numberSolToStopDive_ = 5 and
    DiverCompare::every1000Nodes, 847-855 with numberNodesToLimitTreeSize_ = 1000000 (BonDiver.hpp:330-336). *)
Definition dyn_onsol (t : dfs) (n : nat) : list mode :=
  match f_mode t with
  | Enlarge => FindSolutions :: (if Nat.leb 5 n then [CloseBound] else [])
  | FindSolutions => if Nat.leb 5 n then [CloseBound] else []
  | _ => []
  end.
Definition dyn_tick (t : dfs) (k : nat) : list mode :=
  if Z.eqb (Z.of_nat k mod 1000) 0 && Z.ltb 1000000 (Z.of_nat k) then
    match f_mode t with LimitTreeSize => [] | _ => [LimitTreeSize] end
  else [].
