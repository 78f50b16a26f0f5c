(** * When the primal heuristics do something, over a whole search

    Cbc calls a heuristic at nodes of its choice; the heuristic itself decides from
    the state of the search, and from what it remembers of its earlier calls,
    whether to do anything.  A search is here the list of the calls made.

    Simplified: what a heuristic does once it goes ahead is in Loc_Model,
    Div_Model and Mil_Model; here it is one answer, whether it found a solution.
    Node counts are natural numbers without bound (int in the code). *)
From Coq Require Import List NArith Bool.
Import ListNotations.
Open Scope N_scope.

(** One call: what the heuristic asks its CbcModel for (getNodeCount,
    getCurrentPassNumber, currentDepth, getSolutionCount, bestSolution() != NULL), how
    many variables or objects it could fix of how many, whether a second search,
    if one is started, finds a solution, and whether Cbc then keeps (and counts) that
    solution; no heuristic sees the last. *)
Record iv := Iv {
  i_node : N; i_pass : N; i_depth : N; i_nsol : N; i_best : bool;
  i_fix : N; i_all : N; i_found : bool; i_kept : bool }.

(** What it does: nothing, something short of a search, a search. *)
Inductive act := Skip | Tried | Search.

(** HeuristicRINS::solution, src/CbcBonmin/Heuristics/BonHeuristicRINS.cpp 45-117; [h] is
    howOften_ (10 at first, 22, 28).  Line 48: the frequency; 51-57: no incumbent;
    97-106: search if more than a tenth of the integer variables was fixed; 108-115: the
    new frequency.  numberSolutions_ is written and never read. *)
Definition rins (h : N) (i : iv) : act * N :=
  if (h =? 0) || negb (i_node i mod h =? 0) then (Skip, h)
  else if negb (i_best i) then (Skip, h)
  else
    let a := if i_all i / 10 <? i_fix i then Search else Tried in
    let found := match a with Search => i_found i | _ => false end in
    (a, if found then N.max 10 (h / 2) else N.min 10000 (2 * h)).

(** HeuristicLocalBranching::solution, BonHeuristicLocalBranching.cpp 76-119; [s] is
    numberSolutions_ (0 at first, 21, 27).  howOften_ is never read. *)
Definition local_branching (s : N) (i : iv) : act * N :=
  if i_nsol i <=? s then (Skip, s)
  else if negb (i_best i) then (Skip, i_nsol i)
  else (Search, if i_found i then i_nsol i + 1 else i_nsol i).

(** FixAndSolveHeuristic::solution, BonFixAndSolveHeuristic.cpp 36-72.  The objects are
    counted and fixed (58-66) before line 67 gives up. *)
Definition fix_and_solve (i : iv) : act :=
  if 0 <? i_nsol i then Skip
  else if 1000 <? i_node i then Skip
  else if negb (i_node i mod 100 =? 0) then Skip
  else if i_fix i <? i_all i / 3 then Tried
  else Search.

(** HeuristicDive::solution, BonHeuristicDive.cpp 67-71, howOften_ 100 (33, 41). *)
Definition dive (i : iv) : act :=
  if negb (i_node i mod 100 =? 0) || (1 <? i_pass i) then Skip else Search.

(** MilpRounding::solution, BonMilpRounding.cpp 85-89, howOften_ 20 (34). *)
Definition milp_rounding (i : iv) : act :=
  if 1 <? i_pass i then Skip
  else if (2 <? i_depth i) && negb (i_node i mod 20 =? 0) then Skip
  else Search.

(** A search: the heuristic's memory is handed from call to call. *)
Section Run.
  Variable step : N -> iv -> act * N.
  Fixpoint run (s : N) (l : list iv) : list act * N :=
    match l with
    | [] => ([], s)
    | i :: l =>
        let '(a, s1) := step s i in
        let '(r, s2) := run s1 l in (a :: r, s2)
    end.
End Run.
