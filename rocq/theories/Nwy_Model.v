(** Branching on sets of variables of which exactly one is at its upper bound.
    experimental/RobotBonmin/BonNWayObject.hpp, BonNWayObject.cpp, BonNWayChoose.cpp (setupList 211-228, chooseVariable, doStrongBranching),
    RobotSetup.cpp 103-190 (addNWays).
    Simplifications.  Doubles are exact rationals.  The bounds an OsiBranchingInformation points to are those of the solver.
    The order std::sort gives is an argument, as are what the hot-start solves answer and the usefulness computed from it. *)
From Verif Require Import Base Arr.
#[local] Open Scope Q_scope.

(** Bounds of the columns in the solver. *)
Record box := mkBox { b_lo : list Q; b_up : list Q }.
Definition setLo (c : nat) (v : Q) (b : box) : outcome box := do l <- lset c v (b_lo b); Ok (mkBox l (b_up b)).
Definition setUp (c : nat) (v : Q) (b : box) : outcome box := do l <- lset c v (b_up b); Ok (mkBox (b_lo b) l).
Definition getLo (c : nat) (b : box) : outcome Q := rd c (b_lo b).
Definition getUp (c : nat) (b : box) : outcome Q := rd c (b_up b).

(** BonNWayObject: members_, consequence_, bounds_, quicky_, only_frac_branch_. *)
Record nway := mkNway { n_mem : list nat; n_cons : option (list (option (list nat))); n_bnd : list Q; n_quick : bool; n_frac : nat }.
(** Constructor, 35-47. *)
Definition make (mem : list nat) : nway := mkNway mem None [] false 0.
(** setConsequence, 110-118. *)
Definition setConsequence (s : nat) (c : list nat) (o : nway) : outcome nway :=
  let l := match n_cons o with None => repeat None (length (n_mem o)) | Some l => l end in
  do l <- lset s (Some c) l; Ok (mkNway (n_mem o) (Some l) (n_bnd o) (n_quick o) (n_frac o)).
(** Copy constructor, 50-65: bounds_ is not copied. *)
Definition copy (o : nway) : nway := mkNway (n_mem o) (n_cons o) [] (n_quick o) (n_frac o).
(** Assignment, 75-98: members_ has its new size when the old consequences are deleted; bounds_ is not assigned. *)
Definition assign (r o : nway) : outcome nway :=
  do _ <- match n_cons o with
          | None => Ok tt
          | Some l => if Nat.leb (length (n_mem r)) (length l) then Ok tt else OutOfBounds
          end;
  Ok (mkNway (n_mem r) (n_cons r) (n_bnd o) (n_quick r) (n_frac r)).
(** n_way_consequences::applyToSolver, hpp 43-51, with a positive state. *)
Fixpoint applyAll (l : list nat) (ones : bool) (b : box) : outcome box :=
  match l with
  | [] => do _ <- chk (negb ones); Ok b
  | c :: l => do v <- getLo c b; do b <- setUp c v b; applyAll l (ones || Qltb (9 # 10) v)%bool b
  end.
(** applyConsequence, 121-131. *)
Definition applyConsequence (o : nway) (s : nat) (b : box) : outcome box :=
  match n_cons o with
  | None => Ok b
  | Some l => do c <- rd s l; match c with None => Ok b | Some c => applyAll c false b end
  end.

Definition cmax (a b : Q) : Q := if Qltb b a then a else b.
Definition cmin (a b : Q) : Q := if Qltb a b then a else b.
Definition clip (v l u : Q) : Q := cmin (cmax v l) u.
(** infeasibility, 132-163. *)
Fixpoint infeas (mem : list nat) (tol : Q) (x : list Q) (b : box) (largest : Q) : outcome Q :=
  match mem with
  | [] => Ok largest
  | c :: mem =>
      do v <- rd c x; do l <- getLo c b; do u <- getUp c b;
      let v := clip v l u in let d := cmin (v - l) (u - v) in
      infeas mem tol x b (if Qltb tol d then cmax d largest else largest)
  end.
Definition infeasibility (o : nway) (tol : Q) (x : list Q) (b : box) : outcome Q := infeas (n_mem o) tol x b 0.
(** feasibleRegion, 166-191. *)
Fixpoint region (mem : list nat) (tol : Q) (x : list Q) (b : box) (r : Q) : outcome (box * Q) :=
  match mem with
  | [] => Ok (b, r)
  | c :: mem =>
      do v <- rd c x; do l <- getLo c b; do u <- getUp c b;
      let v := clip v l u in
      if Qle_bool (u - tol) v then do b <- setLo c u b; region mem tol x b (r + (v - u))
      else do _ <- chk (Qle_bool v (l + tol)); do b <- setUp c l b; region mem tol x b (r + (v - l))
  end.
Definition feasibleRegion (o : nway) (tol : Q) (x : list Q) (b : box) : outcome (box * Q) := region (n_mem o) tol x b 0.

(** OsiBranchingInformation: solution, tolerance, cutoff, depth, objective value. *)
Record binfo := mkInfo { i_x : list Q; i_tol : Q; i_cutoff : Q; i_depth : nat; i_obj : Q }.
Section Sort.
(** CoinSort_2 of the pairs (distance to the upper bound, position). *)
Variable srt : list (Q * nat) -> list (Q * nat).
(** createBranch, the loop 209-231: the branches and the members skipped. *)
Fixpoint collect (o : nway) (i : binfo) (b : box) (s : nat) (mem : list nat) : outcome (list (Q * nat) * list (Q * nat)) :=
  match mem with
  | [] => Ok ([], [])
  | c :: mem =>
      do v <- rd c (i_x i); do l <- getLo c b; do u <- getUp c b;
      let w := clip v l u in
      if Qltb l u then
        do fathom <- match n_bnd o with [] => Ok false | _ => do d <- rd s (n_bnd o); Ok (Qltb (i_cutoff i) d) end;
        if (fathom : bool) then collect o i b (S s) mem
        else
          let deep := Nat.ltb (n_frac o) (i_depth i) in
          do r <- collect o i b (S s) mem;
          if ((n_quick o || deep) && Qltb (Qabs (v - l)) (i_tol i) && deep)%bool then Ok (fst r, (u - w, s) :: snd r)
          else Ok ((u - w, s) :: fst r, snd r)
      else collect o i b (S s) mem
  end.
(** 233-249: a single skipped member is put back; then sorting. *)
Definition createBranch (o : nway) (i : binfo) (b : box) : outcome (list nat * list nat) :=
  do r <- collect o i b 0 (n_mem o);
  let '(l, sk) := match snd r with [p] => (fst r ++ [p], []) | sk => (fst r, sk) end in
  Ok (map snd (srt l), map snd sk).
End Sort.

(** BonNWayBranchingObject: order_, skipped_. *)
Definition brobj := (list nat * list nat)%type.
(** numberBranches, hpp. *)
Definition numberBranches (r : brobj) : nat := length (fst r) + match snd r with [] => 0 | _ => 1 end.
(** branch(solver, which), 318-348; None: -1. *)
Fixpoint arms (o : nway) (which : option nat) (j : nat) (order : list nat) (b : box) : outcome box :=
  match order with
  | [] => Ok b
  | s :: order =>
      do c <- rd s (n_mem o);
      do b <- (if match which with Some w => Nat.eqb j w | None => false end
               then do u <- getUp c b; do b <- setLo c u b; do _ <- chk (Qltb u 100000000000000000000); applyConsequence o s b
               else do l <- getLo c b; do b <- setUp c l b; do _ <- chk (Qltb (- 100000000000000000000) l); Ok b);
      arms o which (S j) order b
  end.
Fixpoint skips (o : nway) (sk : list nat) (b : box) : outcome box :=
  match sk with
  | [] => Ok b
  | s :: sk => do c <- rd s (n_mem o); do l <- getLo c b; do u <- getUp c b; do _ <- chk (Qltb (l + (1 # 2)) u); do b <- setUp c l b; skips o sk b
  end.
Definition branchOn (o : nway) (r : brobj) (which : option nat) (b : box) : outcome box :=
  do b <- arms o which 0 (fst r) b;
  match which with None => Ok b | Some _ => skips o (snd r) b end.
(** branch(solver), 306-315, when branchIndex_ is [k]. *)
Definition which_of (r : brobj) (k : nat) : option nat :=
  if (negb (match snd r with [] => true | _ => false end) && Nat.eqb (S k) (length (fst r)))%bool then None else Some k.
Definition branchNext (o : nway) (r : brobj) (k : nat) (b : box) : outcome box := branchOn o r (which_of r k) b.

(** ** Strong branching *)
(** What a hot-start solve tells: infeasible, optimal with a value, anything else with a value. *)
Inductive answer := Infeas | Opt (v : Q) | Other (v : Q).
Record opts := mkOpts { p_fix : nat;      (* do_fixings: 0 none, 1 in-tree, 2 strong-branching, 3 all *)
                        p_mult : Q;       (* cutoff_multiplier *)
                        p_nobj : nat }.   (* number of objects from the first set on *)
(** doStrongBranching 482-484. *)
Definition big_val (p : opts) (i : binfo) : Q :=
  let v := p_mult p * i_cutoff i in
  let v := if Qltb 10000000000 v then 10 * i_obj i else v in
  v + Qabs v * (1 # 100000).
(** 487-534: the loop over the branches; [row]: bounds_ of this set; [b]: the bounds put back after each solve. *)
Fixpoint sb_loop (p : opts) (o : nway) (i : binfo) (r : brobj) (ans : nat -> box -> answer) (k n : nat) (row : list Q) (fixed : nat) (b : box)
  : outcome (list Q * nat * box) :=
  match n with
  | O => Ok (row, fixed, b)
  | S n =>
      do b1 <- branchNext o r k b;
      do s <- rd k (fst r);                                              (* seq_branched_on *)
      do c <- rd s (n_mem o);                                            (* var_branched_on *)
      let a := ans k b1 in
      let bad := match a with Infeas => true | Opt v => Qltb (i_cutoff i) v | Other _ => false end in
      do row <- (if Nat.eqb (i_depth i) 0
                 then lset s (if bad then big_val p i else match a with Opt v | Other v => v | Infeas => 0 end) row else Ok row);
      do _ <- rd s (repeat tt (p_nobj p));                               (* unit_changes[s_br] *)
      if (bad && Nat.ltb 1 (p_fix p))%bool
      then do l <- getLo c b; do b <- setUp c l b; sb_loop p o i r ans (S k) n row (S fixed) b
      else sb_loop p o i r ans (S k) n row fixed b
  end.
(** Result: return code, bounds_ of the set, the set, the solver's bounds. *)
Inductive sb := Infeasible | Fixed | Nothing | Time.
Definition strong (srt : list (Q * nat) -> list (Q * nat)) (p : opts) (o : nway) (i : binfo) (row : list Q) (ans : nat -> box -> answer) (late : bool) (b : box)
  : outcome (sb * list Q * nway * box) :=
  do r <- createBranch srt o i b;
  let n := numberBranches r in
  do ' (row, fixed, b) <- sb_loop p o i r ans 0 n row 0 b;
  let o := if (Nat.eqb (i_depth i) 0 && (Nat.eqb (p_fix p) 1 || Nat.eqb (p_fix p) 3))%bool then mkNway (n_mem o) (n_cons o) row (n_quick o) (n_frac o) else o in
  let code := if Nat.eqb fixed n then Infeasible else if Nat.ltb 0 fixed then Fixed else if late then Time else Nothing in
  Ok (code, row, o, b).
(** chooseVariable 352-374: fixing by the bounds of the root. *)
Fixpoint fix_row (row : list Q) (cutoff : Q) (s : nat) (mem : list nat) (b : box) : outcome box :=
  match mem with
  | [] => Ok b
  | c :: mem =>
      do l <- getLo c b; do u <- getUp c b;
      if Qltb u (l + (1 # 2)) then fix_row row cutoff (S s) mem b
      else do d <- rd s row;
           if Qltb cutoff d then do b <- setUp c l b; fix_row row cutoff (S s) mem b else fix_row row cutoff (S s) mem b
  end.
Fixpoint quick_fix (objs : list nway) (rows : list (list Q)) (cutoff : Q) (lst : list nat) (b : box) : outcome box :=
  match lst with
  | [] => Ok b
  | k :: lst => do o <- rd k objs; do row <- rd k rows; do b <- fix_row row cutoff 0 (n_mem o) b; quick_fix objs rows cutoff lst b
  end.
(** setupList 219-228: bounds_ at the root. *)
Definition root_rows (nobj : nat) (cutoff : Q) : list (list Q) := repeat (repeat cutoff nobj) nobj.
(** Strong branching on the sets of [lst], one after the other, at the root. *)
Fixpoint strong_all (srt : list (Q * nat) -> list (Q * nat)) (p : opts) (i : binfo) (ans : nat -> nat -> box -> answer) (lst : list nat)
  (objs : list nway) (rows : list (list Q)) (b : box) : outcome (option (list nway * list (list Q) * box)) :=
  match lst with
  | [] => Ok (Some (objs, rows, b))
  | k :: lst =>
      do o <- rd k objs; do row <- rd k rows;
      do ' (code, row, o, b) <- strong srt p o i row (ans k) false b;
      match code with
      | Infeasible => Ok None
      | _ => do rows <- lset k row rows; do objs <- lset k o objs; strong_all srt p i ans lst objs rows b
      end
  end.
(** chooseVariable 388-460: the choice; [tests]: for each set of the list in turn priority, code and usefulness. *)
Definition test := (nat * Z * sb * Q)%type.
Fixpoint pick (fixing root : bool) (tests : list test) (prio : Z) (best : option (nat * Q)) (code : Z) (first : option nat) : Z * option nat :=
  match tests with
  | [] => (code, option_map fst best)
  | (k, q, c, v) :: tests =>
      if (q <? prio)%Z then (code, option_map fst best)
      else match c with
           | Infeasible => ((-1)%Z, option_map fst best)
           | _ =>
               let code := match c with Fixed => if (fixing && root)%bool then 2%Z else code | _ => code end in
               let best := match best with None => Some (k, v) | Some (_, w) => if Qltb w v then Some (k, v) else best end in
               match c with
               | Time => (3%Z, match best with Some (k, _) => Some k | None => first end)
               | _ => pick fixing root tests q best code first
               end
           end
  end.
(** [lst]: the sets not satisfied; [on]: how many are on the list; depth, trusted: the test 348. *)
Definition choose (fixing : bool) (depth sb_depth : nat) (trusted : bool) (lst : list nat) (tests : list test) (nfixed : nat) : outcome (Z * option nat) :=
  match lst with
  | [] => Ok (1%Z, None)
  | k :: _ =>
      if (Nat.ltb sb_depth depth && trusted)%bool then Ok ((if Nat.ltb 0 nfixed then 2 else 0)%Z, Some k)
      else Ok (pick fixing (Nat.eqb depth 0) tests 0 None 0 (Some k))
  end.

(** ** The sets made from the user's SOS constraints: addNWays, RobotSetup.cpp 146-186. *)
(** One constraint: its columns; the weights of all constraints are one array, which is read from its start for each of them. *)
Fixpoint group_one (w : list Z) (j : nat) (cols : list nat) (g : list (list nat)) : outcome (list (list nat)) :=
  match cols with
  | [] => Ok g
  | c :: cols =>
      do z <- rd j w;
      if (z <? 0)%Z then OutOfBounds
      else do l <- rd (Z.to_nat z) g; do g <- lset (Z.to_nat z) (l ++ [c]) g; group_one w (S j) cols g
  end.
Fixpoint groups (w : list Z) (sets : list (list nat)) (g : list (list nat)) : outcome (list (list nat)) :=
  match sets with [] => Ok g | cols :: sets => do g <- group_one w 0 cols g; groups w sets g end.
Fixpoint set_cons (w : list Z) (g : list (list nat)) (j : nat) (cols : list nat) (o : nway) : outcome nway :=
  match cols with
  | [] => Ok o
  | c :: cols => do z <- rd j w; if (z <? 0)%Z then OutOfBounds else
                 do l <- rd (Z.to_nat z) g;
                 do o <- setConsequence j (filter (fun k => negb (Nat.eqb k c)) l) o; set_cons w g (S j) cols o
  end.
Fixpoint make_all (w : list Z) (g : list (list nat)) (sets : list (list nat)) : outcome (list nway) :=
  match sets with
  | [] => Ok []
  | cols :: sets => do o <- set_cons w g 0 cols (make cols); do l <- make_all w g sets; Ok (o :: l)
  end.
Definition addNWays (w : list Z) (sets : list (list nat)) : outcome (list nway) :=
  do g <- groups w sets (repeat [] (S (length sets))); make_all w g sets.
