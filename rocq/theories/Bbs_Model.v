(** How Bab::branchAndBound sets Cbc up from a BabSetupBase, starts the search and reacts to interruptions,
    src/CbcBonmin/BonCbc.cpp 33-94 and 103-527.  What is reported at the end of a run is in Bab_Model.v.

    Simplified: messages are left out; generators, heuristics, nodes and solvers are numbers; Cbc's own functions
    (findIntegers, addObjects, addCutGenerator, addHeuristic, assignSolver) do what their documentation says:
    findIntegers(true) makes one integer object for every integer column and keeps the other objects behind them;
    addObjects replaces the integer objects of columns that have a new one and appends the rest;
    cut generators and heuristics are copied and appended; assignSolver deletes the solver it replaces.
    The virtual function replaceIntegers (288, BonCbc.hpp 85) does nothing. *)
From Verif Require Import Base Arr.
#[local] Open Scope Z_scope.

(** Branching objects: an integer variable of Cbc with priority, preferred way and pseudo-costs (up, down);
    an SOS constraint; another CbcObject; an OsiObject that is not a CbcObject. *)
Inductive obj :=
| OInt (col : nat) (prio way : Z) (ps : option (Q * Q))
| OSos (members : list nat) (weights : list Q) (id : nat) (type prio : Z)
| OExtra (k : nat)
| OOsi (k : nat) (col : option nat).
Definition col_of (o : obj) : option nat :=
  match o with OInt j _ _ _ => Some j | OOsi _ c => c | _ => None end.
Definition is_int (o : obj) : bool := match o with OInt _ _ _ _ => true | _ => false end.

(** A cut generator as listed in the set-up (BonBabSetupBase.hpp, CuttingMethod), or its copy in Cbc:
    [g_lp] is the LP solver an OaDecompositionBase works on, [g_objs] the objects it knows. *)
Record gen := mkG { g_id : nat; g_freq : Z; g_normal : bool; g_atsol : bool; g_always : bool;
                    g_oa : bool; g_reassign : bool; g_lp : option nat; g_objs : option (list obj) }.
Inductive heu := HSet (k : nat) | HGuess.
Inductive ncmp := bestBound | DFS | BFS | dynamic | bestGuess.
Inductive kcmp := KObjective | KDepth | KDefault0 | KDefault | KEstimate | KDiver (dive : kcmp).
Inductive ntree := HeapOnly | DiveFromBest | ProbedDive | DfsDiveFromBest | DfsDiveDynamic.

Record sosinfo := mkSos { so_num : nat; so_starts : list nat; so_ind : list nat; so_types : list Z;
                          so_wts : list Q; so_prio : option (list Z) }.
(** The set-up. *)
Record setup := mkU {
  u_cols : list bool;                       (* for each column: is it integer? *)
  u_prio : option (list Z); u_dir : option (list Z); u_up : option (list Q); u_down : option (list Q);
  u_sos : option sosinfo; u_nosos : bool;   (* sosConstraints(), DisableSos *)
  u_extra : list (option nat);              (* s.objects(); None: not a CbcObject *)
  u_cobjs : option (list obj);              (* continuousSolver()->objects() *)
  u_choose : bool;                          (* branchingMethod() is given *)
  u_gens : list gen; u_heus : list nat;
  u_special : Z; u_fail : Z * Z * Z;        (* SpecialOption; MaxFailures, MaxInfeasible, FailureBehavior *)
  u_passes : Z; u_rpasses : Z; u_cmp : ncmp; u_tree : ntree;
  u_strong : Z; u_trust : Z; u_nodes : Z; u_iters : Z; u_sols : Z;
  u_decr : Q; u_cutoff : Q; u_gap : Q; u_fgap : Q; u_time : Q; u_inttol : Q;
  u_same : bool;                            (* nonlinearSolver() == continuousSolver() *)
  u_dyn : bool; u_linobj : bool }.          (* enable_dynamic_nlp; the user's objective is linear *)

Record pars := mkP { p_passes : Z; p_rpasses : Z; p_strong : Z; p_trust : Z; p_nodes : Z; p_iters : Z; p_sols : Z;
                     p_incr : Q; p_cutoff : Q; p_gap : Q; p_fgap : Q; p_secs : Q; p_inttol : Q }.
(** CbcModel. *)
Record cbc := mkM { m_solver : nat; m_gens : list gen; m_heus : list heu; m_objs : list obj;
                    m_special : Z; m_strat : option (Z * Z * Z); m_cmp : kcmp; m_tree : ntree; m_pars : pars }.
(** Bab: the model and objects_ (an entry [None] is a pointer that has not been set). *)
Record bab := mkB { b_model : cbc; b_objs : option (list (option obj)) }.
(** Constructor, 69-82; CbcModel(). *)
Definition bab0 (p : pars) : bab := mkB (mkM 0 [] [] [] 0 None KDefault HeapOnly p) None.

(** ** Objects, 182-307 *)
Definition int_cols (u : setup) : list nat := filter (fun j => nth j (u_cols u) false) (seq 0 (length (u_cols u))).
(** CbcModel::findIntegers(true, pseudo); 1000 is the default priority of a CbcObject. *)
Definition findIntegers (u : setup) (pseudo : bool) (old : list obj) : list obj :=
  map (fun j => OInt j 1000 0 (if pseudo then Some (0, 0)%Q else None)) (int_cols u) ++ filter (fun o => negb (is_int o)) old.
Definition same_col (j : nat) (o : obj) : bool := match col_of o with Some k => Nat.eqb j k | None => false end.
(** CbcModel::addObjects. *)
Definition addObjects (old new : list obj) : list obj :=
  filter (fun o => match col_of o with Some j => negb (existsb (same_col j) new) | None => true end) old ++ new.
Definition given {A} (a : option (list A)) : bool := match a with Some _ => true | None => false end.
(** 195-209: an object that is not an integer one has column number -1. *)
Definition give (u : setup) (o : obj) : outcome obj :=
  match o with
  | OInt j p w ps =>
      do p' <- match u_prio u with Some l => rd j l | None => Ok p end;
      do w' <- match u_dir u with Some l => rd j l | None => Ok w end;
      do ps' <- match u_up u with
                | None => Ok ps
                | Some up =>
                    match ps with
                    | None => NullDeref
                    | Some _ => do a <- rd j up;
                                match u_down u with None => NullDeref | Some dn => do b <- rd j dn; Ok (Some (a, b)) end
                    end
                end;
      Ok (OInt j p' w' ps')
  | OOsi _ _ => NullDeref
  | _ => if (given (u_prio u) || given (u_dir u))%bool then OutOfBounds
         else if given (u_up u) then NullDeref else Ok o
  end.
Fixpoint mapM {A B} (f : A -> outcome B) (l : list A) : outcome (list B) :=
  match l with [] => Ok [] | x :: t => do y <- f x; do ys <- mapM f t; Ok (y :: ys) end.
(** 186-211. *)
Definition integers (u : setup) (old : list obj) : outcome (list obj) :=
  let l := findIntegers u (given (u_up u)) old in
  if (given (u_prio u) || given (u_dir u) || given (u_up u))%bool then mapM (give u) l else Ok l.
(** 229-251: is a priority different from 0?  The first [k] entries are looked at, up to the first that is. *)
Fixpoint nonzero (k : nat) (l : list Z) : outcome bool :=
  match k with
  | O => Ok false
  | S k' => match l with [] => OutOfBounds | z :: t => if Z.eqb z 0 then nonzero k' t else Ok true end
  end.
(** 252-269. *)
Definition one_sos (q : sosinfo) (has : bool) (i : nat) : outcome obj :=
  do s <- rd i (so_starts q); do e <- rd (S i) (so_starts q);
  if (Nat.ltb e s || Nat.ltb (length (so_ind q)) e || Nat.ltb (length (so_wts q)) e)%bool then OutOfBounds
  else
    do t <- rd i (so_types q);
    do p <- (if has then match so_prio q with
                         | Some l => do z <- rd i l; Ok (if Z.eqb z 0 then 10 else z)
                         | None => Ok 10 end
             else Ok 10);
    Ok (OSos (firstn (e - s) (skipn s (so_ind q))) (firstn (e - s) (skipn s (so_wts q))) i t p).
(** 213-275. *)
Definition sos_objects (u : setup) (objs : list obj) : outcome (list obj) :=
  match u_sos u with
  | Some q =>
      if (u_nosos u || Nat.eqb (so_num q) 0)%bool then Ok objs
      else
        do h1 <- match u_prio u with Some l => nonzero (length objs) l | None => Ok false end;
        do h2 <- match so_prio q with Some l => nonzero (so_num q) l | None => Ok false end;
        do l <- mapM (one_sos q (h1 || h2)) (seq 0 (so_num q));
        Ok (addObjects objs l)
  | None => Ok objs
  end.
(** 276-286. *)
Definition extra_objects (u : setup) (objs : list obj) : outcome (list obj) :=
  do l <- mapM (fun e => match e with Some k => Ok (OExtra k) | None => AssertFail end) (u_extra u);
  Ok (addObjects objs l).
(** 182-307. *)
Definition set_objects (u : setup) (old : list obj) : outcome (list obj) :=
  match u_cobjs u with
  | None => do a <- integers u old; do b <- sos_objects u a; extra_objects u b
  | Some l =>
      if u_choose u then
        let base := match old with [] => findIntegers u false [] | _ => old end in
        Ok (addObjects base l)
      else AssertFail
  end.

(** ** Generators and heuristics, 148-168 *)
Definition add_gen (solver : nat) (g : gen) : gen :=
  mkG (g_id g) (g_freq g) (g_normal g) (g_atsol g) (g_always g) (g_oa g) (g_reassign g)
      (if (g_oa g && g_reassign g)%bool then Some solver else g_lp g) (g_objs g).
Definition tell (l : list obj) (g : gen) : gen :=
  if g_oa g then mkG (g_id g) (g_freq g) (g_normal g) (g_atsol g) (g_always g) (g_oa g) (g_reassign g) (g_lp g) (Some l) else g.

(** 393-433: copies of the objects for the generators; a CbcObject that is neither an integer nor an SOS is refused. *)
Definition supported (o : obj) : bool := match o with OExtra _ => false | _ => true end.
Fixpoint copied (l : list obj) : list (option obj) :=
  match l with
  | [] => []
  | o :: t => if supported o then Some o :: copied t else map (fun _ => None) l
  end.
(** The pointers deleted, 398-402 and 89-92. *)
Definition delete_objs (o : option (list (option obj))) : outcome unit :=
  match o with
  | Some l => if existsb (fun x => match x with None => true | _ => false end) l then Uninit else Ok tt
  | None => Ok tt
  end.
Definition destroy (b : bab) : outcome unit := delete_objs (b_objs b).

(** 316-343 and 345-375. *)
Definition compare_of (u : setup) : kcmp :=
  match u_cmp u with bestBound => KObjective | DFS => KDepth | BFS => KDefault0 | dynamic => KDefault | bestGuess => KEstimate end.
Definition tree_of (u : setup) (old : ntree) : ntree := match u_tree u with HeapOnly => old | t => t end.
Definition cutoff_tol : Q := 1 # 1000000.       (* CUTOFF_TOL, 31 *)

(** 108-433: the model when the search is about to start; [true]: an exception (UNSUPPORTED_CBC_OBJECT) leaves the function. *)
Definition prepare (u : setup) (b : bab) : outcome (bab * bool) :=
  let m := b_model b in
  let sv := S (m_solver m) in
  let '(sp, st) := if Z.eqb (u_special u) 0 then (m_special m, m_strat m)
                   else (u_special u, if Z.eqb (u_special u) 16 then Some (u_fail u) else m_strat m) in
  let gens := m_gens m ++ map (add_gen sv) (u_gens u) in
  let heus := m_heus m ++ map HSet (u_heus u) in
  do objs <- set_objects u (m_objs m);
  let heus := match u_cmp u with bestGuess => heus ++ [HGuess] | _ => heus end in
  let c := compare_of u in
  let c := match u_tree u with DfsDiveDynamic => KDiver c | _ => c end in
  let p := mkP (u_passes u) (u_rpasses u) (u_strong u) (u_trust u) (u_nodes u) (u_iters u) (u_sols u)
               (u_decr u) (u_cutoff u + cutoff_tol)%Q (u_gap u) (u_fgap u) (u_time u) (u_inttol u) in
  let model gs := mkM sv gs heus objs sp st c (tree_of u (m_tree m)) p in
  match objs with
  | [] => Ok (mkB (model gens) (b_objs b), false)
  | _ =>
      if Z.eqb (u_special u) 16 then Ok (mkB (model gens) (b_objs b), false)
      else
        do _ <- delete_objs (b_objs b);
        if forallb supported objs
        then Ok (mkB (model (map (tell objs) gens)) (Some (copied objs)), false)
        else Ok (mkB (model gens) (Some (copied objs)), true)
  end.

(** ** The root, 444-527 *)
(** What is decided outside: the clock on entry and before the search, the status of the first solve, the linear cuts found,
    the cutoff decrement found by the NLP solver, whether a start point has been put into the solver, the solution of the root. *)
Record world := mkW { w_t0 : Q; w_t1 : Q; w_opt : bool; w_ncuts : nat; w_decr : option Q; w_started : bool;
                      w_x : option (list Q); w_y : option (list Q) }.
Record root := mkR { r_wrapped : bool;     (* the NLP has a linearised objective *)
                     r_rows : nat;         (* linear cuts added to the NLP *)
                     r_model : cbc; r_start : option (list Q) * option (list Q); (* point put into the NLP solver *)
                     r_search : bool }.
Definition with_pars (m : cbc) (p : pars) : cbc :=
  mkM (m_solver m) (m_gens m) (m_heus m) (m_objs m) (m_special m) (m_strat m) (m_cmp m) (m_tree m) p.
Definition with_incr (p : pars) (q : Q) : pars :=
  mkP (p_passes p) (p_rpasses p) (p_strong p) (p_trust p) (p_nodes p) (p_iters p) (p_sols p) q (p_cutoff p) (p_gap p) (p_fgap p) (p_secs p) (p_inttol p).
Definition with_secs (p : pars) (q : Q) : pars :=
  mkP (p_passes p) (p_rpasses p) (p_strong p) (p_trust p) (p_nodes p) (p_iters p) (p_sols p) (p_incr p) (p_cutoff p) (p_gap p) (p_fgap p) q (p_inttol p).
(** BabSetupBase::use, BonBabSetupBase.cpp 250-257: a nonlinear objective is moved into a constraint. *)
Definition wrapped (u : setup) : bool := (u_dyn u && negb (u_linobj u))%bool.
Definition root_phase (u : setup) (w : world) (interrupted : bool) (b : bab) : outcome root :=
  let m := b_model b in
  if interrupted then Ok (mkR (wrapped u) 0 m (None, None) false)                 (* 458 *)
  else
    do ' (wr, rows, m) <-
      (if (u_same u && u_dyn u)%bool then                                          (* 461-489 *)
         do ' (wr, rows) <-
           (if w_opt w then match w_ncuts w with O => OutOfBounds | n => Ok (wrapped u, n) end
            else if wrapped u then Ok (false, O) else NullDeref);
         Ok (wr, rows, match w_decr w with Some q => with_pars m (with_incr (m_pars m) q) | None => m end)
       else Ok (wrapped u, O, m));
    do st <- (if Z.eqb (u_special u) 16 then                                       (* 492-512 *)
                if u_same u then Ok (if w_started w then (None, None) else (w_x w, w_y w)) else NullDeref
              else Ok (None, None));
    let left := (u_time u + w_t0 w - w_t1 w)%Q in                                  (* 108, 520-525 *)
    Ok (mkR wr rows (with_pars m (with_secs (m_pars m) left)) st (Qltb 0 left)).

(** ** Interruptions, 33-62 and 435-441 *)
(** The process: Bab objects alive, handler installed, currentBranchModel, BonminInteruptedOnce (BonminAbortAll goes with it). *)
Record proc := mkPr { pr_live : list nat; pr_handler : bool; pr_current : option nat; pr_once : bool }.
Definition proc0 : proc := mkPr [] false None false.
Inductive act := Make (i : nat) | Run (i : nat) | Kill (i : nat) | Interrupt.
(** What is seen: a run that searches or not, a model told to stop, the end of the process. *)
Inductive eff := ENone | ESearch (i : nat) | ENoSearch (i : nat) | EStop (i : option nat) | EExit.
Definition act_step (p : proc) (a : act) : outcome (proc * eff) :=
  match a with
  | Make i => Ok (mkPr (i :: pr_live p) (pr_handler p) (pr_current p) (pr_once p), ENone)
  | Run i =>
      if existsb (Nat.eqb i) (pr_live p)
      then Ok (mkPr (pr_live p) true (Some i) (pr_once p), if pr_once p then ENoSearch i else ESearch i)
      else Dangling
  | Kill i => Ok (mkPr (filter (fun j => negb (Nat.eqb i j)) (pr_live p)) (pr_handler p) (pr_current p) (pr_once p), ENone)
  | Interrupt =>
      if negb (pr_handler p) then Ok (p, EExit)                                   (* the default action *)
      else if pr_once p then Ok (p, EExit)
      else match pr_current p with
           | None => Ok (mkPr (pr_live p) true None true, EStop None)
           | Some i => if existsb (Nat.eqb i) (pr_live p) then Ok (mkPr (pr_live p) true (Some i) true, EStop (Some i)) else Dangling
           end
  end.
Fixpoint acts (p : proc) (l : list act) : outcome (proc * list eff) :=
  match l with
  | [] => Ok (p, [])
  | a :: t => do ' (p1, e) <- act_step p a; do ' (p2, es) <- acts p1 t; Ok (p2, e :: es)
  end.
