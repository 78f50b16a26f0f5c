(** The information objects that travel with the solvers: the solution for a second objective, the slot for an NLP solution;
    and the start of the search when rows may be added to the NLP.
    src/Interfaces/BonAuxInfos.cpp 17-93, BonAuxInfos.hpp 24-115, src/CbcBonmin/BonBabInfos.cpp,
    src/Interfaces/BonOsiTMINLPInterface.cpp 602 (copy), 2694-2745 (solveAndCheckErrors), src/Interfaces/BonTMINLP2TNLP.cpp 662-666,
    src/CbcBonmin/BonCbc.cpp 110-122, 457-490, 632-651, src/Algorithms/BonBonminSetup.cpp 87-89, 403-404, 638-641,
    src/Algorithms/BonBabSetupBase.cpp 246-268.
    Simplifications.  Doubles are exact rationals, COIN_DBL_MAX is +infinity.  Reference-counted objects are entries of a list that
    only grows.  The user's problem has a second objective.  What a solve finds is given with it. *)
From Verif Require Import Base Arr Nlp Oad_Model.
#[local] Open Scope Q_scope.

(** ** Second objective *)
(** Auxiliary information of a solver: OsiAuxInfo, OsiBabSolver, or Bonmin's BabInfo, which points to shared storage. *)
Inductive info := Raw | Osi | Bon (c : nat).
Record solver := mkSolver { v_info : info; v_n : nat; v_ints : list bool }.
Record cell := mkCell { e_x : list Q; e_v : ext }.
Record st := mkSt { t_solvers : list solver; t_cells : list cell }.
(** What a solve finds: the point, proven optimal, the infeasibilities of the objects if there are any, the second objective at the point
    (None: the user's function fails and sets nothing). *)
Record found := mkFound { w_x : list Q; w_opt : bool; w_infs : option (list Q); w_second : option Q }.
Definition int_tol : Q := 1 # 100000000.
(** 2698-2721. *)
Fixpoint cols_integral (i n : nat) (ints : list bool) (x : list Q) : outcome bool :=
  match n with
  | O => Ok true
  | S n => do b <- rd i ints;
           if (b : bool) then do v <- rd i x; if Qltb int_tol (Qabs (v - inject_Z (nearest v))) then Ok false else cols_integral (S i) n ints x
           else cols_integral (S i) n ints x
  end.
Definition integral (v : solver) (f : found) : outcome bool :=
  match w_infs f with
  | Some l => Ok (forallb (fun d => negb (Qltb int_tol d)) l)
  | None => cols_integral 0 (v_n v) (v_ints v) (w_x f)
  end.
(** 2722-2744; evaluateUpperBoundingFunction returns an uninitialised value if the user's function fails. *)
Definition record_solve (v : solver) (f : found) (cells : list cell) : outcome (list cell) :=
  do b <- integral v f;
  if (b && w_opt f)%bool then
    match w_second f with
    | None => Uninit
    | Some h =>
        match v_info v with
        | Bon c =>
            do e <- rd c cells;
            if ext_ltb (Fin h) (e_v e) then
              if Nat.leb (v_n v) (length (w_x f)) then lset c (mkCell (firstn (v_n v) (w_x f)) (Fin h)) cells else OutOfBounds
            else Ok cells
        | _ => Ok cells                                              (* a warning is printed *)
        end
    end
  else Ok cells.
Inductive op :=
| New (n : nat) (ints : list bool)     (* a new solver *)
| Clone (i : nat)                      (* the information is cloned with it *)
| SetOsi (i : nat)                     (* setAuxiliaryInfo(OsiBabSolver), by the set-up *)
| SetModel (i n : nat) (ints : list bool)  (* another problem is put into the solver *)
| Start (i : nat)                      (* branchAndBound, 110-122, on a set-up with continuous solver i: the search has a clone of i *)
| Solve (i : nat) (f : found).
Definition step (o : op) (s : st) : outcome st :=
  match o with
  | New n ints => Ok (mkSt (t_solvers s ++ [mkSolver Raw n ints]) (t_cells s))
  | Clone i => do v <- rd i (t_solvers s); Ok (mkSt (t_solvers s ++ [v]) (t_cells s))
  | SetOsi i => do v <- rd i (t_solvers s); do l <- lset i (mkSolver Osi (v_n v) (v_ints v)) (t_solvers s); Ok (mkSt l (t_cells s))
  | SetModel i n ints => do v <- rd i (t_solvers s); do l <- lset i (mkSolver (v_info v) n ints) (t_solvers s); Ok (mkSt l (t_cells s))
  | Start i =>
      do v <- rd i (t_solvers s);
      match v_info v with
      | Raw => AssertFail                                             (* 111 *)
      | Osi =>
          let v := mkSolver (Bon (length (t_cells s))) (v_n v) (v_ints v) in
          do l <- lset i v (t_solvers s); Ok (mkSt (l ++ [v]) (t_cells s ++ [mkCell [] PInf]))
      | Bon _ => Ok (mkSt (t_solvers s ++ [v]) (t_cells s))
      end
  | Solve i f => do v <- rd i (t_solvers s); do l <- record_solve v f (t_cells s); Ok (mkSt (t_solvers s) l)
  end.
Fixpoint exec (ops : list op) (s : st) : outcome st :=
  match ops with [] => Ok s | o :: ops => do s <- step o s; exec ops s end.
Definition init : st := mkSt [] [].
(** End of the search, 632-639: what is reported for the second objective; [n]: columns of the nonlinear solver. *)
Definition report (i n : nat) (s : st) : outcome (option (list Q * ext)) :=
  do v <- rd i (t_solvers s);
  match v_info v with
  | Bon c => do e <- rd c (t_cells s);
             match e_x e with
             | [] => Ok None
             | _ => do _ <- chk (Nat.eqb (length (e_x e)) n); Ok (Some (e_x e, e_v e))
             end
  | _ => NullDeref
  end.

(** ** The slot for an NLP solution *)
Record slot := mkSlot { a_num : nat; a_arr : option (arr Q); a_obj : ext; a_has : bool }.
Definition slot_init : slot := mkSlot 0 None PInf false.
(** setNlpSolution, 78-92. *)
Definition setNlpSolution (sol : list Q) (n : nat) (v : Q) (a : slot) : outcome slot :=
  let arr0 := if Nat.ltb (a_num a) n then None else a_arr a in
  let '(num, arr1) := match arr0 with None => (n, fresh (S n)) | Some r => (a_num a, r) end in
  do _ <- (if Nat.leb n (length sol) then Ok tt else OutOfBounds);
  do arr2 <- ablit 0 (firstn n sol) arr1;
  do arr3 <- aset n v arr2;
  Ok (mkSlot num (Some arr3) (Fin v) (a_has a)).
Definition setHas (b : bool) (a : slot) : slot := mkSlot (a_num a) (a_arr a) (a_obj a) b.
(** The copy, 42-58. *)
Definition copy_slot (a : slot) : outcome slot :=
  match a_arr a with
  | None => Ok a
  | Some r => do _ <- chk (Nat.ltb 0 (a_num a));
              if Nat.leb (S (a_num a)) (length r) then Ok (mkSlot (a_num a) (Some (firstn (S (a_num a)) r)) (a_obj a) (a_has a)) else OutOfBounds
  end.
Definition nlpSolution (a : slot) : option (arr Q) := if a_has a then a_arr a else None.
Definition nlpObjValue (a : slot) : ext := if a_has a then a_obj a else PInf.
Inductive sop := Set_ (sol : list Q) (n : nat) (v : Q) | Has (b : bool) | Copy.
Definition sstep (o : sop) (a : slot) : outcome slot :=
  match o with Set_ sol n v => setNlpSolution sol n v a | Has b => Ok (setHas b a) | Copy => copy_slot a end.
Fixpoint sexec (ops : list sop) (a : slot) : outcome slot :=
  match ops with [] => Ok a | o :: ops => do a <- sstep o a; sexec ops a end.

(** ** Start of the search with enable_dynamic_nlp *)
Record dyn := mkDyn {
  d_on : bool;                 (* the option *)
  d_quad : bool;               (* the interface was made by the set-up itself: its problem accepts rows, 265-267 *)
  d_same : bool;               (* B-BB: the continuous solver is the nonlinear one *)
  d_linear : bool;             (* the user's objective is linear *)
  d_n : nat;                   (* the user's variables *)
  d_opt : bool;                (* the root relaxation is solved *)
  d_cuts : nat }.              (* cuts of the first generator *)
Definition wrapped (d : dyn) : bool := (d_on d && d_quad d && negb (d_linear d))%bool.
(** Columns of the set-up's nonlinear solver. *)
Definition nl_cols (d : dyn) : nat := if wrapped d then S (d_n d) else d_n d.
(** BonCbc 457-490.  Result: the columns of the search's solver, rows added. *)
Definition dyn_root (d : dyn) : outcome (nat * nat) :=
  if (d_same d && d_on d)%bool then
    if negb (d_opt d) then
      if wrapped d then Ok (d_n d, 0%nat) else NullDeref                (* 466-467 *)
    else
      do _ <- chk (d_quad d);                                           (* LinearCutsGenerator::initialize *)
      if Nat.eqb (d_cuts d) 0 then OutOfBounds else Ok (nl_cols d, d_cuts d)    (* 478: &mycuts[0] *)
  else Ok (nl_cols d, 0%nat).
(** 648-651: the search's solution, of length [n], copied at the end. *)
Definition final_copy (d : dyn) (best : list Q) : outcome (list Q) :=
  if Nat.leb (nl_cols d) (length best) then Ok (firstn (nl_cols d) best) else OutOfBounds.
