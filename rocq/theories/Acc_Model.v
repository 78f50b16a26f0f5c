(** The NLP interface seen as an Osi solver:
    src/Interfaces/BonOsiTMINLPInterface.cpp 785-824 (caches), 1130-1265 (rows and columns),
    1264-1350 (points), 1395-1430 (setColSolution, setRowPrice), 1441-1536 (warm starts),
    1545-1680 (parameters), 1838-1877 (violations), 3097-3116 (getObjCoefficients),
    3120-3124 (use), and BonOsiTMINLPInterface.hpp 689-694, 1023-1045 (rows added, removed).
    The problem object underneath is that of Prob_Model.v.

    Simplifications: a pointer to an array is the list of the values read through it
    (reading an empty vector is [OutOfBounds]); variable types are not followed; the
    reduced costs (always 0) are left out. *)
From Verif Require Import Base Arr Nlp Prob_Model.
#[local] Open Scope Q_scope.

(** ** Row senses *)
Inductive sense := sE | sL | sG | sR | sN.
(** OsiSolverInterface::convertBoundToSense (Osi, outside the repository): [right] and
    [range] start at 0 here, line 1147 clears the range. *)
Definition eminus (u l : ext) : ext :=
  match u, l with
  | Fin a, Fin b => Fin (a - b)
  | MInf, _ | _, PInf => MInf
  | PInf, _ | _, MInf => PInf
  end.
Definition eeqb (a b : ext) : bool :=
  match a, b with Fin x, Fin y => Qeq_bool x y | MInf, MInf | PInf, PInf => true | _, _ => false end.
Definition convertBoundToSense (l u : ext) : sense * ext * ext :=
  match l, u with
  | MInf, PInf => (sN, Fin 0, Fin 0)
  | MInf, _ => (sL, u, Fin 0)
  | _, PInf => (sG, l, Fin 0)
  | _, _ => if eeqb u l then (sE, u, Fin 0) else (sR, u, eminus u l)
  end.

(** ** The interface, BonOsiTMINLPInterface.hpp 1177-1250 *)
Record itf := mkI {
  i_p : prob;                      (* problem_ *)
  i_opt : bool;                    (* hasBeenOptimized_ *)
  i_sense : option (list sense);   (* rowsense_; None: NULL *)
  i_rhs : option (list ext);       (* rhs_ *)
  i_rng : option (list ext)        (* rowrange_ *)
}.
(** Constructor, 370-410. *)
Definition mk_itf (P : nlp) : itf := mkI (mk_prob P) false None None None.
(** freeCachedRowRim, 797-817. *)
Definition freeCachedRowRim (s : itf) : itf := mkI (i_p s) (i_opt s) None None None.
(** extractSenseRhsAndRange, 1136-1150. *)
Fixpoint senses (gl gu : list ext) : list (sense * ext * ext) :=
  match gl, gu with
  | l :: gl, u :: gu => convertBoundToSense l u :: senses gl gu
  | _, _ => []
  end.
Definition extract (s : itf) : outcome itf :=
  match i_sense s, i_rhs s, i_rng s with
  | None, None, None =>
      if Nat.eqb (num_constraints (i_p s)) 0 then Ok s
      else let t := senses (b_gl (i_p s)) (b_gu (i_p s)) in
           Ok (mkI (i_p s) (i_opt s) (Some (map (fun x => fst (fst x)) t))
                   (Some (map (fun x => snd (fst x)) t)) (Some (map snd t)))
  | _, _, _ => AssertFail
  end.
(** getRowSense, getRightHandSide, getRowRange, 1161-1203. *)
Definition getRowSense (s : itf) : outcome (option (list sense) * itf) :=
  do s <- match i_sense s with None => extract s | Some _ => Ok s end; Ok (i_sense s, s).
Definition getRightHandSide (s : itf) : outcome (option (list ext) * itf) :=
  do s <- match i_rhs s with None => extract s | Some _ => Ok s end; Ok (i_rhs s, s).
Definition getRowRange (s : itf) : outcome (option (list ext) * itf) :=
  do s <- match i_rng s with None => extract s | Some _ => Ok s end; Ok (i_rng s, s).

(** ** Points *)
(** getColSolution, 1263-1270. *)
Definition getColSolution (s : itf) : outcome (list Q) :=
  let n := num_variables (i_p s) in
  if i_opt s then vread 0 n (mkVec 0 0 (b_xs (i_p s))) else vread 0 n (b_xi (i_p s)).
(** getRowPrice, 1273-1280: the array holds the bound multipliers and the row multipliers. *)
Definition getRowPrice (s : itf) : outcome (list Q) :=
  let k := (2 * num_variables (i_p s) + num_constraints (i_p s))%nat in
  if i_opt s then vread 0 k (mkVec 0 0 (b_ds (i_p s)))
  else match b_di (i_p s) with
       | None => NullDeref
       | Some p => pread p 0 k (b_xi (i_p s))
       end.
(** getRowActivity, 1296-1300, and getObjValue, 1553-1557. *)
Definition getRowActivity (s : itf) : outcome (list Q) :=
  vread 0 (num_constraints (i_p s)) (mkVec 0 0 (b_gs (i_p s))).
Definition getObjValue (s : itf) : option Q := b_obj (i_p s).
(** getObjCoefficients, 3097-3116: the gradient at x_sol(). *)
Definition getObjCoefficients (s : itf) : outcome (list Q) :=
  do x <- vread 0 (num_variables (i_p s)) (mkVec 0 0 (b_xs (i_p s)));
  Ok (p_gf (b_P (i_p s)) x).

(** ** Calls that change the interface *)
Inductive iop :=
| ISense | IRhs | IRange                               (* the three queries of the row cache *)
| ISolve (x g zL zU lam : list Q) (ob : Q) (viol : option Q)   (* 2609-2619: the solver finishes *)
| ISetCol (x : list Q) (ex : nat) | IClearCol          (* setColSolution, 1402-1410 *)
| ISetPrice (d : list Q) (ex : nat)                    (* setRowPrice, 1422-1427 *)
| ILow (i : nat) (l : ext) | IUp (i : nat) (u : ext)   (* 1315-1330 *)
| ILows (l : list ext) | IUps (u : list ext)           (* 1334-1350 *)
| ITouch                                               (* setContinuous, setInteger 1539-1551;
                                                          internal_setWarmStart 1507-1536 *)
| IAdd (gl gu : list ext) (ex : nat)                   (* applyRowCuts, applyCuts *)
| IDel (gl gu : list ext)                              (* deleteRows, some rows; what remains *)
| IUse (p : prob).                                     (* use, 3120-3124 *)
Definition on_prob (opt : bool) (s : itf) (r : outcome prob) : outcome itf :=
  do p <- r; Ok (mkI p opt (i_sense s) (i_rhs s) (i_rng s)).
Definition istep (o : iop) (s : itf) : outcome itf :=
  match o with
  | ISense => do ' (_, s) <- getRowSense s; Ok s
  | IRhs => do ' (_, s) <- getRightHandSide s; Ok s
  | IRange => do ' (_, s) <- getRowRange s; Ok s
  | ISolve x g zL zU lam ob v => on_prob true s (finalize_solution x g (Some (zL, zU, lam)) ob v (i_p s))
  | ISetCol x ex => on_prob false s (setxInit x ex (i_p s))
  | IClearCol => on_prob false s (Ok (resetStartingPoint (i_p s)))
  | ISetPrice d ex => on_prob false s (setDualsInit d ex (i_p s))
  | ILow i l => on_prob false s (SetVariableLowerBound i l (i_p s))
  | IUp i u => on_prob false s (SetVariableUpperBound i u (i_p s))
  | ILows l => on_prob false s (SetVariablesLowerBounds l (i_p s))
  | IUps u => on_prob false s (SetVariablesUpperBounds u (i_p s))
  | ITouch => on_prob false s (Ok (i_p s))
  | IAdd gl gu ex =>
      let s := match gl with [] => s | _ => freeCachedRowRim s end in   (* hpp 1042, cpp 2596 *)
      on_prob (i_opt s) s (Ok (add_rows gl gu ex (i_p s)))
  | IDel gl gu => let s := freeCachedRowRim s in                        (* hpp 691-693 *)
      on_prob (i_opt s) s (Ok (del_rows gl gu (i_p s)))
  | IUse p => on_prob (i_opt s) s (Ok p)
  end.
(** Newest call first, as in Prob_Model.v. *)
Fixpoint irun_from (s : itf) (h : list iop) : outcome itf :=
  match h with [] => Ok s | o :: h => do s <- irun_from s h; istep o s end.
Definition irun (P : nlp) (h : list iop) : outcome itf := irun_from (mk_itf P) h.

(** ** The basis made up for the rows: build_fake_basis, 1467-1491 *)
Inductive bstat := bFree | bBasic | bUpper | bLower.
Definition eps4 : Q := 1 # 10000.
(** a > u - eps,  a < l + eps  and  l > u - eps for extended bounds *)
Definition above_up (a : Q) (u : ext) : bool :=
  match u with PInf => false | Fin q => Qltb (q - eps4) a | MInf => true end.
Definition below_lo (a : Q) (l : ext) : bool :=
  match l with MInf => false | Fin q => Qltb a (q + eps4) | PInf => true end.
(** The status set by lines 1476-1478 is always replaced by one of 1479-1487. *)
Definition row_status (l u : ext) (a : Q) : bstat :=
  if above_up a u then bLower else if below_lo a l then bLower else bBasic.
Fixpoint fake_rows (gl gu : list ext) (i : nat) (act : list Q) : outcome (list bstat) :=
  match gl, gu with
  | l :: gl, u :: gu => do a <- rd i act; do r <- fake_rows gl gu (S i) act; Ok (row_status l u a :: r)
  | _, _ => Ok []
  end.
Definition build_fake_basis (s : itf) : outcome (list bstat) :=
  fake_rows (b_gl (i_p s)) (b_gu (i_p s)) 0 (b_gs (i_p s)).

(** ** Real parameters, 1595-1628 and 1683-1717 *)
Inductive dblkey := DualObjLimit | PrimalObjLimit | DualTol | PrimalTol | ObjOffset.
(** OsiDualObjectiveLimit_ and the values stored by the base class. *)
Record params := mkPar { q_limit : Q; q_base : dblkey -> Q }.
Definition key_eqb (a b : dblkey) : bool :=
  match a, b with
  | DualObjLimit, DualObjLimit | PrimalObjLimit, PrimalObjLimit | DualTol, DualTol
  | PrimalTol, PrimalTol | ObjOffset, ObjOffset => true | _, _ => false end.
(** OsiSolverInterface::setDblParam stores the value and returns true. *)
Definition base_set (k : dblkey) (v : Q) (p : params) : params :=
  mkPar (q_limit p) (fun k' => if key_eqb k' k then v else q_base p k').
Definition setDblParam (k : dblkey) (v : Q) (p : params) : bool * params :=
  match k with
  | DualObjLimit => (true, mkPar v (q_base p))
  | PrimalObjLimit => (false, p)
  | DualTol => (false, p)
  | PrimalTol => (true, base_set k v p)      (* 1613-1617: no break, falls into the next case *)
  | ObjOffset => (true, base_set k v p)
  end.
(** None: false is returned.  COIN_DBL_MAX is PInf. *)
Definition getDblParam (k : dblkey) (p : params) : option ext :=
  match k with
  | DualObjLimit => Some (Fin (q_limit p))
  | PrimalObjLimit => Some PInf
  | DualTol => None
  | PrimalTol => Some (Fin (1 # 10000000))
  | ObjOffset => Some (Fin (q_base p ObjOffset))
  end.

(** ** Violations, 1838-1877 *)
Definition big : Q := 10000000000.
Definition row_viol (l u : ext) (g : Q) : Q :=
  let v := match l with Fin q => if Qltb (- big) q then qmax 0 (q - g) else 0 | _ => 0 end in
  match u with Fin q => if Qltb q big then qmax v (g - q) else v | _ => v end.
(** An infinite lower bound of +infinity passes the test > -1e10; see [proper_rows] in the
    specification.  [ct]: constTypes_, true: linear. *)
Fixpoint viol_loop (gl gu : list ext) (i : nat) (ct : option (list bool)) (g : arr Q) (norm : Q) : outcome Q :=
  match gl, gu with
  | l :: gl, u :: gu =>
      do lin <- match ct with None => Ok false | Some t => rd i t end;
      if (lin : bool) then viol_loop gl gu (S i) ct g norm
      else do v <- aget i g;
           viol_loop gl gu (S i) ct g (if Qltb norm (row_viol l u v) then row_viol l u v else norm)
  | _, _ => Ok norm
  end.
(** getConstraintsViolation, 1838-1865: the array has one cell per row, the user's problem
    fills those of its own rows. *)
Definition getConstraintsViolation (ct : option (list bool)) (x : list Q) (s : itf) : outcome (Q * Q) :=
  let P := b_P (i_p s) in
  do g <- ablit 0 (p_g P x) (fresh (num_constraints (i_p s)));
  do v <- viol_loop (b_gl (i_p s)) (b_gu (i_p s)) 0 ct g 0;
  Ok (v, p_f P x).
(** getNonLinearitiesViolation, 1868-1876. *)
Definition getNonLinearitiesViolation (ct : option (list bool)) (x : list Q) (obj : Q) (s : itf) : outcome Q :=
  do ' (norm, f) <- getConstraintsViolation ct x s;
  do _ <- chk (Qltb (- (1 # 100000000)) (f - obj));
  Ok (if Qltb norm (f - obj) then f - obj else norm).

(** ** Warm starts, 1441-1463 and 1493-1536 *)
Section Warm.
Variable W : Type.
Variable empty : W.                 (* getEmptyWarmStart *)
Variable basis : W.                 (* build_fake_basis *)
Variable valid : W -> bool.         (* warmStartIsValid *)
Variable pd : W -> option W.        (* dynamic_cast to a primal-dual warm start, as a new IpoptWarmStart *)
(** WarmStartModes, hpp: None, FakeBasis, Optimum, InteriorPoint. *)
Inductive wmode := WNone | WFake | WOptimum.
Definition getWarmStart (m : wmode) (stored : option W) : W :=
  match m with
  | WOptimum => match stored with Some w => w | None => empty end
  | WFake => basis
  | WNone => empty
  end.
(** Returns (accepted, warmstart_ afterwards, hasBeenOptimized_ cleared). *)
Definition setWarmStart (m : wmode) (ws : option W) (stored : option W) : bool * option W * bool :=
  match m with
  | WOptimum =>
      match ws with
      | None => (true, None, true)
      | Some w => if valid w then (true, Some w, true)
                  else match pd w with Some w' => (true, Some w', true) | None => (false, None, true) end
      end
  | _ => (true, stored, false)
  end.
End Warm.
