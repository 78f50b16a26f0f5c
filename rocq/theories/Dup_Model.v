(** The objects behind an OsiTMINLPInterface: which problem object is solved, whose bounds are reported, whose
    Jacobian the cuts are made of, over any history of new problems, copies, assignments, switches to the
    feasibility problem and back, and strong branching.
    src/Interfaces/BonOsiTMINLPInterface.cpp.
    Objects behind smart pointers are entries of lists that only grow (nothing that is still used is freed).
    Simplifications: of a problem object (TMINLP2TNLP) only the user's problem it is made of, the variable bounds
    and the last solution are kept; the NLP solvers are functions given with each solve (what each of them answers);
    options, statistics, messages, names and the cached row information are left out; a user's linearizer is
    represented by the problem object it was given. *)
From Verif Require Import Base Arr Nlp FP_Model.
#[local] Open Scope Q_scope.

(** A TMINLP2TNLP object: BonTMINLP2TNLP.cpp 30-110 (constructor). *)
Record prob := mkProb { q_user : nat; q_lo : list ext; q_up : list ext; q_sol : list Q }.
(** Members of the interface, BonOsiTMINLPInterface.hpp 1140-1330.  [i_opt] is problem_to_optimize_: the problem
    object or the feasibility problem.  [i_pat], [i_nnz]: jRow_/jCol_ (shifted to start at 0) and nnz_jac;
    [i_types]: constTypes_ (true: linear); [i_nonlin]: nNonLinear_.
    [i_rep]: the problem that the status reported belongs to (not a member, kept to state properties). *)
Inductive tgt := TProb (k : nat) | TFp (k : nat).
Record pose := mkPose { o_user : nat; o_lo : list ext; o_up : list ext; o_fp : option fp }.
Record ifc := mkIfc {
  i_user : option nat; i_prob : option nat; i_fp : option nat; i_opt : option tgt; i_mode : bool;
  i_lin : option nat; i_sbs : option nat;
  i_nnz : nat; i_pat : option (list (nat * nat)); i_types : option (list bool); i_nonlin : nat;
  i_done : bool; i_rep : option pose }.
(** [s_fps]: the TNLP2FPNLP objects with the problem object they wrap; [s_lins]: the problem object each linearizer was given;
    [s_sbs]: the problem object a strong-branching solver is set up for. *)
Record st := mkSt { s_probs : list prob; s_fps : list (nat * fp); s_lins : list nat; s_sbs : list (option pose); s_ifs : list ifc }.

Section S.
(** The user's problems. *)
Variable U : nat -> nlp.

Definition upd {A} (i : nat) (a : A) (l : list A) : list A := firstn i l ++ a :: skipn (S i) l.
Definition wprobs (v : list prob) (s : st) := mkSt v (s_fps s) (s_lins s) (s_sbs s) (s_ifs s).
Definition wfps (v : list (nat * fp)) (s : st) := mkSt (s_probs s) v (s_lins s) (s_sbs s) (s_ifs s).
Definition wlins (v : list nat) (s : st) := mkSt (s_probs s) (s_fps s) v (s_sbs s) (s_ifs s).
Definition wsbs (v : list (option pose)) (s : st) := mkSt (s_probs s) (s_fps s) (s_lins s) v (s_ifs s).
Definition wifs (v : list ifc) (s : st) := mkSt (s_probs s) (s_fps s) (s_lins s) (s_sbs s) v.
Definition put (i : nat) (x : ifc) (s : st) : st := wifs (upd i x (s_ifs s)) s.

(** A new problem object for the user's problem [u]. *)
Definition fresh_prob (u : nat) : prob := mkProb u (p_xl (U u)) (p_xu (U u)) [].
(** Constructor of TNLP2FPNLP, BonTNLP2FPNLP.cpp 17-31. *)
Definition fp0 : fp := mkFp [] [] 1 1 2 100 false false false PInf PInf.
(** The default constructor, BonOsiTMINLPInterface.cpp 366-428. *)
Definition if0 : ifc := mkIfc None None None None false None None 0 None None 0 false None.
Definition init : st := mkSt [] [] [] [] [].

(** Dereferencing. *)
Definition deref {A} (k : option nat) (l : list A) : outcome A :=
  match k with None => NullDeref | Some k => rd k l end.
(** What is handed to the NLP solver: the object pointed to by problem_to_optimize_. *)
Definition posed (s : st) (x : ifc) : outcome pose :=
  match i_opt x with
  | None => NullDeref
  | Some (TProb k) => do q <- rd k (s_probs s); Ok (mkPose (q_user q) (q_lo q) (q_up q) None)
  | Some (TFp k) => do f <- rd k (s_fps s); do q <- rd (fst f) (s_probs s); Ok (mkPose (q_user q) (q_lo q) (q_up q) (Some (snd f)))
  end.
(** Where the solution of a solve is stored: finalize_solution of the object, passed on by TNLP2FPNLP. *)
Definition sink (s : st) (t : tgt) : outcome nat :=
  match t with TProb k => Ok k | TFp k => do f <- rd k (s_fps s); Ok (fst f) end.
Definition store (k : nat) (x : list Q) (s : st) : outcome st :=
  do q <- rd k (s_probs s); Ok (wprobs (upd k (mkProb (q_user q) (q_lo q) (q_up q) x) (s_probs s)) s).

(** setModel, 498-512.  The linearizer and the Jacobian arrays stay. *)
Definition setModel (i u : nat) (s : st) : outcome st :=
  do x <- rd i (s_ifs s);
  let k := length (s_probs s) in let f := length (s_fps s) in
  let t := if i_mode x then TFp f else TProb k in
  Ok (put i (mkIfc (Some u) (Some k) (Some f) (Some t) (i_mode x) (i_lin x) (i_sbs x) (i_nnz x) (i_pat x) (i_types x) (i_nonlin x) (i_done x) (i_rep x))
       (wfps (s_fps s ++ [(k, fp0)]) (wprobs (s_probs s ++ [fresh_prob u]) s))).
(** use, 3119-3123, with a new problem object (BonBabSetupBase.cpp 264). *)
Definition use (i u : nat) (s : st) : outcome st :=
  do x <- rd i (s_ifs s);
  let k := length (s_probs s) in
  match i_fp x with
  | None => NullDeref
  | Some f => do r <- rd f (s_fps s);
      Ok (put i (mkIfc (i_user x) (Some k) (i_fp x) (Some (TProb k)) (i_mode x) (i_lin x) (i_sbs x) (i_nnz x) (i_pat x) (i_types x) (i_nonlin x) (i_done x) (i_rep x))
           (wfps (upd f (k, snd r) (s_fps s)) (wprobs (s_probs s ++ [fresh_prob u]) s)))
  end.
(** setColLower, setColUpper: BonTMINLP2TNLP.cpp 304-336. *)
Definition setColBounds (i j : nat) (lo up : ext) (s : st) : outcome st :=
  do x <- rd i (s_ifs s); do q <- deref (i_prob x) (s_probs s);
  match i_prob x with
  | None => NullDeref
  | Some k => do l <- lset j lo (q_lo q); do u <- lset j up (q_up q);
              Ok (wprobs (upd k (mkProb (q_user q) l u (q_sol q)) (s_probs s)) s)
  end.
(** set_dist_to_point_obj and the setters with their asserts, BonTNLP2FPNLP.hpp 75-97. *)
Definition fp_pump (inds : list nat) (vals : list Q) (a s : Q) (L : nat) (cut : option Q) (f : fp) : outcome fp :=
  if (Qle_bool 0 a && Qle_bool a 1 && Qle_bool 0 s && Nat.ltb 0 L && Nat.ltb L 3)%bool then
    Ok (mkFp inds vals a s L (f_scale f) true (match cut with Some _ => true | None => false end) false
          (match cut with Some c => Fin (fp_cutoff c) | None => f_cutoff f end) (f_rhs f))
  else AssertFail.
Definition fp_local (inds : list nat) (vals : list Q) (rhs : Q) (f : fp) : outcome fp :=
  if Qle_bool 0 rhs then Ok (mkFp inds vals (f_lam f) (f_sig f) (f_norm f) (f_scale f) false false true (f_cutoff f) (Fin rhs)) else AssertFail.
Definition set_opt (t : option tgt) (m : bool) (x : ifc) : ifc :=
  mkIfc (i_user x) (i_prob x) (i_fp x) t m (i_lin x) (i_sbs x) (i_nnz x) (i_pat x) (i_types x) (i_nonlin x) (i_done x) (i_rep x).
(** The two switchToFeasibilityProblem, 2277-2308. *)
Definition switchTo (i : nat) (g : fp -> outcome fp) (s : st) : outcome st :=
  do x <- rd i (s_ifs s);
  match i_fp x with
  | None => Thrown
  | Some f => do r <- rd f (s_fps s); do p <- g (snd r);
              Ok (put i (set_opt (Some (TFp f)) true x) (wfps (upd f (fst r, p) (s_fps s)) s))
  end.
Definition switchToPump (i : nat) inds vals a sg L := switchTo i (fp_pump inds vals a sg L None).
Definition switchToLocal (i : nat) inds vals rhs := switchTo i (fp_local inds vals rhs).
(** switchToOriginalProblem, 2310-2314. *)
Definition switchToOriginal (i : nat) (s : st) : outcome st :=
  do x <- rd i (s_ifs s);
  Ok (put i (set_opt (match i_prob x with Some k => Some (TProb k) | None => None end) false x) s).
Definition report (p : pose) (x : ifc) : ifc :=
  mkIfc (i_user x) (i_prob x) (i_fp x) (i_opt x) (i_mode x) (i_lin x) (i_sbs x) (i_nnz x) (i_pat x) (i_types x) (i_nonlin x) true (Some p).
(** The two solveFeasibilityProblem, 2316-2362.  [sol]: the point found. *)
Definition solveFeasibility (i : nat) (inds : list nat) (vals : list Q) (a sg : Q) (L : nat) (cut : option Q) (sol : list Q) (s : st) : outcome st :=
  do x <- rd i (s_ifs s);
  match i_fp x with
  | None => Thrown
  | Some f => do r <- rd f (s_fps s); do p <- fp_pump inds vals a sg L cut (snd r);
              do q <- rd (fst r) (s_probs s);
              do s' <- store (fst r) sol (wfps (upd f (fst r, p) (s_fps s)) s);
              Ok (put i (report (mkPose (q_user q) (q_lo q) (q_up q) (Some p)) x) s')
  end.
(** solveAndCheckErrors, 2607-2684, inside initialSolve and resolve (asserts of 2795-2796 and 2863-2864).
    An answer is whether the solver ended with an error and the point it stores.  The first answer is that of the main solver;
    the others are those of the solvers tried after an error, on problem_ (2674-2684). *)
Definition answer := (bool * list Q)%type.
Fixpoint others (k : nat) (l : list answer) (s : st) : outcome (option pose * st) :=
  match l with
  | [] => Ok (None, s)
  | (e, sol) :: l' =>
      do q <- rd k (s_probs s); do s' <- store k sol s;
      if e then match others k l' s' with Ok (Some p, s'') => Ok (Some p, s'') | Ok (None, s'') => Ok (Some (mkPose (q_user q) (q_lo q) (q_up q) None), s'') | r => r end
      else Ok (Some (mkPose (q_user q) (q_lo q) (q_up q) None), s')
  end.
Definition solve (i : nat) (a : answer) (l : list answer) (s : st) : outcome st :=
  do x <- rd i (s_ifs s);
  match i_prob x, i_opt x with
  | None, _ => AssertFail
  | _, None => NullDeref
  | Some k, Some t =>
      do p <- posed s x; do d <- sink s t; do s1 <- store d (snd a) s;
      if fst a then do ' (r, s2) <- others k l s1; Ok (put i (report (match r with Some p' => p' | None => p end) x) s2)
      else Ok (put i (report p x) s1)
  end.
(** set_linearizer, 1734-1740. *)
Definition setLinearizer (i : nat) (s : st) : outcome st :=
  do x <- rd i (s_ifs s);
  match i_prob x with
  | None => NullDeref
  | Some k => Ok (put i (mkIfc (i_user x) (i_prob x) (i_fp x) (i_opt x) (i_mode x) (Some (length (s_lins s))) (i_sbs x)
                           (i_nnz x) (i_pat x) (i_types x) (i_nonlin x) (i_done x) (i_rep x)) (wlins (s_lins s ++ [k]) s))
  end.
(** setStrongBrachingSolver (BonOsiTMINLPInterface.hpp 1085), with a new solver. *)
Definition setStrong (i : nat) (s : st) : outcome st :=
  do x <- rd i (s_ifs s);
  Ok (put i (mkIfc (i_user x) (i_prob x) (i_fp x) (i_opt x) (i_mode x) (i_lin x) (Some (length (s_sbs s)))
               (i_nnz x) (i_pat x) (i_types x) (i_nonlin x) (i_done x) (i_rep x)) (wsbs (s_sbs s ++ [None]) s)).
(** markHotStart and unmarkHotStart with a solver by quadratic programs: 3039-3055, 3080-3095,
    BonQpBranchingSolver.cpp 51-55, 84-93.  The quadratic model is made of problem(), as it is now. *)
Definition markHotStart (i : nat) (s : st) : outcome st :=
  do x <- rd i (s_ifs s);
  match i_sbs x with
  | None => Ok s
  | Some b => do q <- deref (i_prob x) (s_probs s); do o <- rd b (s_sbs s);
              Ok (wsbs (upd b (Some (mkPose (q_user q) (q_lo q) (q_up q) None)) (s_sbs s)) s)
  end.
Definition unmarkHotStart (i : nat) (s : st) : outcome st :=
  do x <- rd i (s_ifs s);
  match i_sbs x with None => Ok s | Some b => do o <- rd b (s_sbs s); Ok (wsbs (upd b None (s_sbs s)) s) end.
(** The problem whose model is solved by solveFromHotStart (3057-3078, BonQpBranchingSolver.cpp 96-104). *)
Definition trial (s : st) (x : ifc) : outcome pose :=
  match i_sbs x with
  | None => posed s x                              (* default of Osi: resolve *)
  | Some b => do o <- rd b (s_sbs s); match o with None => NullDeref | Some p => Ok p end
  end.
(** Copy constructor, 535-626. *)
Definition copy (i : nat) (s : st) : outcome st :=
  do x <- rd i (s_ifs s);
  match i_user x with
  | None => Thrown
  | Some _ =>
      do q <- deref (i_prob x) (s_probs s); do f <- deref (i_fp x) (s_fps s);
      let k := length (s_probs s) in let h := length (s_fps s) in
      let t := if i_mode x then TFp h else TProb k in
      Ok (wifs (s_ifs s ++ [mkIfc (i_user x) (Some k) (Some h) (Some t) (i_mode x) None (i_sbs x) (i_nnz x) None None 0 (i_done x) None])
           (wfps (s_fps s ++ [(k, snd f)]) (wprobs (s_probs s ++ [q]) s)))
  end.
(** Assignment, 637-752; [j] is the right-hand side. *)
Definition assign (i j : nat) (s : st) : outcome st :=
  do x <- rd i (s_ifs s); do y <- rd j (s_ifs s);
  if Nat.eqb i j then Ok s else
  match i_user y with
  | None => Ok (put i (mkIfc None None None (i_opt x) (i_mode x) (i_lin x) (i_sbs y) (i_nnz x) (i_pat x) (i_types x) (i_nonlin x) (i_done y) None) s)
  | Some u =>
      let k := length (s_probs s) in let h := length (s_fps s) in
      do types <- (match i_types y with
                   | None => Ok None
                   | Some l => if Nat.leb (p_m (U u)) (length l) then Ok (Some (firstn (p_m (U u)) l)) else OutOfBounds
                   end);
      do pat <- (match i_pat y with
                 | Some l => if Nat.ltb 0 (i_nnz y) then
                               if Nat.leb (i_nnz y) (length l) then Ok (Some (firstn (i_nnz y) l)) else OutOfBounds
                             else Ok (i_pat x)
                 | None => if Nat.ltb 0 (i_nnz y) then Thrown else Ok (i_pat x)
                 end);
      Ok (put i (mkIfc (Some u) (Some k) (Some h) (Some (TProb k)) (i_mode x) (i_lin x) (i_sbs y) (i_nnz y) pat types (i_nonlin x) (i_done y) None)
           (wfps (s_fps s ++ [(k, fp0)]) (wprobs (s_probs s ++ [fresh_prob u]) s)))
  end.
(** getColLower, getColUpper, 1113-1123. *)
Definition bounds (s : st) (x : ifc) : outcome (list ext * list ext) :=
  do q <- deref (i_prob x) (s_probs s); Ok (q_lo q, q_up q).
(** getColSolution, 1263-1270; x_init() before any solve is the user's point if nothing else was set. *)
Definition point (s : st) (x : ifc) : outcome (list Q) :=
  do q <- deref (i_prob x) (s_probs s); Ok (if i_done x then q_sol q else p_x0 (U (q_user q))).
(** The problem that getOuterApproximation and extractLinearRelaxation are about with a user's linearizer (1928-1931, 2382-2385). *)
Definition linearized (s : st) (x : ifc) : outcome pose :=
  match i_lin x with
  | Some l => do k <- rd l (s_lins s); do q <- rd k (s_probs s); Ok (mkPose (q_user q) (q_lo q) (q_up q) None)
  | None => posed s x
  end.

(** ** The Jacobian arrays *)
(** get_nlp_info and the Jacobian structure of what is optimized, BonTNLP2FPNLP.cpp 101-135, 259-380. *)
Definition rows_of (p : pose) : nat := (p_m (U (o_user p)) + match o_fp p with Some f => b2n (f_cut f) + b2n (f_lb f) | None => 0 end)%nat.
Definition pattern (p : pose) : list (nat * nat) :=
  let P := U (o_user p) in
  let base := map (fun rc => (fst rc - p_off P, snd rc - p_off P)%nat) (p_jst P) in
  match o_fp p with
  | None => base
  | Some f =>
      base ++ (if f_cut f then map (fun c => (p_m P, c)) (seq 0 (p_n P)) else [])
           ++ (if f_lb f then map (fun c => (p_m P + b2n (f_cut f), c)%nat) (f_inds f) else [])
  end.
(** get_constraints_linearity called with the number of rows of problem_ (1824-1825, BonTNLP2FPNLP.hpp 165-179):
    the extra rows take the places of the last rows.  Writing before the array is out of bounds. *)
Definition linearity (p : pose) (m : nat) : outcome (list bool) :=
  let L := firstn m (p_lin (U (o_user p))) in
  match o_fp p with
  | None => Ok L
  | Some f =>
      let e := ((if f_cut f then [false] else []) ++ (if f_lb f then [true] else []))%list in
      if Nat.ltb m (length e) then OutOfBounds
      else Ok (firstn (m - length e) L ++ rev e)
  end.
(** initializeJacobianArrays, 1799-1834. *)
Definition initJac (i : nat) (s : st) : outcome st :=
  do x <- rd i (s_ifs s); do p <- posed s x; do q <- deref (i_prob x) (s_probs s);
  do t <- linearity p (p_m (U (q_user q)));
  let J := pattern p in
  Ok (put i (mkIfc (i_user x) (i_prob x) (i_fp x) (i_opt x) (i_mode x) (i_lin x) (i_sbs x) (length J) (Some J) (Some t)
               (i_nonlin x + length (filter negb t)) (i_done x) (i_rep x)) s).
(** getOuterApproximation, 1921-1998: what the cuts are made of (positions of the coefficients and types of the rows), and the
    sizes of the arrays that are used.  With a linearizer the cuts are those of its own problem. *)
Record cutdata := mkCd { d_pat : list (nat * nat); d_types : list bool }.
Definition outerApproximation (i : nat) (s : st) : outcome (cutdata * st) :=
  do x <- rd i (s_ifs s);
  match i_lin x with
  | Some _ => do p <- linearized s x; Ok (mkCd (pattern p) (p_lin (U (o_user p))), s)
  | None =>
  do p <- posed s x;
  do s1 <- (match i_pat x with Some _ => Ok s | None => initJac i s end);
  do y <- rd i (s_ifs s1);
  match i_pat y, i_types y with
  | Some J, Some t =>
      let nnz := length (pattern p) in
      if Nat.ltb (length J) nnz then OutOfBounds                       (* eval_jac_g into jValues_, 1940 *)
      else if Nat.ltb (length t) (rows_of p) then OutOfBounds          (* constTypes_[rowIdx], 1957 *)
      else let t' := firstn (rows_of p) t in
        if Nat.ltb (i_nonlin y + 1) (length (filter negb t')) then OutOfBounds   (* lb[numCuts], 1959-1962 *)
        else if existsb (fun rc => Nat.leb (rows_of p) (fst rc)) (firstn nnz J) then OutOfBounds (* row2cutIdx[rowIdx], 1983 *)
        else Ok (mkCd (firstn nnz J) t', s1)
  | _, _ => NullDeref
  end
  end.
(** extractLinearRelaxation, 2377-2421: the arrays are made anew, then assert(m==getNumRows()). *)
Definition linearRelaxation (i : nat) (s : st) : outcome (cutdata * st) :=
  do x <- rd i (s_ifs s);
  match i_lin x with
  | Some _ => do p <- linearized s x; Ok (mkCd (pattern p) (p_lin (U (o_user p))), s)
  | None =>
  do p <- posed s x; do q <- deref (i_prob x) (s_probs s);
  do s1 <- initJac i s; do y <- rd i (s_ifs s1);
  match i_pat y, i_types y with
  | Some J, Some t => if Nat.eqb (rows_of p) (p_m (U (q_user q))) then Ok (mkCd J t, s1) else AssertFail
  | _, _ => NullDeref
  end
  end.

(** ** Histories *)
Inductive op :=
| New | SetModel (i u : nat) | Use (i u : nat) | SetBounds (i j : nat) (lo up : ext)
| ToPump (i : nat) (inds : list nat) (vals : list Q) (a sg : Q) (L : nat)
| ToLocal (i : nat) (inds : list nat) (vals : list Q) (rhs : Q)
| ToOriginal (i : nat)
| SolveF (i : nat) (inds : list nat) (vals : list Q) (a sg : Q) (L : nat) (cut : option Q) (sol : list Q)
| Solve (i : nat) (a : answer) (l : list answer)
| SetLin (i : nat) | SetStrong (i : nat) | Mark (i : nat) | Unmark (i : nat)
| Copy (i : nat) | Assign (i j : nat) | Cuts (i : nat) | Relax (i : nat).
Definition exec (o : op) (s : st) : outcome st :=
  match o with
  | New => Ok (wifs (s_ifs s ++ [if0]) s)
  | SetModel i u => setModel i u s
  | Use i u => use i u s
  | SetBounds i j lo up => setColBounds i j lo up s
  | ToPump i inds vals a sg L => switchToPump i inds vals a sg L s
  | ToLocal i inds vals rhs => switchToLocal i inds vals rhs s
  | ToOriginal i => switchToOriginal i s
  | SolveF i inds vals a sg L cut sol => solveFeasibility i inds vals a sg L cut sol s
  | Solve i a l => solve i a l s
  | SetLin i => setLinearizer i s
  | SetStrong i => setStrong i s
  | Mark i => markHotStart i s
  | Unmark i => unmarkHotStart i s
  | Copy i => copy i s
  | Assign i j => assign i j s
  | Cuts i => do ' (_, s') <- outerApproximation i s; Ok s'
  | Relax i => do ' (_, s') <- linearRelaxation i s; Ok s'
  end.
Fixpoint execs (l : list op) (s : st) : outcome st :=
  match l with [] => Ok s | o :: l' => do s' <- exec o s; execs l' s' end.
End S.
