(** Cut generators around the LP relaxation.
    src/Algorithms/OaGenerators/BonEcpCuts.cpp 28-138 (extended cutting planes),
    src/Algorithms/BonSolverHelp.cpp 148-172 (installCuts),
    src/Algorithms/OaGenerators/BonOaNlpOptim.cpp 62-171 (NLP solves in the hybrid),
    src/Algorithms/QuadCuts/BonLinearCutsGenerator.cpp 107-153 (Cgl cuts on an outer approximation).
    Simplifications.  Doubles are exact rationals.  The LP, NLP solvers, the Cgl generators, the
    outer approximation and the violation measure are arguments (areas OA and Acc model the last
    two); an LP solver is deterministic in the rows it holds.  Random numbers are arguments.
    Bases and messages are left out. *)
From Verif Require Import Base Arr Oad_Model.
#[local] Open Scope Q_scope.

(** * EcpCuts *)
Section Ecp.
Variable C : Type.                                        (* a row cut *)
(** What an LP gives after resolve: proven infeasible, or a point and an objective value. *)
Inductive lpres := LpInf | LpSol (x : list Q) (obj : Q).
Variable lp : list C -> lpres.                            (* resolve, with these cuts on top of si's rows *)
Variable x0 : list Q. Variable obj0 : Q.                  (* si.getColSolution(), si.getObjValue() *)
(** getOuterApproximation(cs, x, 1, toCut, global): the cuts put at the end of cs. *)
Variable oa : list Q -> option (list Q) -> list C.
Variable viol : list Q -> Q -> outcome Q.                 (* getNonLinearitiesViolation *)
Variables (abs_tol rel_tol : Q) (only_violated lp_given : bool).   (* lp_ != NULL *)

(** installCuts, BonSolverHelp.cpp 148-172: the last [k] cuts of cs. *)
Definition installCuts (lpcuts cs : list C) (k : nat) : list C := lpcuts ++ skipn (length cs - k) cs.
(** Where the cuts are taken: localSi.getColSolution(), 82-84.  A clone has been resolved and is
    feasible when it is looked at. *)
Definition local_point (m : option (list C)) : list Q :=
  match m with None => x0 | Some l => match lp l with LpSol x _ => x | LpInf => [] end end.
(** The loop, 76-119; [k] rounds are left.  Result: cs, the cuts of the LP clone (None: lpManip is
    NULL), violation_, infeasible, number of LP solved. *)
Record ecp_end := mkEnd { e_cs : list C; e_m : option (list C); e_v : Q; e_inf : bool; e_lps : nat }.
Fixpoint ecp_loop (k : nat) (orig : Q) (cs : list C) (m : option (list C)) (v : Q) (lps : nat) : outcome ecp_end :=
  match k with
  | O => Ok (mkEnd cs m v false lps)
  | S k =>
      if (Qltb abs_tol v && Qltb (rel_tol * orig) v)%bool then
        let toCut := if only_violated then Some x0 else None in       (* 80-81: si, not localSi *)
        let cs' := cs ++ oa (local_point m) toCut in
        let number := (length cs' - length cs)%nat in                  (* 79, 86 *)
        if (Nat.ltb 0 number && Nat.ltb 0 k)%bool then
          do l <- match m with
                  | None => if lp_given then AssertFail else Ok []     (* 89 *)
                  | Some l => Ok l
                  end;
          let l := installCuts l cs' number in
          match lp l with
          | LpInf => Ok (mkEnd cs' (Some l) v true (S lps))
          | LpSol x ob => do v' <- viol x ob; ecp_loop k orig cs' (Some l) v' (S lps)
          end
        else Ok (mkEnd cs' m v false lps)
      else Ok (mkEnd cs m v false lps)
  end.
(** The members objValue_ and violation_; None: not yet given a value. *)
Record mem := mkMem { m_obj : option ext; m_viol : option Q }.
(** The test for skipping, 50-61; the depth of the current node, 0 without a node. *)
Fixpoint pow2 (k : nat) : Q := match k with O => 1 | S k => 2 * pow2 k end.
Definition skipped (beta rand : Q) (depth : nat) : bool :=
  if Qle_bool 0 beta then Qle_bool (beta / pow2 depth) rand else false.
(** generateCuts, 46-138.  Result: cs, members, number of LPs solved.  babInfo and babPtr exist. *)
Definition ecp_generate (rounds : nat) (beta rand : Q) (depth : nat) (cs : list C) (st : mem) : outcome (list C * mem * nat) :=
  if skipped beta rand depth then Ok (cs, st, 0%nat)
  else do orig <- viol x0 obj0;
       if Qle_bool orig abs_tol then Ok (cs, st, 0%nat)
       else do e <- ecp_loop rounds orig cs None orig 0;
            let obj := if e_inf e then Some PInf
                       else match e_m e with
                            | None => m_obj st
                            | Some l => match lp l with LpInf => Some PInf | LpSol _ ob => Some (Fin ob) end
                            end in
            Ok (e_cs e, mkMem obj (Some (e_v e)),
                (e_lps e + if e_inf e then 0 else match e_m e with None => 0 | Some _ => 1 end)%nat).
End Ecp.
Arguments mkEnd {C}. Arguments e_cs {C}. Arguments e_m {C}. Arguments e_v {C}. Arguments e_inf {C}. Arguments e_lps {C}.
(** doEcpRounds, 28-44: lp_ is set to &si.  Returns objValue_ and violation_; reading one that has
    no value is [Uninit]. *)
Definition doEcpRounds {C} (lp : list C -> lpres) x0 obj0 oa viol abs_tol rel_tol only_violated
    (rounds : nat) (beta rand : Q) (depth : nat) (st : mem) : outcome (ext * Q) :=
  do ' (_, st, _) <- ecp_generate C lp x0 obj0 oa viol abs_tol rel_tol only_violated true rounds beta rand depth [] st;
  match m_viol st, m_obj st with
  | Some v, Some o => Ok (o, v)
  | _, _ => Uninit
  end.

(** * OaNlpOptim *)
Inductive nstat := NOptimal | NAbandoned | NLimit | NOther.
Record nlpans := mkAns { a_stat : nstat; a_x : list Q; a_obj : Q }.
(** Copy of the bounds of the integer columns i, i+1, ...: 91-96 from si, 160-164 from the saved ones. *)
Fixpoint copy_int_bounds (i : nat) (ints : list bool) (lo up : list ext) (s : cols) : outcome cols :=
  match ints with
  | [] => Ok s
  | b :: ints =>
      if (b : bool) then
        do l <- rd i lo; do u <- rd i up;
        do s <- setLower i l s; do s <- setUpper i u s;
        copy_int_bounds (S i) ints lo up s
      else copy_int_bounds (S i) ints lo up s
  end.
Definition ten10 : Q := inject_Z 10000000000.
(** The call rule, 70-86; solves_per_level_ has no value after the first constructor. *)
Definition nlp_called (inTree : bool) (pass : nat) (level depth maxDepth : nat) (solves : option Q) (rand : Q) : outcome bool :=
  if (negb inTree || Nat.ltb 0 pass)%bool then Ok false
  else if Nat.ltb maxDepth level then Ok false
  else match solves with
       | None => Uninit
       | Some sp => if Qltb sp ten10 then Ok (negb (Qle_bool (sp / pow2 depth) rand)) else Ok true
       end.
(** What is seen afterwards: the bounds of the NLP, the cuts, the solution stored in the auxiliary
    information (None: none), whether an exception left the function, the bounds during the solve. *)
Record nlp_end (C : Type) := mkNe { n_cols : cols; n_cs : list C; n_aux : option (list Q * Q); n_threw : bool; n_solved : option cols }.
Arguments mkNe {C}. Arguments n_cols {C}. Arguments n_cs {C}. Arguments n_aux {C}. Arguments n_threw {C}. Arguments n_solved {C}.
(** generateCuts, 62-171, when nlp_ is set.  [sl], [su]: si's column bounds; [sx] its point;
    [nlp]: the NLP solver; [oa]: getOuterApproximation at the NLP's point. *)
Definition nlp_generate {C} (called : outcome bool) (ints : list bool) (sl su : list ext) (sx : list Q)
    (nlp : cols -> nlpans) (oa : list Q -> option (list Q) -> list C) (only_violated has_aux : bool)
    (s : cols) (cs : list C) : outcome (nlp_end C) :=
  do c <- called;
  if (c : bool) then
    do s1 <- copy_int_bounds 0 ints sl su s;
    let a := nlp s1 in
    let cs := cs ++ oa (a_x a) (if only_violated then Some sx else None) in        (* 103-105 *)
    match a_stat a with
    | NOptimal =>
        do f <- integerFeasible 0 ints (a_x a) (1 # 10000000);                     (* 109-116 *)
        do s2 <- copy_int_bounds 0 ints (k_lo s) (k_up s) s1;
        Ok (mkNe s2 cs (if (f && has_aux)%bool then Some (a_x a ++ [a_obj a], a_obj a) else None) false (Some s1))
    | NAbandoned | NLimit => Ok (mkNe s1 cs None true (Some s1))                   (* 135-137 *)
    | NOther => do s2 <- copy_int_bounds 0 ints (k_lo s) (k_up s) s1; Ok (mkNe s2 cs None false (Some s1))
    end
  else Ok (mkNe s cs None false None).

(** * LinearCutsGenerator *)
(** CoinRelFltEq(1e-6) (CoinFloatEqual.hpp, outside the repository). *)
Definition releq6 (a b : ext) : bool :=
  match a, b with
  | Fin x, Fin y => Qle_bool (Qabs (x - y)) ((1 # 1000000) * (1 + qmax (Qabs x) (Qabs y)))
  | MInf, MInf | PInf, PInf => true
  | _, _ => false
  end.
Record lcut := mkLcut { c_id : nat; c_lb : ext; c_ub : ext }.
(** The five rounds, 116-133: [found k] are the Cgl cuts of round k given the cuts applied before.
    `&mycuts[0]` with no cut is undefined. *)
Fixpoint lc_rounds (k : nat) (found : list lcut -> list lcut) (applied cs : list lcut) : outcome (list lcut * list lcut) :=
  match k with
  | O => Ok (applied, cs)
  | S k => match found applied with
           | [] => OutOfBounds
           | cuts => lc_rounds k found (applied ++ cuts) (cs ++ cuts)
           end
  end.
(** OsiCuts::eraseRowCut. *)
Definition erase {A} (i : nat) (l : list A) : outcome (list A) :=
  if Nat.ltb i (length l) then Ok (firstn i l ++ skipn (S i) l) else OutOfBounds.
(** 146-149: the rows added, from the last to the first; [k] of them are left.  [act], [rows]: the
    activities and the added rows; numberRows is the length of the activities of the other rows. *)
Fixpoint lc_clean (k : nat) (act : list Q) (applied cs : list lcut) : outcome (list lcut) :=
  match k with
  | O => Ok cs
  | S k =>
      do a <- rd k act; do c <- rd k applied;
      do cs <- if negb (releq6 (Fin a) (c_lb c) || releq6 (Fin a) (c_ub c)) then erase k cs else Ok cs;
      lc_clean k act applied cs
  end.
(** generateCuts, 107-153; [act applied]: activities of the added rows at the last NLP solution. *)
Definition lc_generate (found : list lcut -> list lcut) (act : list lcut -> list Q) (cs : list lcut) : outcome (list lcut) :=
  do ' (applied, cs) <- lc_rounds 5 found [] cs;
  lc_clean (length applied) (act applied) applied cs.
