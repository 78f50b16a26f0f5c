(** * The "new point" protocol: which point the user's functions are evaluated at

    Every evaluation method of the interfaces takes a point [x] and a flag
    [new_x]: "false if any evaluation method was called before with the same
    values in x".  A problem that uses the flag (the C interface does) keeps
    the last point announced as new and evaluates the user's functions there,
    whatever [x] it is handed when the flag is false.  Between the solver and
    the user's problem there may be up to three wrappers; each hands on some of
    the calls, and this file models which calls they hand on, with which flag
    and at which point.

    Simplified: only the calls that compute values are modelled.  Calls for the
    structure of the Jacobian and of the Hessian are made with [new_x] false and
    evaluate nothing.  The numbers computed are not modelled here (the feasibility
    pump's are in FP_Model, the quadratic rows' in Quad_Model, those of the
    linearised objective in LinObj_Model), only where they are computed. *)
From Coq Require Import List QArith Arith Bool.
Import ListNotations.
Set Implicit Arguments.

Definition pt := list Q.

(** The evaluation methods, src/Interfaces/BonTMINLP.hpp 262-333. *)
Inductive fn : Type :=
| F | GradF | G | Jac | H | Gi (i : nat) | GradGi (i : nat).

(** An evaluation of one of the user's functions: which, the point it is handed
    ([None]: the NULL pointer non_const_x_ starts as), and the flag it is told. *)
Record ev := Ev { ev_fn : fn; ev_at : option pt; ev_new : bool }.

Section User.
  (** Whether the user's function succeeds, at the point it is handed. *)
  Variable ok : fn -> option pt -> bool.

  (** The user's problem.  StdInterfaceTMINLP::apply_new_x,
      src/Interfaces/BonStdInterfaceTMINLP.cpp 333-352: copies the point only if
      it is new.  Lines 240-331: each method calls apply_new_x and then the
      user's function with non_const_x_.  (StdInterfaceTMINLP inherits eval_gi and
      eval_grad_gi, which throw; here they stand for a problem that defines them
      in the same way as the others.) *)
  Definition user_call (f : fn) (x : pt) (nw : bool) (c : option pt)
    : bool * option pt * list ev :=
    let c' := if nw then Some x else c in
    (ok f c', c', [Ev f c' nw]).

  (** What TMINLP2TNLP and StrengtheningTNLP hold: the user's problem, or the
      user's problem with its objective moved to the constraints
      (src/Algorithms/BonBabSetupBase.cpp 252-257). *)
  Inductive tm : Type := User | Lin.

  (** TMINLPLinObj, src/Algorithms/QuadCuts/BonTMINLPLinObj.hpp 96-112 (the
      objective and its gradient: nothing handed on) and
      BonTMINLPLinObj.cpp 125-135 (eval_g), 137-161 (eval_jac_g), 163-173
      (eval_h), 176-188 (eval_gi), 190-207 (eval_grad_gi).  The point handed on
      is x without its last entry (n-1 of its n entries are read). *)
  Definition tm_call (t : tm) (f : fn) (x : pt) (nw : bool) (c : option pt)
    : bool * option pt * list ev :=
    match t with
    | User => user_call f x nw c
    | Lin =>
        let y := removelast x in
        match f with
        | F | GradF => (true, c, [])
        | G =>
            let '(r1, c1, e1) := user_call F y nw c in
            if r1 then
              let '(r2, c2, e2) := user_call G y false c1 in (r2, c2, e1 ++ e2)
            else (false, c1, e1)
        | Jac =>
            let '(r1, c1, e1) := user_call GradF y nw c in
            let '(r2, c2, e2) := user_call Jac y false c1 in
            (r1 && r2, c2, e1 ++ e2)
        | H => user_call H y nw c
        | Gi O => user_call F y nw c
        | Gi (S i) => user_call (Gi i) y nw c
        | GradGi O => user_call GradF y nw c
        | GradGi (S i) => user_call (GradGi i) y nw c
        end
    end.

  (** What a solver is handed. *)
  Inductive tn : Type :=
  | T2T (t : tm)
  | Quad (t : tm) (linobj : bool) (morig : nat)
  | FP (s : tn) (cutoff : bool)
  | Str (t : tm) (vi : list nat) (con : option nat).

  (** The state: the point the user's problem keeps, and x_full_ of
      StrengtheningTNLP (src/Interfaces/BonCutStrengthener.cpp 328-331: starts as
      the starting point). *)
  Record st := St { cache : option pt; xfull : pt }.

  (** One assignment x_full_[j] = v. *)
  Fixpoint put (l : pt) (j : nat) (v : Q) : pt :=
    match l, j with
    | [], _ => []
    | _ :: r, O => v :: r
    | a :: r, S j => a :: put r j v
    end.

  (** StrengtheningTNLP::update_x_full, BonCutStrengthener.cpp 562-575: the first
      nvar_constr_ - 1 variables if the constraint is the objective's, all of them
      otherwise. *)
  Fixpoint write (vi : list nat) (y : pt) (l : pt) : pt :=
    match vi, y with
    | j :: vi, v :: y => write vi y (put l j v)
    | _, _ => l
    end.

  Definition used (vi : list nat) (con : option nat) : list nat :=
    match con with None => removelast vi | Some _ => vi end.

  Definition lift3 (p : bool * option pt * list ev) (xf : pt) : bool * st * list ev :=
    let '(r, c, e) := p in (r, St c xf, e).

  Fixpoint tn_call (s : tn) (f : fn) (x : pt) (nw : bool) (w : st)
    : bool * st * list ev :=
    match s with
    (** TMINLP2TNLP, src/Interfaces/BonTMINLP2TNLP.cpp 412-472: every call handed on
        as it is. *)
    | T2T t => lift3 (tm_call t f x nw (cache w)) (xfull w)
    (** TMINLP2TNLPQuadCuts, src/Algorithms/QuadCuts/BonTMINLP2Quad.cpp 162-345: with
        a linear objective of its own the user's objective is only called "for
        new_x" (171-173, 188-189); the quadratic rows (numbers [morig] and above) are
        computed here, and so eval_gi and eval_grad_gi of them hand nothing on
        (204-206, 268-279). *)
    | Quad t lin morig =>
        match f with
        | F | GradF =>
            if lin then
              if nw then
                let '(_, c, e) := tm_call t f x nw (cache w) in
                (true, St c (xfull w), e)
              else (true, w, [])
            else lift3 (tm_call t f x nw (cache w)) (xfull w)
        | Gi i | GradGi i =>
            if i <? morig then lift3 (tm_call t f x nw (cache w)) (xfull w)
            else (false, w, [])
        | _ => lift3 (tm_call t f x nw (cache w)) (xfull w)
        end
    (** TNLP2FPNLP, src/Interfaces/BonTNLP2FPNLP.cpp 157-197 (objective and gradient),
        199-246 (eval_g: with the cutoff constraint also its own eval_f), 248-373
        (eval_jac_g: also its own eval_grad_f), 375-408 (eval_h).  It has no
        eval_gi. *)
    | FP s cut =>
        match f with
        | G =>
            let '(r1, w1, e1) := tn_call s G x nw w in
            if cut then
              let '(r2, w2, e2) := tn_call s F x nw w1 in (r1 && r2, w2, e1 ++ e2)
            else (r1, w1, e1)
        | Jac =>
            let '(r1, w1, e1) := tn_call s Jac x nw w in
            if cut then
              let '(r2, w2, e2) := tn_call s GradF x nw w1 in (r1 && r2, w2, e1 ++ e2)
            else (r1, w1, e1)
        | Gi _ | GradGi _ => (false, w, [])
        | _ => tn_call s f x nw w
        end
    (** StrengtheningTNLP, src/Interfaces/BonCutStrengthener.cpp 486-560: the
        objective is the cut's and hands nothing on; the one constraint is the
        user's objective ([con = None]) or constraint; eval_h is not
        implemented. *)
    | Str t vi con =>
        match f with
        | F | GradF => (true, w, [])
        | G =>
            let xf := write (used vi con) x (xfull w) in
            lift3 (tm_call t (match con with None => F | Some i => Gi i end)
                           xf nw (cache w)) xf
        | Jac =>
            let xf := write (used vi con) x (xfull w) in
            lift3 (tm_call t (match con with None => GradF | Some i => GradGi i end)
                           xf nw (cache w)) xf
        | _ => (false, w, [])
        end
    end.

  (** A call made by a solver. *)
  Record call := Call { c_fn : fn; c_x : pt; c_new : bool }.

  (** A sequence of calls on one stack; the evaluations each of them causes. *)
  Fixpoint run (s : tn) (cs : list call) (w : st) : list (list ev) * st :=
    match cs with
    | [] => ([], w)
    | k :: r =>
        let '(_, w1, e) := tn_call s (c_fn k) (c_x k) (c_new k) w in
        let '(es, w2) := run s r w1 in
        (e :: es, w2)
    end.

  (** A sequence of calls given up at the first that fails.  Returns also whether
      all succeeded. *)
  Fixpoint run_until (s : tn) (cs : list call) (w : st) : bool * list (list ev) * st :=
    match cs with
    | [] => (true, [], w)
    | k :: r =>
        let '(b, w1, e) := tn_call s (c_fn k) (c_x k) (c_new k) w in
        if b then
          let '(b2, es, w2) := run_until s r w1 in (b2, e :: es, w2)
        else (false, [e], w1)
    end.

  (** The constructor of BranchingTQP, src/Interfaces/BonBranchingTQP.cpp 47-87: the
      objective with [new_x] true, then the gradient, the Hessian, the constraints
      and the Jacobian with [new_x] false, all at x_sol; an exception at the first
      that fails. *)
  Definition tqp_calls (x : pt) : list call :=
    [Call F x true; Call GradF x false; Call H x false; Call G x false; Call Jac x false].
  Definition branching_tqp (s : tn) (x : pt) (w : st) := run_until s (tqp_calls x) w.

  (** TMINLP2TNLP::check_solution, BonTMINLP2TNLP.cpp 688-689. *)
  Definition check_calls (x : pt) : list call := [Call G x true; Call F x false].
  Definition check_solution (s : tn) (x : pt) (w : st) := run s (check_calls x) w.

  (** MilpRounding::solution, src/CbcBonmin/Heuristics/BonMilpRounding.cpp 142-146: the
      Jacobian at x_sol, [new_x] false. *)
  Definition rounding_jacobian (s : tn) (x : pt) (w : st) := run s [Call Jac x false] w.
End User.
