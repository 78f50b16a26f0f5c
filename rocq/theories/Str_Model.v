(** Model of the strengthening of outer-approximation cuts, src/Interfaces/BonCutStrengthener.cpp.

    Simplifications.  Doubles are rationals, COIN_DBL_MAX and the values 1e100 given to the NLP
    solver as infinity are infinite.  The NLP solver is an argument: it gives the final objective
    value, or nothing when the status is not optimal.  Options, messages, Jacobian, starting point of the
    small NLP are left out, as only the solver uses them.  exit() is [Thrown]. *)
From Verif Require Import Base Arr Oad_Model.
#[local] Open Scope Q_scope.

(** TMINLP::VariableType. *)
Inductive vtype := CONT | BIN | INT.
Definition discrete (t : vtype) : bool := match t with CONT => false | _ => true end.
(** What is asked of the problem: eval_f, eval_grad_f, eval_gi, the structure from eval_grad_gi,
    constraint bounds. *)
Record tminlp := {
  t_types : list vtype;
  t_f : list Q -> Q; t_gf : list Q -> option (list Q);
  t_g : nat -> list Q -> Q; t_struct : nat -> option (list nat);
  t_gl : list ext; t_gu : list ext }.
(** The small NLP: minimise [y_obj] over [y_lo] <= y <= [y_up], [y_gl] <= [y_con] y <= [y_gu]. *)
Record stnlp := { y_vars : list nat; y_obj : list Q; y_lo : list ext; y_up : list ext; y_gl : ext; y_gu : ext; y_con : list Q -> outcome Q }.

(** CoinPackedVector. *)
Definition row := list (nat * Q).
Definition qmn (a b : Q) : Q := if Qltb a b then a else b.       (* CoinMin *)
Definition qmx (a b : Q) : Q := if Qltb b a then a else b.       (* CoinMax *)
(** BonCutStrengthener.cpp 239-244: one coordinate of the perturbed point. *)
Definition perturb (l u : ext) (x d : Q) : Q :=
  let r := match u, l with Fin b, Fin a => qmn 1 (b - a) | _, _ => 1 end in
  let p := match u with Fin b => qmn (x - (1 # 2) * r) (b - r) | _ => x - (1 # 2) * r end in
  (match l with Fin a => qmx p a | _ => p end) + r * d.
Fixpoint x_rand (i : nat) (rnd : nat -> Q) (k : nat) (x : list Q) (l u : list ext) {struct k} : outcome (list Q) :=
  match k with
  | O => Ok []
  | S k' => do xi <- rd i x; do li <- rd i l; do ui <- rd i u;
            do r <- x_rand (S i) rnd k' x l u; Ok (perturb li ui xi (rnd i) :: r)
  end.
(** 254-260: indices with nonzero derivative, then the objective variable. *)
Fixpoint nonzeros (i : nat) (k : nat) (g : list Q) {struct k} : outcome (list nat) :=
  match k with
  | O => Ok []
  | S k' => do v <- rd i g; do r <- nonzeros (S i) k' g; Ok (if Qeq_bool v 0 then r else i :: r)
  end.
Fixpoint find_index (idx : nat) (l : list nat) : option nat :=
  match l with [] => None | j :: l' => if Nat.eqb idx j then Some O else option_map S (find_index idx l') end.
(** 341-363: the objective of the small NLP. *)
Fixpoint obj_grad (lower : bool) (jcol : list nat) (c : row) (o : list Q) : outcome (list Q) :=
  match c with
  | [] => Ok o
  | (idx, v) :: c' =>
      match find_index idx jcol with
      | None => Thrown                                                        (* exit(-99) *)
      | Some j => do o' <- lset j (if lower then v else - v) o; obj_grad lower jcol c' o'
      end
  end.
(** 366-377. *)
Fixpoint sub_bounds (n : nat) (jcol : list nat) (b : list ext) (other : ext) : outcome (list ext) :=
  match jcol with
  | [] => Ok []
  | j :: jcol' => do v <- (if Nat.ltb j n then rd j b else Ok other); do r <- sub_bounds n jcol' b other; Ok (v :: r)
  end.
(** 561-574 update_x_full: write the values of the small NLP in the full point. *)
Fixpoint scatter (vars : list nat) (y x : list Q) : outcome (list Q) :=
  match vars with
  | [] => Ok x
  | j :: vars' => match y with [] => OutOfBounds | v :: y' => do x' <- lset j v x; scatter vars' y' x' end
  end.
(** 503-516 eval_g: with [gi = None] it is the objective with its variable at the end. *)
Definition eval_con (t : tminlp) (gi : option nat) (jcol : list nat) (x y : list Q) : outcome Q :=
  match gi with
  | None => do x' <- scatter (removelast jcol) y x; do w <- rd (length jcol - 1) y; Ok (t_f t x' - w)
  | Some i => do x' <- scatter jcol y x; Ok (t_g t i x')
  end.
Definition is_PInf (e : ext) : bool := match e with PInf => true | _ => false end.
Definition is_MInf (e : ext) : bool := match e with MInf => true | _ => false end.
(** 233-268: the variables of the small NLP. *)
Definition sub_vars (t : tminlp) (rnd : nat -> Q) (gi : option nat) (n : nat) (x : list Q) (l u : list ext) : outcome (option (list nat)) :=
  match gi with
  | None =>
      do xr <- x_rand 0 rnd n x l u;
      match t_gf t xr with
      | None => Ok None
      | Some g => do nz <- nonzeros 0 n g; Ok (Some (nz ++ [n]))
      end
  | Some i => Ok (t_struct t i)
  end.
(** 221-304 StrengthenCut and 306-382, 421-459. *)
Definition StrengthenCut (solver : stnlp -> option Q) (t : tminlp) (rnd : nat -> Q) (gi : option nat) (c : row) (n : nat)
    (x : list Q) (l u : list ext) (lb ub : ext) : outcome (bool * ext * ext) :=
  do v <- sub_vars t rnd gi n x l u;
  match v with
  | None => Ok (false, lb, ub)
  | Some jcol =>
      do lower <- (if is_MInf lb then do _ <- chk (negb (is_PInf ub)); Ok false else do _ <- chk (is_PInf ub); Ok true);
      do o <- obj_grad lower jcol c (repeat 0 (length jcol));
      do yl <- sub_bounds n jcol l MInf;
      do yu <- sub_bounds n jcol u PInf;
      do gl <- (match gi with None => Ok MInf | Some i => rd i (t_gl t) end);
      do gu <- (match gi with None => Ok (Fin 0) | Some i => rd i (t_gu t) end);
      match solver {| y_vars := jcol; y_obj := o; y_lo := yl; y_up := yu; y_gl := gl; y_gu := gu; y_con := eval_con t gi jcol x |} with
      | None => Ok (false, lb, ub)
      | Some b => Ok (if lower then (true, Fin b, ub) else (true, lb, Fin (- b)))
      end
  end.

(** 59-74: position of the most fractional discrete variable of the cut. *)
Definition fractionality (v : Q) : Q := qmn (v - inject_Z (Qfloor v)) (inject_Z (Qceiling v) - v).
Fixpoint most_fractional (i : nat) (n : nat) (ts : list vtype) (x : list Q) (c : row) (best : option nat) (viol : Q) : outcome (option nat) :=
  match c with
  | [] => Ok best
  | (idx, _) :: c' =>
      if Nat.ltb idx n then
        do t <- rd idx ts;
        if discrete t then
          do xi <- rd idx x;
          if Qltb viol (fractionality xi) then most_fractional (S i) n ts x c' (Some i) (fractionality xi)
          else most_fractional (S i) n ts x c' best viol
        else most_fractional (S i) n ts x c' best viol
      else most_fractional (S i) n ts x c' best viol
  end.
Inductive disj := DC_None | DC_MostFractional.
(** 38-134.  [rnd k]: the random numbers of the [k]th call of StrengthenCut. *)
Definition eopp (e : ext) : ext := match e with MInf => PInf | Fin q => Fin (- q) | PInf => MInf end.
Definition HandleOneCut (solver : stnlp -> option Q) (t : tminlp) (rnd : nat -> nat -> Q) (d : disj) (tight : bool) (gi : option nat)
    (l u : list ext) (c : row) (lb ub : ext) (n : nat) (x : list Q) (infty : ext) : outcome (bool * row * ext * ext) :=
  let plain :=
    if tight then Ok (true, c, lb, ub)
    else do ' (ok, lb', ub') <- StrengthenCut solver t (rnd 0%nat) gi c n x l u lb ub; Ok (ok, c, lb', ub') in
  match d with
  | DC_None => plain
  | DC_MostFractional =>
      do m <- most_fractional 0 n (t_types t) x c None (1 # 1000000);
      match m with
      | None => plain
      | Some k =>
          do ' (idx, a) <- rd k c;
          do xi <- rd idx x;
          let dn := inject_Z (Qfloor xi) in
          do u' <- lset idx (Fin dn) u;
          do ' (ok, lbd, ubd) <- StrengthenCut solver t (rnd 0%nat) gi c n x l u' lb ub;
          if negb ok then Ok (false, c, lb, ub)
          else
            do l' <- lset idx (Fin (dn + 1)) l;
            do ' (ok, lbu, ubu) <- StrengthenCut solver t (rnd 1%nat) gi c n x l' u lb ub;
            if negb ok then Ok (false, c, lb, ub)
            else if negb (ext_ltb (eopp infty) lb) then                       (* 111 *)
              match ubd, ubu with
              | Fin p, Fin q => do c' <- lset k (idx, a + (p - q)) c; Ok (true, c', lb, Fin (q + (dn + 1) * (p - q)))
              | _, _ => Ok (true, c, lb, ub)                                  (* both COIN_DBL_MAX *)
              end
            else
              match lbd, lbu with
              | Fin p, Fin q => do c' <- lset k (idx, a + (p - q)) c; Ok (true, c', Fin (q + (dn + 1) * (p - q)), ub)
              | _, _ => Ok (true, c, lb, ub)
              end
      end
  end.

(** 136-219. *)
Inductive cstype := CS_None | CS_StrengthenedGlobal | CS_UnstrengthenedGlobal_StrengthenedLocal | CS_StrengthenedGlobal_StrengthenedLocal.
Definition eq_tol (a b : ext) : bool :=                                       (* fabs(a-b) < 1e-4 *)
  match a, b with
  | Fin p, Fin q => Qltb (Qabs (p - q)) (1 # 10000)
  | PInf, PInf | MInf, MInf => true
  | _, _ => false
  end.
Definition is_tight (gi : option nat) (lb ub : ext) (g : Q) (glb gub infty : ext) : bool :=
  match gi with
  | None => true
  | Some _ =>
      if (negb (ext_ltb (eopp infty) lb) && match gub with Fin v => Qle_bool (v - g) (1 # 100000000) | MInf => true | PInf => false end)%bool then true
      else (negb (ext_ltb ub infty) && match glb with Fin v => Qle_bool (g - v) (1 # 100000000) | PInf => true | MInf => false end)%bool
  end.
Definition does_global (ty : cstype) : bool := match ty with CS_StrengthenedGlobal | CS_StrengthenedGlobal_StrengthenedLocal => true | _ => false end.
Definition does_local (ty : cstype) : bool := match ty with CS_UnstrengthenedGlobal_StrengthenedLocal | CS_StrengthenedGlobal_StrengthenedLocal => true | _ => false end.
(** Result: the cut, changed, and the extra cuts inserted.  [ol], [ou]: original bounds; [cl], [cu]: current ones. *)
Definition ComputeCuts (solver : stnlp -> option Q) (t : tminlp) (rnd : nat -> nat -> nat -> Q) (ty : cstype) (d : disj) (gi : option nat)
    (ol ou cl cu : list ext) (c : row) (lb ub : ext) (g : Q) (glb gub : ext) (n : nat) (x : list Q) (infty : ext)
    : outcome (row * ext * ext * list (row * ext * ext)) :=
  let tight := is_tight gi lb ub g glb gub infty in
  do ' (c, lb, ub) <-
    (if does_global ty then do ' (_, c, lb, ub) <- HandleOneCut solver t (rnd 0%nat) d tight gi ol ou c lb ub n x infty; Ok (c, lb, ub)
     else Ok (c, lb, ub));
  do new <-
    (if does_local ty then
       do ' (ok, c2, lb2, ub2) <- HandleOneCut solver t (rnd 1%nat) d tight gi cl cu c lb ub n x infty;
       Ok (if (ok && negb (eq_tol lb2 lb && eq_tol ub ub2))%bool then [(c2, lb2, ub2)] else [])
     else Ok []);
  Ok (c, lb, ub, new).
