(** Inner approximations, the guess of the best node and the cut generators of the sub-MIP solver: what they should do. *)
From Coq Require Import String.
From Coq Require Qminmax.
From Verif Require Import Base Arr Spa_Model Spa_Spec Inn_Model.
From Verif Require Set_Model.
#[local] Open Scope Q_scope.

(** A row f(x_a) + c x with one variable that occurs nonlinearly; [lin] says which variables occur linearly everywhere. *)
Definition univariate (lin : list bool) (r : row) (a : nat) (f : Q -> Q) (c : pvec) : Prop :=
  (a < List.length lin)%nat /\ nth a lin false = false /\ NoDup (a :: map fst c) /\
  (forall j v, In (j, v) c -> (j < List.length lin)%nat /\ nth j lin false = true) /\
  (forall s t, s == t -> f s == f t) /\
  (forall y, r_g r y == f (nth a y 0) + lhs c y) /\
  (forall x, exists l d l', r_j r x = (l ++ (a, d) :: l')%list /\ c = (l ++ l')%list).
Definition convex1 (f : Q -> Q) : Prop := forall s t u, s <= t -> t <= u -> f t * (u - s) <= f s * (u - t) + f u * (t - s).
(** The range that is looked at. *)
Definition lowest (l : ext) : Q := match l with Fin l => if Qlt_le_dec l (-1000) then -1000 else l | _ => -1000 end.
Definition highest (u : ext) : Q := match u with Fin u => if Qlt_le_dec 100 u then 100 else u | _ => 100 end.
Definition sizes (lin : list bool) (cl cu : list ext) : Prop := List.length lin = List.length cl /\ List.length cu = List.length cl.

(** C209: what satisfies all chords satisfies the convex rows. *)
Definition C209_full : Prop := forall nb lin cl cu rows cs r a f c y, (1 <= nb)%nat -> sizes lin cl cu ->
  In r rows -> r_linear r = false -> r_id r = None -> r_lo r = MInf -> univariate lin r a f c -> convex1 f ->
  in_box cl cu y -> inner_cuts nb lin cl cu rows = Ok cs -> (forall d, In d cs -> holds d y) -> satisfied r y.

(** C210: the heuristic returns only points that satisfy the rows. *)
Definition mip_sound (mip : list cut -> list ext -> list ext -> option (list Q)) : Prop :=
  forall cs cl cu y, mip cs cl cu = Some y -> let y := firstn (List.length cl) y in in_box cl cu y /\ forall d, In d cs -> holds d y.
Definition row_ok (lin : list bool) (r : row) : Prop :=
  if r_linear r then (forall x y, r_g r y == lhs (r_j r x) y)
  else r_id r = None /\ r_lo r = MInf /\ r_up r = Fin 0 /\ exists a f c, univariate lin r a f c /\ convex1 f.
Definition C210_full : Prop := forall mip f nb lin cl cu rows x node pass often v b v' b', mip_sound mip -> (1 <= nb)%nat -> sizes lin cl cu ->
  (forall r, In r rows -> row_ok lin r) ->
  inner_solution mip f nb lin cl cu rows x node pass often v b = Ok (1%Z, v', b') ->
  in_box cl cu b' /\ forall r, In r rows -> satisfied r b'.

(** C211: building the inner approximation does not end the process. *)
Definition all_univariate (lin : list bool) (rows : list row) : Prop :=
  forall r, In r rows -> r_linear r = false -> r_id r = None /\ exists a f c, univariate lin r a f c.
Definition C211_full : Prop := forall nb lin cl cu rows, (1 <= nb)%nat -> sizes lin cl cu -> all_univariate lin rows ->
  (exists y, in_box cl cu y) -> exists cs, inner_cuts nb lin cl cu rows = Ok cs.
(** The range of a variable that enters nonlinearly. *)
Definition width (cl cu : list ext) (a : nat) : Q := highest (nth a cu PInf) - lowest (nth a cl MInf).

(** C212: points at which a switched row is off (its variables and the switch are 0) satisfy its chords. *)
Definition C212_full : Prop := forall r x x2 c y z, r_id r = Some z -> nth z y 0 == 0 ->
  (forall j, In j (map fst (r_j r x2)) -> nth j y 0 == 0) -> chord r x x2 = Ok (Some c) -> holds c y.

(** C213: no solution is claimed unless it is better; its value is its objective. *)
Definition only_better (f : list Q -> Q) (v : Q) (b : list Q) (res : Z * Q * list Q) : Prop :=
  let '(code, v', b') := res in
  (code = 1%Z /\ v' < v /\ v' = f b') \/ (code = 0%Z /\ v' = v /\ b' = b).

(** C214: the guess of a node. *)
Definition nonneg (p : pc) : Prop := 0 <= up_tot p /\ 0 <= down_tot p /\ (0 <= up_num p)%Z /\ (0 <= down_num p)%Z /\ 0 <= up_est p /\ 0 <= down_est p.
Definition at_least (e : ext) (q : Q) : Prop := match e with PInf => True | Fin v => q <= v | MInf => False end.
Definition C214_full : Prop := forall m nobj obj, (forall ps, m = PseudoCosts ps -> List.length ps = nobj /\ Forall nonneg ps) ->
  exists e, guess m nobj obj = Ok ((-1)%Z, e) /\ at_least e obj.
(** Change per unit in one direction: the average of the object or, if it was never branched on this way, of all objects. *)
Definition per_unit (tot : Q) (num : Z) (tots : list Q) (nums : list Z) : Q :=
  if Z.eq_dec num 0 then qsum tots / inject_Z (zsum nums) else tot / inject_Z num.
Definition expected (ps : list pc) (p : pc) : Q :=
  Qminmax.Qmin (up_est p * per_unit (up_tot p) (up_num p) (map up_tot ps) (map up_num ps))
               (down_est p * per_unit (down_tot p) (down_num p) (map down_tot ps) (map down_num ps)).

(** C215: every value of milp_solver that does not ask for a solver that is not there can be used. *)
Definition C215_full : Prop := forall v p o has_cplex, (0 <= v <= 2)%Z -> (v = 2%Z -> has_cplex = true) -> exists s, sub_mip Set_Model.reg_int has_cplex v p o = Ok s.

(** The options that set the frequencies, in the order of the kinds of cuts. *)
Definition cut_options : list string := ["probing_cuts"; "Gomory_cuts"; "cover_cuts"; "clique_cuts"; "flow_cover_cuts"; "mir_cuts"]%string.
(** C216: the frequency of each kind of cuts is the value of its option. *)
Definition C216_full : Prop := forall reg p o s k n v, List.find (fun e => String.eqb (fst e) n) reg <> None -> nth_error cut_options k = Some n ->
  setup reg p o = Ok s -> (exists set, get_reg reg p n o = Ok (v, set)) -> nth_error (s_freqs s) k = Some v.
(** Variables that enter nonlinearly have bounds within [-1000, 100] that differ. *)
Definition modest (lin : list bool) (cl cu : list ext) : Prop := forall a, (a < List.length lin)%nat -> nth a lin false = false ->
  exists l u, nth a cl MInf = Fin l /\ nth a cu PInf = Fin u /\ -1000 <= l /\ u <= 100 /\ (1 # 100000000) <= u - l.
