(** What is expected of strong branching on QPs with hot starts. *)
From Verif Require Import Base Arr Hot_Model.
From Verif Require Itf_Model.
#[local] Open Scope Q_scope.

(** ** What is asked of the code around *)
(** The QP of a node has the sizes of the problem; the structure of its Hessian takes one entry for
    each non-zero, one for each column, and two more (TMat2RowPMat). *)
Definition qp_ok (n m : nat) (t : tqp) : Prop :=
  t_n t = n /\ t_m t = m /\ length (t_x0 t) = n /\ length (t_g0 t) = m /\
  (length (t_hla t) <= length (t_hv t) + n + 2)%nat.
Definition same_sizes (v w : work) : Prop :=
  length (w_x v) = length (w_x w) /\ length (w_g v) = length (w_g w) /\ length (w_r v) = length (w_r w) /\
  length (w_w v) = length (w_w w) /\ length (w_e v) = length (w_e w) /\ length (w_ls v) = length (w_ls w) /\
  length (w_alp v) = length (w_alp w) /\ length (w_lp v) = length (w_lp w) /\
  length (w_ws v) = length (w_ws w) /\ length (w_lws v) = length (w_lws w).
(** The Fortran routine answers in the arrays it was given, gives a point, a value and a number of
    pivots, leaves the Hessian and its own inputs alone and needs a workspace that is not negative. *)
Definition written {A} (a : arr A) : Prop := Forall (fun c => c <> None) a.
Definition honest_answer (k : call) (a : answer) : Prop :=
  let w := k_w k in let g := k_com k in let w' := a_w a in let g' := a_com a in
  same_sizes w' w /\ written (w_x w') /\ w_f w' <> None /\
  (exists p, w_info w' = Some p /\ (0 <= p)%Z) /\
  firstn (length (t_hv (k_t k))) (w_ws w') = firstn (length (t_hv (k_t k))) (w_ws w) /\
  firstn (length (t_hla (k_t k))) (w_lws w') = firstn (length (t_hla (k_t k))) (w_lws w) /\
  (0 <= c_kkk g')%Z /\
  c_kk g' = c_kk g /\ c_ll g' = c_ll g /\ c_mxws g' = c_mxws g /\ c_mxlws g' = c_mxlws g /\
  c_scalec g' = c_scalec g /\ c_phl g' = c_phl g.
Definition honest (bqpd : call -> answer) : Prop := forall k, honest_answer k (bqpd k).
Definition oth_ok (oth : tqp -> box -> bool -> Itf_Model.rstatus * list Q * Q * list Q) : Prop :=
  forall t b re, length (snd (fst (fst (oth t b re)))) = t_n t.

(** All of this, for problems with [n] variables and [m] constraints. *)
Definition around (bqpd : call -> answer) (oth : tqp -> box -> bool -> Itf_Model.rstatus * list Q * Q * list Q)
    (qp_of : list Q -> list Q -> tqp) (gl gu : list ext) (o : opts) (n m : nat) : Prop :=
  honest bqpd /\ oth_ok oth /\ (forall x du, length x = n -> qp_ok n m (qp_of x du)) /\
  length gl = m /\ length gu = m /\ 0 < o_fill o.
(** Histories that follow the rules: trials and the unmark come after a mark, node problems are
    solved outside. *)
Fixpoint legal (n : nat) (marked : bool) (ps : list op) : Prop :=
  match ps with
  | [] => True
  | SetBounds xl xu :: ps => length xl = n /\ length xu = n /\ legal n marked ps
  | NodeSolve x _ _ _ _ :: ps => marked = false /\ length x = n /\ legal n false ps
  | Foreign _ _ _ :: ps => legal n marked ps
  | Mark :: ps => marked = false /\ legal n true ps
  | Trial :: ps => marked = true /\ legal n true ps
  | Unmark :: ps => marked = true /\ legal n false ps
  end.
(** The start: a node problem with bounds, no strong branching yet. *)
Definition starts (n : nat) (z : state) : Prop :=
  length (z_xl z) = n /\ length (z_xu z) = n /\ length (z_x z) = n /\ z_sol z = None /\ z_tqp z = None.

(** ** The QP that is posed *)
(** A displacement of at most 1e50 satisfies the bound of the QP exactly when the displaced value
    satisfies the bound of the problem. *)
Definition bound_is (lo up : ext) (l u : ext) (x0 : Q) : Prop :=
  forall d, - big <= d -> d <= big ->
    (lo_ok lo d <-> lo_ok l (x0 + d)) /\ (up_ok up d <-> up_ok u (x0 + d)).
Definition posed (b : box) (t : tqp) (k : call) : Prop :=
  k_t k = t /\
  length (k_bl k) = (t_n t + t_m t)%nat /\ length (k_bu k) = (t_n t + t_m t)%nat /\
  (forall i, (i < t_n t)%nat ->
     bound_is (nth i (k_bl k) PInf) (nth i (k_bu k) MInf) (nth i (b_xl b) PInf) (nth i (b_xu b) MInf) (nth i (t_x0 t) 0)) /\
  (forall j, (j < t_m t)%nat ->
     bound_is (nth (t_n t + j) (k_bl k) PInf) (nth (t_n t + j) (k_bu k) MInf)
              (nth j (b_gl b) PInf) (nth j (b_gu b) MInf) (nth j (t_g0 t) 0)).
(** Along a history: [b] the bounds of the problem, [node] the point and multipliers of the node if
    nothing was solved since, [cur] the QP of the last mark. *)
Fixpoint posed_all (qp_of : list Q -> list Q -> tqp) (b : box) (node : option (list Q * list Q)) (cur : option tqp)
    (ps : list op) (es : list event) : Prop :=
  match ps, es with
  | [], [] => True
  | SetBounds xl xu :: ps, _ :: es => posed_all qp_of (mkB xl xu (b_gl b) (b_gu b)) node cur ps es
  | NodeSolve x du _ _ _ :: ps, _ :: es => posed_all qp_of b (Some (x, du)) cur ps es
  | Mark :: ps, EMark t l _ :: es =>
      (forall x du, node = Some (x, du) -> t = qp_of x du) /\ Forall (fun ka => posed b t (fst ka)) l /\
      posed_all qp_of b None (Some t) ps es
  | Trial :: ps, ETrial l _ :: es =>
      (exists t, cur = Some t /\ Forall (fun ka => posed b t (fst ka)) l) /\ posed_all qp_of b None cur ps es
  | Foreign _ _ _ :: ps, EOther :: es => posed_all qp_of b node cur ps es
  | Unmark :: ps, EOther :: es => posed_all qp_of b node None ps es
  | _, _ => False
  end.
(** The Hessian and its structure are where bqpd expects them, and the workspaces are as large as it is told. *)
Definition in_place (k : call) : Prop :=
  let w := k_w k in let t := k_t k in
  firstn (length (t_hv t)) (w_ws w) = map Some (t_hv t) /\
  firstn (length (t_hla t)) (w_lws w) = map Some (t_hla t) /\
  c_kk (k_com k) = Z.of_nat (length (t_hv t)) /\ c_ll (k_com k) = Z.of_nat (length (t_hv t) + t_n t + 2) /\
  Z.of_nat (length (w_ws w)) = c_mxws (k_com k) /\ Z.of_nat (length (w_lws w)) = c_mxlws (k_com k).
Definition calls_of (e : event) : list (call * answer) :=
  match e with EMark _ l _ => l | ETrial l _ => l | EOther => [] end.

(** ** What is reported *)
(** The interface reports the answer to the last QP that was solved. *)
Definition reported (t : tqp) (l : list (call * answer)) (z : state) : Prop :=
  exists k a d f, last (map Some l) None = Some (k, a) /\
    w_x (a_w a) = map Some d /\ w_f (a_w a) = Some f /\
    length (z_x z) = t_n t /\
    (forall i, (i < t_n t)%nat -> nth i (z_x z) 0 == nth i (t_x0 t) 0 + nth i d 0) /\
    (z_status z = Itf_Model.solvedOptimal <-> a_ifail a = 0%Z) /\
    (a_ifail a = 0%Z -> z_obj z == t_f0 t + f) /\
    (z_status z = Itf_Model.provenInfeasible <-> a_ifail a = 1%Z \/ a_ifail a = 2%Z \/ a_ifail a = 3%Z).
Fixpoint reported_all (cur : option tqp) (ps : list op) (es : list event) : Prop :=
  match ps, es with
  | Mark :: ps, EMark t l z :: es => reported_all (Some t) ps es
  | Trial :: ps, ETrial l z :: es => (exists t, cur = Some t /\ reported t l z) /\ reported_all cur ps es
  | Unmark :: ps, EOther :: es => reported_all None ps es
  | _ :: ps, EOther :: es => reported_all cur ps es
  | [], [] => True
  | _, _ => False
  end.

(** ** Between a mark and the unmark *)
(** Children are tried: bounds, trials and, elsewhere, other solvers. *)
Definition trying (n : nat) (p : op) : Prop :=
  match p with SetBounds xl xu => length xl = n /\ length xu = n | Trial | Foreign _ _ _ => True | _ => False end.
(** The same with no other QP solver at work. *)
Definition alone (p : op) : Prop := match p with Foreign _ _ _ => False | _ => True end.
(** Other solvers are at work but none is made with other options. *)
Definition same_options (o : opts) (p : op) : Prop :=
  match p with Foreign _ md re => md = o_m0de o /\ re = o_reinit o | _ => True end.
Definition answers (es : list event) : list answer := map snd (concat (map calls_of es)).
(** bqpd did not run out of space (7) or lose its factors (8). *)
Definition smooth (a : answer) : Prop := a_ifail a <> 7%Z /\ a_ifail a <> 8%Z.
Definition pivots (a : answer) : Z := match w_info (a_w a) with Some p => p | None => 0%Z end.
(** The state left by [a] is the one [k] starts from: the arrays and the COMMON blocks. *)
Definition continues (a : answer) (k : call) : Prop := k_w k = a_w a /\ k_com k = a_com a.
(** A call from scratch: at the point the QP was built at, nothing of an earlier solve is used. *)
Definition scratch (k : call) : Prop := k_m0de k = 0%Z /\ w_x (k_w k) = repeat (Some 0) (t_n (k_t k)).
(** The state [w] was reached from the one of the mark by at most [d] pivots, in the solves [l]. *)
Inductive drift (am : answer) : list (call * answer) -> work -> Z -> Prop :=
  | drift_marked l : drift am l (a_w am) 0
  | drift_next l k a d : drift am l (k_w k) d -> drift am (l ++ [(k, a)]) (a_w a) (d + pivots a).
(** Along the trials [es]; [l] are the solves since the mark. *)
Fixpoint near (r : Z) (am : answer) (l : list (call * answer)) (es : list event) : Prop :=
  match es with
  | [] => True
  | ETrial c _ :: es =>
      (exists k a, c = [(k, a)] /\ exists d, drift am l (k_w k) d /\ (d <= r)%Z) /\ near r am (l ++ c) es
  | _ :: es => near r am l es
  end.
(** Every call that is not from scratch goes on from what one earlier call left. *)
Fixpoint coherent (before l : list (call * answer)) : Prop :=
  match l with
  | [] => True
  | (k, a) :: l =>
      (k_m0de k <> 0%Z -> exists k' a', In (k', a') before /\ continues a' k) /\ coherent (before ++ [(k, a)]) l
  end.
(** A trial that comes after a solve that lost its factors starts from scratch. *)
Definition lost (l : list (call * answer)) : bool :=
  match last (map Some l) None with Some (_, a) => Z.eqb (a_ifail a) 8 | None => false end.
Fixpoint recovers (was_lost : bool) (es : list event) : Prop :=
  match es with
  | [] => True
  | EMark _ l _ :: es => recovers (lost l) es
  | ETrial l _ :: es =>
      (was_lost = true -> exists k a r, l = (k, a) :: r /\ scratch k) /\ recovers (lost l) es
  | EOther :: es => recovers was_lost es
  end.

(** Factors are given up for lost only after a call from scratch. *)
Definition tried_scratch (l : list (call * answer)) : Prop :=
  lost l = true -> exists r k a, l = r ++ [(k, a)] /\ k_m0de k = 0%Z.

(** ** Statements that do not hold in full *)
(** The hot start is what was marked: whatever was tried before, the next solve starts from there. *)
Definition from_mark_full bqpd oth qp_of o gl gu fuel : Prop :=
  forall n z z' em ps zs es k a kr ar r r' zt,
    starts n z -> Forall (trying n) ps -> Forall (same_options o) ps ->
    run bqpd oth qp_of true o gl gu fuel [Mark] z = Ok (z', [em]) ->
    calls_of em = r ++ [(k, a)] -> a_ifail a = 0%Z ->
    run bqpd oth qp_of true o gl gu fuel ps z' = Ok (zs, es) ->
    trial bqpd oth gl gu fuel zs = Ok (zt, (kr, ar) :: r') ->
    continues a kr.
(** Warm starts are coherent whatever else uses bqpd meanwhile. *)
Definition coherent_full bqpd oth qp_of o gl gu fuel : Prop :=
  forall n z ps zs es, starts n z -> legal n false ps ->
    run bqpd oth qp_of true o gl gu fuel ps z = Ok (zs, es) ->
    coherent [] (concat (map calls_of es)).
(** Strong branching leaves the node as it was. *)
Definition node_kept_full bqpd oth qp_of filter o gl gu fuel : Prop :=
  forall n z ps zs es, starts n z -> Forall (trying n) ps -> Forall alone ps ->
    run bqpd oth qp_of filter o gl gu fuel (Mark :: ps ++ [SetBounds (z_xl z) (z_xu z); Unmark]) z = Ok (zs, es) ->
    z_xl zs = z_xl z /\ z_xu zs = z_xu z /\ z_status zs = z_status z /\
    z_x zs = z_x z /\ z_du zs = z_du z /\ z_obj zs = z_obj z.
(** A solver works with its own options. *)
Definition own_options_full bqpd oth qp_of o gl gu fuel : Prop :=
  forall n z ps zs es, starts n z -> legal n false ps ->
    run bqpd oth qp_of true o gl gu fuel ps z = Ok (zs, es) ->
    Forall (fun ka => k_m0de (fst ka) = 0%Z \/ k_m0de (fst ka) = o_m0de o) (concat (map calls_of es)).
(** Solving ends whatever bqpd answers. *)
Definition enlarging_full bqpd oth qp_of o gl gu : Prop :=
  exists fuel, forall n z ps, starts n z -> legal n false ps -> run bqpd oth qp_of true o gl gu fuel ps z <> Diverges.
(** A solver solves the problem it is given. *)
Inductive request := RSolve (t : tqp) (b : box) | RAgain (b : box).
Fixpoint requests (bqpd : call -> answer) (md re : Z) (fuel : nat) (rs : list request) (y : bsol) (g : com)
    : outcome (list (list (call * answer))) :=
  match rs with
  | [] => Ok []
  | RSolve t b :: rs =>
      do ' (r, y, g, l) <- OptimizeTNLP bqpd md re fuel t b y g; do ls <- requests bqpd md re fuel rs y g; Ok (l :: ls)
  | RAgain b :: rs =>
      do ' (r, y, g, l) <- ReOptimizeTNLP bqpd md re fuel b y g; do ls <- requests bqpd md re fuel rs y g; Ok (l :: ls)
  end.
Fixpoint obeyed (cur : option tqp) (rs : list request) (ls : list (list (call * answer))) : Prop :=
  match rs, ls with
  | [], [] => True
  | RSolve t b :: rs, l :: ls => Forall (fun ka => posed b t (fst ka)) l /\ obeyed (Some t) rs ls
  | RAgain b :: rs, l :: ls => (exists t, cur = Some t /\ Forall (fun ka => posed b t (fst ka)) l) /\ obeyed cur rs ls
  | _, _ => False
  end.
Definition box_for (n m : nat) (b : box) : Prop :=
  length (b_xl b) = n /\ length (b_xu b) = n /\ length (b_gl b) = m /\ length (b_gu b) = m.
Definition request_ok (n m : nat) (r : request) : Prop :=
  match r with RSolve t b => qp_ok n m t /\ box_for n m b | RAgain b => box_for n m b end.
Definition obeyed_full bqpd md re fuel : Prop :=
  forall n m t b rs fill km mlp g ls, qp_ok n m t -> box_for n m b -> Forall (request_ok n m) rs -> 0 < fill ->
    requests bqpd md re fuel (RSolve t b :: rs) (mkBs fill km mlp None) g = Ok ls ->
    obeyed None (RSolve t b :: rs) ls.
