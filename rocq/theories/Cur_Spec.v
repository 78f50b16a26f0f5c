(** What strong branching by curvature promises.  Stated on the problem's own functions. *)
From Verif Require Import Base Arr Nlp Cur_Model.
#[local] Open Scope Q_scope.

Definition sumn (n : nat) (f : nat -> Q) : Q := qsum (map f (seq 0 n)).
Definition at_ (d : list Q) (i : nat) : Q := nth i d 0.
Definition same_bound (l u : ext) : Prop :=
  match l, u with Fin a, Fin b => a == b | MInf, MInf | PInf, PInf => True | _, _ => False end.
Definition var_fixed (xl xu : list ext) (i : nat) : Prop := same_bound (nth i xl MInf) (nth i xu PInf).

(** Change of row [r] along [d], to first order. *)
Definition row_change (P : nlp) (x d : list Q) (r : nat) : Q :=
  sumn (p_n P) (fun c => dense (p_off P) (p_jst P) (p_jv P x) r c * at_ d c).
(** The Hessian of the Lagrangian, of which one triangle is given, and its quadratic form. *)
Definition hess (P : nlp) (x lam : list Q) (i j : nat) : Q :=
  dense (p_off P) (p_hst P) (p_hv P x 1 lam) i j +
  (if Nat.eqb i j then 0 else dense (p_off P) (p_hst P) (p_hv P x 1 lam) j i).
Definition form (P : nlp) (x lam d : list Q) : Q :=
  sumn (p_n P) (fun i => sumn (p_n P) (fun j => at_ d i * at_ d j * hess P x lam i j)).
Definition dist2 (n : nat) (a b : list Q) : Q := sumn n (fun i => (at_ a i - at_ b i) * (at_ a i - at_ b i)).

(** Directions that leave the variables in [fx] and the rows in [gx] alone. *)
Definition keeps (P : nlp) (x : list Q) (fx gx : nat -> Prop) (d : list Q) : Prop :=
  length d = p_n P /\
  (forall i, (i < p_n P)%nat -> fx i -> at_ d i == 0) /\
  (forall r, (r < p_m P)%nat -> gx r -> row_change P x d r == 0).

(** A linear solver that answers with vectors of the right sizes, and one that solves its systems. *)
Definition solver := nat -> nat -> list (nat * nat * Q) -> list Q -> list Q -> option (list Q * list Q).
Definition sized (ls : solver) : Prop :=
  forall nx ng T rx rg y w, ls nx ng T rx rg = Some (y, w) -> length y = nx /\ length w = ng.
Definition mul_row (T : list (nat * nat * Q)) (y : list Q) (r : nat) : Q :=
  qsum (map (fun t => if Nat.eqb (fst (fst t)) r then snd t * at_ y (snd (fst t)) else 0) T).
Definition mul_col (T : list (nat * nat * Q)) (w : list Q) (c : nat) : Q :=
  qsum (map (fun t => if Nat.eqb (snd (fst t)) c then snd t * at_ w (fst (fst t)) else 0) T).
Definition solves (ls : solver) : Prop :=
  sized ls /\
  forall nx ng T rx rg y w, ls nx ng T rx rg = Some (y, w) ->
    Forall (fun t => fst (fst t) < ng /\ snd (fst t) < nx)%nat T ->
    (forall k, (k < nx)%nat -> at_ y k + mul_col T w k == at_ rx k) /\
    (forall r, (r < ng)%nat -> mul_row T y r == at_ rg r).

Record call_ok (P : nlp) (c : call) : Prop := {
  co_x : length (k_x c) = p_n P; co_xl : length (k_xl c) = p_n P; co_xu : length (k_xu c) = p_n P;
  co_gl : length (k_gl c) = p_m P; co_gu : length (k_gu c) = p_m P;
  co_zL : length (k_zL c) = p_n P; co_zU : length (k_zU c) = p_n P;
  co_lam : length (k_lam c) = p_m P; co_d : length (k_d c) = p_n P
}.

(** ** C138 *)
Definition apart (l u : ext) : Prop :=
  match l, u with Fin a, Fin b => a < b | MInf, Fin _ | MInf, PInf | Fin _, PInf => True | _, _ => False end.
(** What is held along [d]: fixed variables, and variables that [d] pushes against a bound with a
    multiplier (only if some row is an equality); equality rows, and rows that [d] pushes against
    a bound with a multiplier. *)
Definition held_var (P : nlp) (c : call) (d : list Q) (i : nat) : Prop :=
  var_fixed (k_xl c) (k_xu c) i \/
  ((exists r, (r < p_m P)%nat /\ var_fixed (k_gl c) (k_gu c) r) /\ apart (nth i (k_xl c) MInf) (nth i (k_xu c) PInf) /\
   (0 < at_ d i /\ (1 # 10000) < at_ (k_zU c) i * at_ d i \/ at_ d i < 0 /\ (1 # 10000) < - at_ (k_zL c) i * at_ d i)).
Definition held_row (P : nlp) (c : call) (d : list Q) (r : nat) : Prop :=
  var_fixed (k_gl c) (k_gu c) r \/
  (apart (nth r (k_gl c) MInf) (nth r (k_gu c) PInf) /\ (1 # 10000) < Qabs (at_ (k_lam c) r) /\
   0 < at_ (k_lam c) r * row_change P (k_x c) d r).
(** [a] is the direction nearest to [k] that leaves [fx] and [gx] alone. *)
Definition nearest_in (P : nlp) (x : list Q) (fx gx : nat -> Prop) (a k : list Q) : Prop :=
  keeps P x fx gx a /\ forall z, keeps P x fx gx z -> dist2 (p_n P) a k <= dist2 (p_n P) z k.
(** The answer along the direction [d]: variables fixed by their bounds stay, equality rows stay
    within 1e-6, and the curvature is that of the Lagrangian. *)
Definition respects (P : nlp) (c : call) (d : list Q) (q : Q) : Prop :=
  (forall i, (i < p_n P)%nat -> var_fixed (k_xl c) (k_xu c) i -> at_ d i == 0) /\
  (forall r, (r < p_m P)%nat -> var_fixed (k_gl c) (k_gu c) r -> Qabs (row_change P (k_x c) d r) <= 1 # 1000000) /\
  q == form P (k_x c) (k_lam c) d.
Definition C138_full : Prop :=
  forall P kl ls c u d g q e' u',
  nlp_ok P -> call_ok P c -> sized ls -> k_newx c = true -> kl = false ->
  curvature P kl ls c new_est u = Ok (Some (d, g, q), e', u') -> respects P c d q.

(** ** C139, C140: histories of a tree search *)
Definition node_ok (P : nlp) (n : node) : Prop :=
  length (n_xl n) = p_n P /\ length (n_xu n) = p_n P /\ length (n_gl n) = p_m P /\ length (n_gu n) = p_m P.
(** A history that follows the rules: arrays have their sizes, a node is marked after it was solved,
    hot starts happen between a mark and the next unmark or solve. *)
Inductive phase := Bare | Solved | Marked.
Fixpoint follows (P : nlp) (ph : phase) (h : list op) : Prop :=
  match h with
  | [] => True
  | o :: h =>
      match o with
      | OBounds xl xu => length xl = p_n P /\ length xu = p_n P /\ follows P ph h
      | OSolve x du _ _ _ => ph <> Marked /\ length x = p_n P /\ length du = (2 * p_n P + p_m P)%nat /\ follows P Solved h
      | OMark => ph = Solved /\ follows P Marked h
      | OHot => ph = Marked /\ follows P Marked h
      | OUnmark => ph = Marked /\ follows P Solved h
      end
  end.
Definition C139_full : Prop :=
  forall P kl ls u h, nlp_ok P -> sized ls -> kl = false -> follows P Bare h ->
  exists w, run P kl ls h (start P u) = Ok w.

(** Between the mark and the trial only bounds are changed and other children tried. *)
Definition trial (o : op) : Prop := match o with OBounds _ _ | OHot => True | _ => False end.
Definition C140_full : Prop :=
  forall P kl ls u h1 h2 w0 w w1,
  nlp_ok P -> sized ls -> follows P Bare (h1 ++ OMark :: h2 ++ [OHot]) -> Forall trial h2 ->
  run P kl ls h1 (start P u) = Ok w0 ->
  run P kl ls (h1 ++ OMark :: h2) (start P u) = Ok w -> run P kl ls [OHot] w = Ok w1 ->
  forall u', exists w1',
    run P kl ls [OMark; OBounds (n_xl (w_node w)) (n_xu (w_node w)); OHot] (mkW (w_node w0) new_csb u' None) = Ok w1' /\
    n_obj (w_node w1) = (if match n_stat (w_node w1) with iterationLimit => true | _ => false end
                         then n_obj (w_node w1') else n_obj (w_node w)) /\
    n_stat (w_node w1) = n_stat (w_node w1').

(** ** C141: the estimate *)
Definition inside (xl xu : list ext) (x : list Q) : Prop := Forall2 lo_ok xl x /\ Forall2 up_ok xu x.
Definition convex_at (P : nlp) (x lam : list Q) : Prop :=
  forall d, length d = p_n P -> 0 <= form P x lam d.

(** ** C142: the interface afterwards *)
Definition C142_full : Prop :=
  forall P kl ls u h1 h2 w0 w,
  nlp_ok P -> solves ls -> follows P Bare (h1 ++ OMark :: h2 ++ [OUnmark]) -> Forall trial h2 ->
  run P kl ls h1 (start P u) = Ok w0 ->
  run P kl ls (h1 ++ OMark :: h2 ++ [OUnmark]) (start P u) = Ok w ->
  n_stat (w_node w) = n_stat (w_node w0) /\ n_x (w_node w) = n_x (w_node w0) /\
  n_obj (w_node w) == n_obj (w_node w0).
