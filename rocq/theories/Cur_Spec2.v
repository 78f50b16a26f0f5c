(** C172: the step that strong branching by curvature looks at. *)
From Verif Require Import Base Arr Nlp Cur_Model Cur_Spec.
#[local] Open Scope Q_scope.

(** [q]: how far a variable of value [v] moves to get within the bounds. *)
Definition move_to (l u : ext) (v q : Q) : Prop :=
  (forall a, l = Fin a -> v < a -> q == a - v) /\
  (forall b, u = Fin b -> b < v -> (forall a, l = Fin a -> a <= v) -> q == b - v) /\
  ((forall a, l = Fin a -> a <= v) -> (forall b, u = Fin b -> v <= b) -> q == 0).
Definition moves (xl xu : list ext) (x k : list Q) : Prop :=
  length k = length x /\ forall i, (i < length x)%nat -> move_to (nth i xl MInf) (nth i xu PInf) (at_ x i) (at_ k i).
(** [v] is the value at node [n] plus half the curvature along the direction nearest to [k] that leaves alone fixed variables, equality rows, and
    the variables and rows that [k], brought onto the equality rows, is held back by. *)
Definition estimates (P : nlp) (n : node) (x du k : list Q) (v : Q) : Prop :=
  exists c d d1, k_x c = x /\ k_xl c = n_xl n /\ k_xu c = n_xu n /\ k_gl c = n_gl n /\ k_gu c = n_gu n /\
    k_zL c = firstn (p_n P) du /\ k_zU c = firstn (p_n P) (skipn (p_n P) du) /\ k_lam c = skipn (2 * p_n P) du /\ k_d c = k /\
    ((exists r, (r < p_m P)%nat /\ var_fixed (k_gl c) (k_gu c) r) ->
       nearest_in P x (var_fixed (k_xl c) (k_xu c)) (var_fixed (k_gl c) (k_gu c)) d1 k) /\
    (~ (exists r, (r < p_m P)%nat /\ var_fixed (k_gl c) (k_gu c) r) -> d1 = k) /\
    nearest_in P x (held_var P c d1) (held_row P c d1) d k /\
    v == n_obj n + (1 # 2) * form P x (k_lam c) d.
(** ** C172: the estimate is made along the move from the node's solution to the child. *)
Definition C172_full : Prop := forall P ls u h1 h2 w0 w w1 x du,
  nlp_ok P -> solves ls -> (0 < p_m P)%nat -> follows P Bare (h1 ++ OMark :: h2 ++ [OHot]) -> Forall trial h2 ->
  run P false ls h1 (start P u) = Ok w0 ->
  run P false ls (h1 ++ OMark :: h2) (start P u) = Ok w -> run P false ls [OHot] w = Ok w1 ->
  n_x (w_node w0) = Some x -> n_du (w_node w0) = Some du -> n_stat (w_node w1) = iterationLimit ->
  exists k, moves (n_xl (w_node w)) (n_xu (w_node w)) x k /\ estimates P (w_node w0) x du k (n_obj (w_node w1)).
