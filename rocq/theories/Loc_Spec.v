(** What is claimed of the heuristics built on a second branch-and-bound, in terms of
    arguments, results and storage only. *)
From Verif Require Import Base Arr Oad_Model Loc_Model.
#[local] Open Scope Q_scope.

(** Storage is in order: no identifier twice, all below the next one. *)
Definition heap_ok (h : heap) : Prop := NoDup (h_live h) /\ forall i, In i (h_live h) -> (i < h_next h)%nat.
Definition same_live (h h' : heap) : Prop := forall i, In i (h_live h) <-> In i (h_live h').
(** The set-up owns live and distinct things. *)
Definition setup_ok (s : setup) (h : heap) : Prop :=
  (forall i, s_non s = Some i -> In i (h_live h)) /\ (forall i, s_cont s = Some i -> In i (h_live h)) /\
  NoDup (s_objs s) /\ (forall i, In i (s_objs s) -> In i (h_live h) /\ s_non s <> Some i /\ s_cont s <> Some i).

(** The arrays the heuristics get have the lengths CbcModel gives them. *)
Definition cols_n (n : nat) (c : cols) : Prop := length (k_lo c) = n /\ length (k_up c) = n.
Record env_ok (n : nat) (e : env) : Prop := {
  eo_best : forall b, e_best e = Some b -> length b = n;
  eo_cur : length (e_cur e) = n;
  eo_ints : forall i b, In (i, b) (e_ints e) -> (i < n)%nat;
  eo_nlp : forall c, e_nlp e = Some c -> cols_n n c;
  eo_setup : cols_n n (e_setup e) }.
Definition within (c : cols) (x : list Q) : Prop :=
  forall i v l u, nth_error x i = Some v -> nth_error (k_lo c) i = Some l -> nth_error (k_up c) i = Some u -> lo_ok l v /\ up_ok u v.
Definition sizes_ok (n : nat) (O : prefix -> problem -> ext -> option (list Q * Q)) : Prop :=
  forall px P c x v, O px P c = Some (x, v) -> length x = n.
(** Sum of the distances |x_i - v| over the listed variables. *)
Definition l1 (vals : list Q) (inds : list nat) (x : list Q) : Q :=
  qsum (map (fun p => Qabs (nth (snd p) x 0 - fst p)) (combine vals inds)).
(** The inner branch-and-bound is right: a point it returns respects the column bounds
    it was given, the reported value is the objective optimised at that point, and it is
    below the cutoff. *)
Definition objective (f : list Q -> Q) (g : goal) (x : list Q) : Q :=
  match g with Distance vals inds => l1 vals inds x | _ => f x end.
Definition honest (f : list Q -> Q) (O : prefix -> problem -> ext -> option (list Q * Q)) : Prop :=
  forall px P c x v, O px P c = Some (x, v) -> within (q_cols P) x /\ v == objective f (q_goal P) x /\ ext_ltb (Fin v) c = true.

(** C107: calling a heuristic releases what it allocates, once. *)
Definition C107_full : Prop := forall n O bb s e R L os ty val buf h, heap_ok h -> setup_ok s h -> env_ok n e -> sizes_ok n O ->
  length buf = n -> length ty = n -> (forall v f c, In (v, f) os -> f c = Ok c) ->
  (exists R' r, rins_solution O bb s e R val buf h = Ok (R', r) /\ same_live h (r_heap r)) /\
  (exists L' r, lb_solution O bb s e L val buf h = Ok (L', r) /\ same_live h (r_heap r)) /\
  (exists r, fs_solution O bb s e os val buf h = Ok r /\ same_live h (r_heap r)) /\
  (exists r, dp_solution O bb s e ty val buf h = Ok r /\ same_live h (r_heap r)) /\
  (exists r, pm_solution O bb s e val buf h = Ok r /\ same_live h (r_heap r)).

(** C108: a copy of a set-up works, runs as many heuristics, and both can be deleted. *)
Definition C108_full : Prop := forall s h, heap_ok h -> setup_ok s h ->
  (exists s' h' h1 h2, copy_setup s h = Ok (s', h') /\ s_heu s' = s_heu s /\ delete_setup s' h' = Ok h1 /\ same_live h h1 /\ delete_setup s h1 = Ok h2) /\
  (forall bb, exists s' h', copy_nlp bb s (h_next h) (snd (alloc h)) = Ok (s', h') /\ exists h1, delete_setup s' h' = Ok h1 /\ same_live h h1).

(** C109: the states RINS can be in: constructed, then called any number of times with
    any arguments. *)
Inductive rins_reach : rins -> Prop :=
| reach0 : rins_reach rins0
| reach1 : forall R O bb s e val buf h R' r, rins_reach R -> rins_solution O bb s e R val buf h = Ok (R', r) -> rins_reach R'.

(** C110: z is an integer point near the incumbent, inside the original bounds. *)
Definition near_point (ints : list (nat * (ext * ext))) (best : list Q) (z : nat -> Z) : Prop :=
  forall i l u, In (i, (l, u)) ints -> Qabs (nth i best 0 - inject_Z (z i)) < 1 # 2 /\ lo_ok l (inject_Z (z i)) /\ up_ok u (inject_Z (z i)).

(** C111: local branching looks around every new incumbent: two calls one after the
    other, the count of solutions having grown in between. *)
Definition C111_full : Prop := forall O bb s e1 e2 L val buf h L1 r1 val2 buf2 h2 L2 r2,
  lb_solution O bb s e1 L val buf h = Ok (L1, r1) -> (e_nsol e1 < e_nsol e2)%Z -> e_best e2 <> None -> (l_sols L <= e_nsol e1)%Z ->
  lb_solution O bb s e2 L1 val2 buf2 h2 = Ok (L2, r2) -> r_log r2 <> None.
(** The solution counts at which a sequence of calls searches. *)
Fixpoint lb_searches (O : prefix -> problem -> ext -> option (list Q * Q)) (bb : prefix -> bool) (s : setup) (calls : list (env * Q * list Q)) (L : lbst) (h : heap) : outcome (list Z) :=
  match calls with
  | [] => Ok []
  | (e, val, buf) :: calls =>
      do ' (L, r) <- lb_solution O bb s e L val buf h;
      do l <- lb_searches O bb s calls L (r_heap r);
      Ok (match r_log r with Some _ => e_nsol e :: l | None => l end)
  end.
(** q is the point of [l, u] closest to v. *)
Definition clipped (l u : ext) (v q : Q) : Prop := (lo_ok l q /\ up_ok u q) /\ forall w, lo_ok l w -> up_ok u w -> Qabs (v - q) <= Qabs (v - w).
(** C112: local branching is not run if some integer variable is not 0-1. *)
Definition C112_full : Prop := forall O bb s e L ty b val buf h L' r, lb_validate ty b = false ->
  lb_solution O bb s e (lb_setModel ty b L) val buf h = Ok (L', r) -> r_log r = None.
(** C114: fix-and-solve hands back what its local search finds: if some objects are
    satisfied at the root and the inner search has an answer there, it is reported. *)
Definition C114_full : Prop := forall n O bb s e os val buf h, heap_ok h -> s_objs s = [] -> env_ok n e -> sizes_ok n O -> length buf = n ->
  (forall v f c, In (v, f) os -> f c = Ok c) ->
  exists r, fs_solution O bb s e os val buf h = Ok r /\
    (forall px P c x v, r_log r = Some (px, P, c) -> O px P c = Some (x, v) -> r_ret r = 1%nat /\ r_sol r = x /\ r_val r = v).
