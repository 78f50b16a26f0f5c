(** What a user expects of a whole search, in terms of the points of the problem only. *)
From Verif Require Import Base Tree_Model Sch_Model.

Section Problem.
  Variables (R P : Type).
  Variable feas : P -> Prop.           (* feasible and integer *)
  Variable obj : P -> Q.
  Variable mem : P -> R -> Prop.       (* the point lies in the region of the subproblem *)

  (** A subproblem solver that is right, at every round [k]: what it calls infeasible is, a point it gives is feasible and best in its
      region, and its bounds are bounds and its two branches together keep every feasible point. *)
  Definition relax_sound (relax : nat -> R -> answer R P) : Prop :=
    forall k r, match relax k r with
              | RInf => forall p, feas p -> ~ mem p r
              | RInt v x => feas x /\ (obj x == v)%Q /\ forall p, feas p -> mem p r -> (v <= obj p)%Q
              | RSplit v _ a b => forall p, feas p -> mem p r -> (v <= obj p)%Q /\ (mem p a \/ mem p b)
              end.

  (** Branching makes regions smaller, as it does for bounded integer variables. *)
  Definition relax_shrinks (relax : nat -> R -> answer R P) (size : R -> nat) : Prop :=
    forall k r v g a b, relax k r = RSplit v g a b -> (size a < size r)%nat /\ (size b < size r)%nat.

  Definition heur_sound (heur : nat -> option (Q * P)) : Prop :=
    forall k v x, heur k = Some (v, x) -> feas x /\ (obj x == v)%Q.

  (** The answer of a finished search with the given cutoff and cutoff decrement. *)
  Definition slack (inc : Q) : Q := if Qltb 0 inc then inc else 0.
  Definition right_answer (inc cut : Q) (root : R) (best : option (Q * P)) : Prop :=
    match best with
    | Some (v, x) => feas x /\ (obj x == v)%Q /\ (v < cut)%Q /\
        forall p, feas p -> mem p root -> (v - slack inc <= obj p)%Q \/ (cut <= obj p)%Q
    | None => forall p, feas p -> mem p root -> (cut <= obj p)%Q
    end.

  (** A bound reported while the search is under way. *)
  Definition right_bound (inc cut bound : Q) (root : R) (best : option (Q * P)) : Prop :=
    forall p, feas p -> mem p root ->
      (bound <= obj p)%Q \/ (cut <= obj p)%Q \/
      (exists v x, best = Some (v, x) /\ (v - slack inc <= obj p)%Q).
End Problem.

(** A run ends, within so many rounds, with a right answer. *)
Definition ends_right {R P T} feas obj mem (inc cut : Q) (root : R) (rounds : nat)
    (run : nat -> outcome (st R P T)) : Prop :=
  forall fuel, (rounds <= fuel)%nat ->
    exists s, run fuel = Ok s /\ right_answer R P feas obj mem inc cut root (s_best s).

(** However early it is stopped, the bound of the tree is right. *)
Definition stops_right {R P T} feas obj mem (inc cut : Q) (root : R) (bound : T -> Q)
    (run : nat -> outcome (st R P T)) : Prop :=
  forall k, exists s, run k = Ok s /\ right_bound R P feas obj mem inc cut (bound (s_tree s)) root (s_best s) /\
    forall v x, s_best s = Some (v, x) -> feas x /\ (obj x == v)%Q.

Definition early (m : mode) : Prop := match m with Enlarge | FindSolutions => True | _ => False end.

(** The values of tree_search_strategy (BonBabSetupBase.cpp:385, 528-545, BonCbc.cpp:345-377) with their options; [sel] is
    the choice made by the heap under the node comparison in force. *)
Inductive strategy :=
| TopNode (sel : list node -> nat)
| DiveS (sel : list node -> nat) (stop : bool)
| ProbedS (sel : list node -> nat) (cmp : node -> node -> bool) (stop : bool)
| DfsS (sel : list node -> nat) (backtracks depth : Z)
| DynamicS (sel : list node -> nat) (backtracks depth : Z).

Section Strategies.
  Variables (R P : Type) (relax : nat -> R -> answer R P) (inc : Q) (heur : nat -> option (Q * P)) (cut : Q) (root : R).
  Definition answer_of {T} (x : outcome (st R P T)) : outcome (option (Q * P)) := do s <- x; Ok (s_best s).
  Definition run_strategy (g : strategy) (fuel : nat) : outcome (option (Q * P)) :=
    match g with
    | TopNode sel => answer_of (search R P (list node) relax (heap_step sel) heap_empty inc heur no_modes no_modes fuel [] cut root)
    | DiveS sel stop => answer_of (search R P diver relax (diver_step sel) diver_empty inc heur no_modes no_modes fuel (diver_init stop) cut root)
    | ProbedS sel cmp stop => answer_of (search R P probed relax (probed_step sel cmp) probed_empty inc heur no_modes no_modes fuel (probed_init stop) cut root)
    | DfsS sel mb md => answer_of (search R P dfs relax (dfs_step sel) dfs_empty inc heur no_modes no_modes fuel (dfs_init mb md) cut root)
    | DynamicS sel mb md => answer_of (search R P dfs relax (dfs_step sel) dfs_empty inc heur dyn_onsol dyn_tick fuel (dfs_init mb md) cut root)
    end.
End Strategies.

(** The strategies and options the trees are right for, for a problem whose tree is at most [depth] deep. *)
Definition sound_strategy (depth : nat) (g : strategy) : Prop :=
  match g with
  | TopNode _ | DiveS _ _ => True
  | ProbedS _ _ stop => stop = false
  | DfsS _ mb md => (1 <= mb)%Z /\ (Z.of_nat depth <= md)%Z
  | DynamicS _ _ _ => False
  end.

(** Two answers to the same problem *)
Definition same_answer {P} (inc : Q) (a b : option (Q * P)) : Prop :=
  match a, b with
  | None, None => True
  | Some (v, _), Some (w, _) => (v - slack inc <= w)%Q /\ (w - slack inc <= v)%Q
  | _, _ => False
  end.

(** The statement for all strategies with option values in their registered ranges *)
Definition C299_full : Prop :=
  forall (R P : Type) feas obj mem (relax : nat -> R -> answer R P) heur size inc cut root g,
    relax_sound R P feas obj mem relax -> relax_shrinks R P relax size -> heur_sound P feas obj heur ->
    match g with DfsS _ mb md | DynamicS _ mb md => (1 <= mb)%Z /\ (Z.of_nat (size root) <= md)%Z | _ => False end ->
    forall fuel, (4 ^ size root <= fuel)%nat ->
      exists best, run_strategy R P relax inc heur cut root g fuel = Ok best /\
        right_answer R P feas obj mem inc cut root best.
Definition C298_full : Prop :=
  forall (R P : Type) feas obj mem (relax : nat -> R -> answer R P) heur size inc cut root sel cmp stop,
    relax_sound R P feas obj mem relax -> relax_shrinks R P relax size -> heur_sound P feas obj heur ->
    forall fuel, (4 ^ size root <= fuel)%nat ->
      exists best, run_strategy R P relax inc heur cut root (ProbedS sel cmp stop) fuel = Ok best /\
        right_answer R P feas obj mem inc cut root best.

(** The bound after a stop, for the depth-first tree under either strategy *)
Definition C301_full : Prop :=
  forall (R P : Type) feas obj mem (relax : nat -> R -> answer R P) heur size inc cut root sel mb md dblmax dynamic,
    relax_sound R P feas obj mem relax -> relax_shrinks R P relax size -> heur_sound P feas obj heur ->
    (1 <= mb)%Z -> (Z.of_nat (size root) <= md)%Z ->
    forall k s,
      stopped R P dfs relax (dfs_step sel) dfs_empty inc heur
        (if dynamic : bool then dyn_onsol else no_modes) (if dynamic then dyn_tick else no_modes)
        k (dfs_init mb md) cut root = Ok s ->
      right_bound R P feas obj mem inc cut (dfs_bound dblmax (s_tree s)) root (s_best s).

(** What is held later in a search against what was held earlier *)
Definition improves {R P T} (inc : Q) (s s' : st R P T) : Prop :=
  (s_nsol s' = s_nsol s /\ s_best s' = s_best s) \/
  (s_nsol s < s_nsol s')%nat /\
  exists w y, s_best s' = Some (w, y) /\ forall v x, s_best s = Some (v, x) -> (w < v)%Q /\ (w < v - inc)%Q.
