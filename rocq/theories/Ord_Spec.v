(** Specification of the order in which nodes are explored. *)
From Verif Require Import Base Tree_Model Ord_Model.
Open Scope Z_scope.

(** A comparison that orders nodes: nothing is preferred to itself, preference is transitive, and so is indifference. *)
Definition orders (c : cmp) : Prop :=
  (forall x, c x x = false) /\
  (forall x y z, c x y = true -> c y z = true -> c x z = true) /\
  (forall x y z, c x y = true -> c x z = true \/ c z y = true).

(** The C++ heap functions: [H c l] says that the array [l] is a heap for the comparison [c]. *)
Record heap_library (hpush : cmp -> list node -> node -> list node) (hpop hmake : cmp -> list node -> list node)
                    (H : cmp -> list node -> Prop) : Prop := mkLib {
  lib_nil : forall c, H c [];
  lib_one : forall c x, H c [x];
  lib_top : forall c x l, orders c -> H c (x :: l) -> forall y, In y l -> c x y = false;
  lib_push : forall c h x, orders c -> H c h -> H c (hpush c h x);
  lib_push_all : forall c h x, Permutation (hpush c h x) (x :: h);
  lib_pop : forall c x l, orders c -> H c (x :: l) -> H c (hpop c (x :: l)) /\ Permutation (hpop c (x :: l)) l;
  lib_make : forall c l, orders c -> H c (hmake c l);
  lib_make_all : forall c l, Permutation (hmake c l) l }.

(** All open nodes held by a tree. *)
Definition held (s : srch) : list node := s_dive s ++ s_heap s.
(** No node of [l] is preferred to [x]. *)
Definition none_better (c : cmp) (x : node) (l : list node) : Prop := forall y, In y l -> c x y = false.

(** ** C258: the search never ends on an error because of the comparison of nodes *)
Definition C258_full (dyn : bool) : Prop :=
  forall cd cb cp hpush hpop hmake H mb md l,
    orders cd -> orders cb -> orders cp -> heap_library hpush hpop hmake H ->
    runs cd cb cp hpush hpop hmake dyn None (srch_init mb md) l <> Thrown.
Definition cleans (o : call) : bool := match o with CClean _ | CSol _ _ => true | _ => false end.

(** ** C259: which node is handed out while solutions are looked for.  [c] is the user's comparison *)
Definition breadth_first (s s' : srch) (x : node) : Prop :=    (* the oldest node of the breadth-first phase, not below depth 4 *)
  s_mode s = Enlarge /\ s_mode s' = Enlarge /\ ndepth x <= 4 /\ exists d, s_dive s = d ++ [x] /\ s_dive s' = d /\ s_heap s' = s_heap s.
Definition dive_goes_on (cut : Q) (s s' : srch) (x : node) : Prop :=   (* the newest node of the dive not above the cutoff *)
  s_mode s = FindSolutions /\ s_mode s' = FindSolutions /\ (nobj x <= cut)%Q /\ Permutation (held s) (x :: held s') /\
  exists pre, s_dive s = pre ++ x :: s_dive s' /\ Forall (fun y => (cut < nobj y)%Q) pre.
Definition dive_starts (c : cmp) (cut : Q) (s s' : srch) (x : node) (thrown : list node) : Prop :=  (* the best of all nodes below the cutoff *)
  s_mode s' = FindSolutions /\ s_dive s' = [] /\ (nobj x < cut)%Q /\ Permutation (held s) (x :: thrown ++ held s') /\
  Forall (fun y => (cut <= nobj y)%Q) thrown /\ none_better c x (held s') /\
  (s_mode s = Enlarge -> s_dive s = [] \/ exists y d, s_dive s = d ++ [y] /\ 4 < ndepth y).

(** ** C260: when the bound is being closed, or the tree limited, the node handed out is the best one *)
Definition C260_full : Prop :=
  forall cd cb cp hpush hpop hmake H mb md l s tr c s' e x,
    orders cd -> orders cb -> orders cp -> heap_library hpush hpop hmake H ->
    runs cd cb cp hpush hpop hmake true None (srch_init mb md) l = Ok (s, tr) ->
    step cd cb cp hpush hpop hmake true None s (CBest c) = Ok (s', e) -> e_ret e = Some x ->
    (s_mode s = CloseBound -> none_better cb x (filter (fun y => negb (Qle_bool c (nobj y))) (held s))) /\
    (s_mode s = LimitTreeSize -> none_better cp x (filter (fun y => negb (Qle_bool c (nobj y))) (held s))).

(** ** C261: the nodes pushed and handed out *)
Definition pushed_by (l : list call) : list node := flat_map (fun o => match o with CPush x => [x] | _ => [] end) l.
Definition handed_out (tr : list seen) : list node := flat_map (fun e => match e_ret e with Some x => [x] | None => [] end) tr.
Definition shallow (o : call) : Prop := match o with CPush x => ndepth x <= 4 | CBest _ => True | _ => False end.

(** ** C262: phases of the dynamic strategy, from the calls alone *)
Definition rank (m : mode) : nat := match m with Enlarge => 0 | FindSolutions => 1 | CloseBound => 2 | LimitTreeSize => 3 end.
Definition many_nodes (l : list call) : Prop := exists k, In (CNodes k) l /\ 1000000 < k.
Definition many_solutions (l : list call) : Prop := exists n c, In (CSol n c) l /\ 5 <= n.
Definition a_solution (l : list call) : Prop := exists n c, In (CSol n c) l.

(** ** C263, C264: copies *)
Definition alike {A} (a b : outcome (srch * A)) : Prop :=
  match a, b with Ok (_, u), Ok (_, v) => u = v | Ok _, _ | _, Ok _ => False | _, _ => True end.
(** A copy of tree and comparison; the comparison still reads the mode of the tree copied, which is now in mode [m]. *)
Definition C263_full : Prop :=
  forall cd cb cp hpush hpop hmake H dyn mb md l s tr m l2,
    orders cd -> orders cb -> orders cp -> heap_library hpush hpop hmake H ->
    runs cd cb cp hpush hpop hmake dyn None (srch_init mb md) l = Ok (s, tr) -> (rank (s_mode s) <= rank m)%nat ->
    alike (runs cd cb cp hpush hpop hmake dyn (Some m) (copy_tree s) l2) (runs cd cb cp hpush hpop hmake dyn None s l2).
Definition no_phase (o : call) : Prop := match o with CSol _ _ | CNodes _ => False | _ => True end.
Definition C264_full : Prop :=
  forall cd cb cp hpush hpop hmake H dyn (l r : srch) ops,
    orders cd -> orders cb -> orders cp -> heap_library hpush hpop hmake H ->
    alike (runs cd cb cp hpush hpop hmake dyn None (assign_tree l r) ops) (runs cd cb cp hpush hpop hmake dyn None r ops).

(** ** A library to run examples with: the array has its best element first *)
Definition ins (c : cmp) (l : list node) (x : node) : list node :=
  match l with [] => [x] | y :: t => if c y x then x :: y :: t else y :: x :: t end.
Definition make1 (c : cmp) (l : list node) : list node := fold_left (ins c) l [].
Definition pop1 (c : cmp) (l : list node) : list node := match l with [] => [] | _ :: t => make1 c t end.
Definition top_first (c : cmp) (l : list node) : Prop := match l with [] => True | x :: t => none_better c x t end.
(** Cbc's comparisons: by objective and by depth. *)
Definition by_obj : cmp := fun x y => Qltb (nobj y) (nobj x).
Definition by_depth : cmp := fun x y => Z.ltb (ndepth x) (ndepth y).
Definition go (dyn : bool) (l : list call) : outcome (srch * list seen) :=
  runs by_depth by_obj by_depth ins pop1 make1 dyn None (srch_init 5 1000) l.
Definition nd (i : nat) (o : Q) (d : Z) (left : nat) : node := mkNode i o o d left 2.
