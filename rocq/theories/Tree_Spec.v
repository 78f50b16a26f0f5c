(** Specifications for the search trees, on what the caller sees (the list of
    events of a run), independent of how the trees store nodes. *)
From Verif Require Import Base Tree_Model.

(** Nodes put in, handed back, popped, and discarded over a run. *)
Definition pushed (tr : list event) : list node :=
  flat_map (fun e => match e with EvPush x => [x] | _ => [] end) tr.
Definition returned (tr : list event) : list node :=
  flat_map (fun e => match e with EvBest _ (Some x) _ => [x] | _ => [] end) tr.
Definition popped (tr : list event) : list node :=
  flat_map (fun e => match e with EvPop x => [x] | _ => [] end) tr.
Definition dropped (tr : list event) : list node :=
  flat_map (fun e => match e with EvBest _ _ d => d | EvClean _ d => d | _ => [] end) tr.

(** [still_open tr rest]: each pushed node is accounted for exactly once, the
    nodes not handed back, popped or discarded being [rest]. *)
Definition still_open (tr : list event) (rest : list node) : Prop :=
  Permutation (pushed tr) (returned tr ++ popped tr ++ dropped tr ++ rest).

(** Nodes are only discarded when their objective is at or above the cutoff
    given to that very call. *)
Definition drop_justified (e : event) : Prop :=
  match e with
  | EvBest c _ d => Forall (fun x => (c <= nobj x)%Q) d
  | EvClean c d => Forall (fun x => (c <= nobj x)%Q) d
  | _ => True
  end.

(** bestNode only hands back nodes strictly below the cutoff. *)
Definition return_below (e : event) : Prop :=
  match e with
  | EvBest c (Some x) _ => (nobj x < c)%Q
  | _ => True
  end.

(** [b] is a correct best-possible-objective for the open nodes [rest]. *)
Definition bound_correct (default : Q) (rest : list node) (b : Q) : Prop :=
  (forall x, In x rest -> (b <= nobj x)%Q) /\
  ((b == default)%Q \/ exists x, In x rest /\ (b == nobj x)%Q).

(** The way a branch-and-bound code with two-way branching uses a tree: after
    bestNode hands out a node, that node may be put back once if it had not
    been branched on yet, and at most one new child is put in; nothing is put
    in after an empty answer; top and pop may be called at any time; the cutoff of bestNode is above every node put in
    since the last cleanTree (cleanTree is called when the cutoff improves).
    The state is (nodes since last cleanTree, may put back, may put new). *)
Definition proto_st : Type := list node * bool * bool.
Definition proto_init : proto_st := ([], false, true).
Definition proto_step (st : proto_st) (e : event) : option proto_st :=
  let '(live, canBack, canNew) := st in
  match e with
  | EvPush x =>
      if fresh x then if canNew then Some (x :: live, canBack, false) else None
      else if canBack then Some (x :: live, false, canNew) else None
  | EvBest c r _ =>
      if forallb (fun x => Qltb (nobj x) c) live then
        match r with
        | Some x => Some (live, fresh x, true)
        | None => Some (live, false, false)
        end
      else None
  | EvClean _ _ => Some ([], canBack, canNew)
  | EvTop _ => Some st
  | EvMode => Some st
  | EvPop _ => Some st
  end.
Fixpoint proto_run (st : proto_st) (tr : list event) : option proto_st :=
  match tr with
  | [] => Some st
  | e :: es => match proto_step st e with Some st' => proto_run st' es | None => None end
  end.
Definition two_way_protocol (tr : list event) : Prop := proto_run proto_init tr <> None.

(** The next operation allowed after a trace. *)
Definition proto_allows (tr : list event) (o : op) : Prop :=
  exists st, proto_run proto_init tr = Some st /\
  let '(live, canBack, canNew) := st in
  match o with
  | Push x => if fresh x then canNew = true else canBack = true
  | Best c => forall x, In x live -> (nobj x < c)%Q
  | Clean _ => True
  | SetMode _ => True
  | Pop | Top => ~ still_open tr []          (* some node is open *)
  end.

(** Operations that never select the two late modes of the depth-first tree. *)
Definition early_op (o : op) : Prop :=
  match o with SetMode CloseBound | SetMode LimitTreeSize => False | _ => True end.

(** Operations branch-and-bound applies between queries. *)
Definition search_op (o : op) : Prop :=
  match o with Pop | Top => False | _ => True end.
Definition depth_ok (maxdepth : Z) (o : op) : Prop :=
  match o with Push x => (0 <= ndepth x /\ ndepth x + 1 <= maxdepth)%Z | _ => True end.

(** Full statement of C03 (all histories of the probed tree). *)
Definition C03_full : Prop :=
  forall sel cmp stop ops,
    match run (probed_step sel cmp) (probed_init stop) ops with
    | Ok (t, tr) => exists rest, still_open tr rest /\ probed_size t = length rest
    | NullDeref => False
    | _ => True
    end.

(** Full statement of C04 (all histories of the depth-first tree). *)
Definition C04_full : Prop :=
  forall sel mb md ops t tr,
    (1 <= mb)%Z ->
    run (dfs_step sel) (dfs_init mb md) ops = Ok (t, tr) ->
    exists rest, still_open tr rest /\ dfs_treesize t = Z.of_nat (length rest).

(** Full statement of C05: for all option values in the registered ranges no
    run of search operations ends in an assertion failure or a null access. *)
Definition C05_full : Prop :=
  forall sel mb md ops,
    (0 <= mb)%Z -> (0 <= md)%Z -> Forall search_op ops ->
    exists t tr, run (dfs_step sel) (dfs_init mb md) ops = Ok (t, tr).
