(** Specifications for branching on sets (C164-C171). *)
From Verif Require Import Base Arr Nwy_Model.
#[local] Open Scope Q_scope.

(** ** Points and boxes *)
Definition point := nat -> Q.
Definition lo (b : box) (c : nat) : Q := nth c (b_lo b) 0.
Definition up (b : box) (c : nat) : Q := nth c (b_up b) 0.
Definition inside (b : box) (x : point) : Prop := forall c, (c < length (b_lo b))%nat -> lo b c <= x c /\ x c <= up b c.
(** The point has the member at position [s], which is not fixed, at its upper bound and the other members that are not fixed at their lower bounds. *)
Definition choice (o : nway) (b : box) (x : point) (s : nat) : Prop :=
  (exists c, nth_error (n_mem o) s = Some c /\ lo b c < up b c /\ x c == up b c) /\
  forall s' c', s' <> s -> nth_error (n_mem o) s' = Some c' -> lo b c' < up b c' -> x c' == lo b c'.
(** The consequences of a member. *)
Definition consequences (o : nway) (s : nat) : list nat :=
  match n_cons o with None => [] | Some l => match nth_error l s with Some (Some c) => c | _ => [] end end.
Definition obeys (o : nway) (b : box) (x : point) (s : nat) : Prop := forall c, In c (consequences o s) -> x c == lo b c /\ lo b c <= 9 # 10.
(** Members and consequences are columns, each member once and not its own consequence. *)
Record wf (o : nway) (b : box) : Prop := mkWf {
  wf_box : length (b_up b) = length (b_lo b);
  wf_mem : forall c, In c (n_mem o) -> (c < length (b_lo b))%nat;
  wf_nd : NoDup (n_mem o);
  wf_cons : forall l, n_cons o = Some l -> length l = length (n_mem o);
  wf_ccol : forall s c, In c (consequences o s) -> (c < length (b_lo b))%nat;
  wf_own : forall s c, nth_error (n_mem o) s = Some c -> ~ In c (consequences o s) }.
(** Bounds are far from the values taken for infinity and a member that is not fixed has some room. *)
Definition sane (o : nway) (b : box) : Prop := forall c, In c (n_mem o) ->
  - 100000000000000000000 < lo b c /\ up b c < 100000000000000000000 /\ (lo b c < up b c -> lo b c + (1 # 2) < up b c).
(** No member is a consequence of another. *)
Definition apart (o : nway) : Prop := forall s s' c, nth_error (n_mem o) s = Some c -> ~ In c (consequences o s').
(** The bounds kept with the set are right for objective [f]. *)
Definition bnd_ok (o : nway) (b : box) (f : point -> Q) (cutoff : Q) : Prop :=
  forall s d, nth_error (n_bnd o) s = Some d -> cutoff < d -> forall x, inside b x -> choice o b x s -> obeys o b x s -> cutoff < f x.
Definition permutes (srt : list (Q * nat) -> list (Q * nat)) : Prop := forall l, Permutation (srt l) l.

(** ** C164: every point with exactly one member up is in some branch. *)
Definition C164_full : Prop := forall srt o i b r f x s, permutes srt -> wf o b -> sane o b -> apart o -> bnd_ok o b f (i_cutoff i) ->
  createBranch srt o i b = Ok r -> inside b x -> choice o b x s -> obeys o b x s -> f x <= i_cutoff i ->
  exists k b', (k < numberBranches r)%nat /\ branchNext o r k b = Ok b' /\ inside b' x.

(** ** C165: no point is in two branches. *)
Definition C165_full : Prop := forall srt o i b r k1 k2 b1 b2 x, permutes srt -> wf o b ->
  createBranch srt o i b = Ok r -> (k1 < numberBranches r)%nat -> (k2 < numberBranches r)%nat -> k1 <> k2 ->
  branchNext o r k1 b = Ok b1 -> branchNext o r k2 b = Ok b2 -> ~ (inside b1 x /\ inside b2 x).

(** ** C166: a set whose members are all close to a bound is reported satisfied, all its members get fixed at such a bound, and the
    distance moved is returned. *)
Definition into (v l u : Q) : Q := if Qle_bool v l then l else if Qle_bool u v then u else v.
Definition close_to (tol : Q) (x : list Q) (b : box) (c : nat) (e : Q) : Prop := Qabs (into (nth c x 0) (lo b c) (up b c) - e) <= tol.
Definition settled (o : nway) (tol : Q) (x : list Q) (b : box) : Prop := forall c, In c (n_mem o) -> close_to tol x b c (lo b c) \/ close_to tol x b c (up b c).
Record region_ok (o : nway) (tol : Q) (x : list Q) (b b' : box) : Prop := mkRok {
  ro_in : forall c, In c (n_mem o) -> exists e, lo b' c == e /\ up b' c == e /\ (e == lo b c \/ e == up b c) /\ close_to tol x b c e;
  ro_out : forall c, ~ In c (n_mem o) -> lo b' c = lo b c /\ up b' c = up b c }.
Definition moved (o : nway) (x : list Q) (b b' : box) : Q := qsum (map (fun c => Qabs (into (nth c x 0) (lo b c) (up b c) - lo b' c)) (n_mem o)).
Definition ordered (o : nway) (b : box) : Prop := forall c, In c (n_mem o) -> lo b c <= up b c.
Definition C166_full : Prop := forall o tol x b, wf o b -> ordered o b -> length x = length (b_lo b) -> 0 <= tol -> settled o tol x b ->
  infeasibility o tol x b = Ok 0 /\ exists b' r, feasibleRegion o tol x b = Ok (b', r) /\ region_ok o tol x b b' /\ r == moved o x b b'.

(** ** C167: fixing variables loses no solution better than the cutoff. *)
Definition honest (feas : point -> Prop) (f : point -> Q) (ans : nat -> box -> answer) : Prop := forall k b,
  match ans k b with
  | Infeas => forall x, inside b x -> ~ feas x
  | Opt v => forall x, inside b x -> feas x -> v <= f x
  | Other _ => True
  end.
(** In a solution every set has exactly one member up. *)
Definition solution (feas : point -> Prop) (objs : list nway) (b : box) (x : point) : Prop :=
  feas x /\ inside b x /\ forall o, In o objs -> exists s, choice o b x s /\ obeys o b x s.
(** The box of a node below the root. *)
Definition below (b b0 : box) : Prop := length (b_lo b) = length (b_lo b0) /\ length (b_up b) = length (b_up b0) /\
  forall c, (c < length (b_lo b0))%nat -> lo b0 c <= lo b c /\ up b c <= up b0 c.
Definition C167_full : Prop := forall srt p i ans lst objs objs' rows b0 b feas f,
  permutes srt -> (forall k, honest feas f (ans k)) -> i_depth i = 0%nat -> p_nobj p = length objs -> NoDup lst ->
  (forall o, In o objs -> wf o b0 /\ n_bnd o = []) ->
  strong_all srt p i ans lst objs (root_rows (length objs) (i_cutoff i)) b0 = Ok (Some (objs', rows, b)) ->
  (forall x, solution feas objs b0 x -> f x <= i_cutoff i -> inside b x) /\
  forall lst' cutoff b1 b2, cutoff <= i_cutoff i -> below b1 b0 -> quick_fix objs' rows cutoff lst' b1 = Ok b2 ->
    forall x, solution feas objs b0 x -> inside b1 x -> f x <= cutoff -> inside b2 x.

(** ** C168: the consequences of a member are the other columns of the same weight. *)
Definition start (sets : list (list nat)) (i : nat) : nat := length (concat (firstn i sets)).
Definition C168_full : Prop := forall w sets objs, length w = length (concat sets) -> addNWays w sets = Ok objs ->
  forall i j cols c z, nth_error sets i = Some cols -> nth_error cols j = Some c -> nth_error w (start sets i + j) = Some z ->
  exists o, nth_error objs i = Some o /\ n_mem o = cols /\ forall d, In d (consequences o j) <->
    d <> c /\ exists i' j' cols', nth_error sets i' = Some cols' /\ nth_error cols' j' = Some d /\ nth_error w (start sets i' + j') = Some z.

(** ** C169: a copy branches like the original. *)
Definition C169_full : Prop := forall srt o t i b,
  createBranch srt (copy o) i b = createBranch srt o i b /\ exists o', assign o t = Ok o' /\ createBranch srt o' i b = createBranch srt o i b.

(** ** C170: when the choice says there is a set to branch on, there is one. *)
Definition C170_full : Prop := forall fixing depth sbd trusted lst tests nfixed code k,
  (exists rest, lst = map (fun t => fst (fst (fst t))) tests ++ rest) ->
  choose fixing depth sbd trusted lst tests nfixed = Ok (code, k) -> code = 0%Z \/ code = 2%Z \/ code = 3%Z -> exists s, k = Some s /\ In s lst.

(** ** C171: strong branching stays within its arrays. *)
Definition C171_full : Prop := forall srt p i o row ans late b, permutes srt -> wf o b -> length (i_x i) = length (b_lo b) -> n_bnd o = [] ->
  length row = p_nobj p -> strong srt p o i row ans late b <> OutOfBounds.
