(** Specification of the cut generators around the LP relaxation (C99-C106). *)
From Verif Require Import Base Arr Oad_Model Ecp_Model.
#[local] Open Scope Q_scope.

(** ** C99, C100: extended cutting planes *)
(** The cuts taken at a list of points. *)
Definition cuts_at {C} (oa : list Q -> option (list Q) -> list C) (t : option (list Q)) (xs : list (list Q)) : list C :=
  concat (map (fun x => oa x t) xs).
(** The points are si's point, then each time an optimum of the LP with all cuts so far. *)
Definition visited {C} (lp : list C -> lpres) (x0 : list Q) oa t (xs : list (list Q)) : Prop :=
  (forall x, nth_error xs 0 = Some x -> x = x0) /\
  (forall i x, nth_error xs (S i) = Some x ->
     exists ob, lp (cuts_at oa t (firstn (S i) xs)) = LpSol x ob).
(** Objective value at the i-th point. *)
Definition obj_at {C} (lp : list C -> lpres) (obj0 : Q) oa t (xs : list (list Q)) (i : nat) : Q :=
  match i with O => obj0 | S j => match lp (cuts_at oa t (firstn i xs)) with LpSol _ ob => ob | LpInf => 0 end end.
(** Violated by more than both tolerances. *)
Definition worth (abs_tol rel_tol orig v : Q) : Prop := abs_tol < v /\ rel_tol * orig < v.

(** The cut is satisfied by every point of the problem. *)
Definition oa_valid {C} (sat : C -> list Q -> Prop) (feas : list Q -> Prop) (oa : list Q -> option (list Q) -> list C) : Prop :=
  forall x t c y, In c (oa x t) -> feas y -> sat c y.

(** ** C101: doEcpRounds *)
(** A violated point, a cut and at least two rounds allowed: an objective value of an LP with cuts
    is returned. *)
Definition C101_full : Prop :=
  forall (C : Type) (lp : list C -> lpres) (x0 : list Q) (obj0 : Q) (oa : list Q -> option (list Q) -> list C)
    (viol : list Q -> Q -> outcome Q) abs_tol rel_tol (ov : bool) rounds orig st,
  (2 <= rounds)%nat -> viol x0 obj0 = Ok orig -> worth abs_tol rel_tol orig orig ->
  oa x0 (if ov then Some x0 else None) <> [] -> (forall x ob, exists v, viol x ob = Ok v) ->
  exists o v l, doEcpRounds lp x0 obj0 oa viol abs_tol rel_tol ov rounds (-1) 0 0 st = Ok (o, v) /\ l <> [] /\
    match lp l with LpInf => o = PInf | LpSol _ ob => o = Fin ob end.

(** ** C102: only violated cuts *)
(** The outer approximation filters the cuts of the point x by violation at the point given. *)
Definition filters {C} (cuts : list Q -> list C) (violated : C -> list Q -> bool) (oa : list Q -> option (list Q) -> list C) : Prop :=
  forall x t, oa x t = match t with None => cuts x | Some y => filter (fun c => violated c y) (cuts x) end.
(** With the option on, the cuts added are those violated at the LP point they are taken at. *)
Definition C102_full : Prop :=
  forall (C : Type) (lp : list C -> lpres) x0 obj0 cuts violated oa viol abs_tol rel_tol rounds cs st cs' st' k,
  filters cuts violated oa ->
  ecp_generate C lp x0 obj0 oa viol abs_tol rel_tol true false rounds (-1) 0 0 cs st = Ok (cs', st', k) ->
  exists xs, visited lp x0 oa (Some x0) xs /\
    cs' = cs ++ concat (map (fun x => filter (fun c => violated c x) (cuts x)) xs).

(** ** C103, C104: NLP solves in the tree *)
Definition sized (ints : list bool) (sl su : list ext) (s : cols) : Prop :=
  length (k_lo s) = length ints /\ length (k_up s) = length ints /\
  (length ints <= length sl)%nat /\ (length ints <= length su)%nat.
Definition C103_full : Prop :=
  forall (C : Type) called ints sl su sx nlp (oa : list Q -> option (list Q) -> list C) ov aux s cs e,
  sized ints sl su s -> nlp_generate called ints sl su sx nlp oa ov aux s cs = Ok e -> n_cols e = s.
(** The node's bounds on integer columns, the NLP's own on the others. *)
Definition node_bounds (ints : list bool) (sl su : list ext) (s s1 : cols) : Prop :=
  length (k_lo s1) = length (k_lo s) /\ length (k_up s1) = length (k_up s) /\
  forall j b, nth_error ints j = Some b ->
    nth_error (k_lo s1) j = nth_error (if b then sl else k_lo s) j /\
    nth_error (k_up s1) j = nth_error (if b then su else k_up s) j.
(** Within the tolerance of an integer. *)
Definition near_int (v : Q) : Prop := exists z : Z, Qabs (v - inject_Z z) <= 1 # 10000000.

(** ** C106: slack cuts are taken off *)
Definition tight (c : lcut) (a : Q) : bool := (releq6 (Fin a) (c_lb c) || releq6 (Fin a) (c_ub c))%bool.
Fixpoint keep_tight (l : list lcut) (act : list Q) : list lcut :=
  match l, act with
  | c :: l, a :: act => if tight c a then c :: keep_tight l act else keep_tight l act
  | _, _ => []
  end.
Fixpoint all_found (k : nat) (found : list lcut -> list lcut) (applied : list lcut) : list lcut :=
  match k with O => applied | S k => all_found k found (applied ++ found applied) end.
Definition C106_full : Prop :=
  forall found act cs, (forall l, found l <> []) ->
  (forall l, length (act l) = length l) ->
  let new := all_found 5 found [] in
  lc_generate found act cs = Ok (cs ++ keep_tight new (act new)).
