(** Outer descriptions of separable problems: what the tangents, the sampled points and the linear program should be. *)
From Verif Require Import Base Arr Spa_Model.
#[local] Open Scope Q_scope.

Definition lhs (p : pvec) (y : list Q) : Q := qsum (map (fun e => snd e * nth (fst e) y 0) p).
Definition holds (c : cut) (y : list Q) : Prop := lo_ok (c_lo c) (lhs (c_row c) y) /\ up_ok (c_up c) (lhs (c_row c) y).
(** ... up to e *)
Definition holds_within (e : Q) (c : cut) (y : list Q) : Prop := lo_ok (c_lo c) (lhs (c_row c) y + e) /\ up_ok (c_up c) (lhs (c_row c) y - e).
Definition in_box (cl cu : list ext) (y : list Q) : Prop := forall i, (i < length cl)%nat -> lo_ok (nth i cl MInf) (nth i y 0) /\ up_ok (nth i cu PInf) (nth i y 0).
Definition satisfied (r : row) (y : list Q) : Prop := lo_ok (r_lo r) (r_g r y) /\ up_ok (r_up r) (r_g r y).
(** The linear function that touches the row at x. *)
Definition touching (r : row) (x y : list Q) : Q := r_g r x + qsum (map (fun e => snd e * (nth (fst e) y 0 - nth (fst e) x 0)) (r_j r x)).
(** The row is convex where it has an upper side and concave where it has a lower side. *)
Definition convex (cl cu : list ext) (lo up : ext) (r : row) (x : list Q) : Prop :=
  forall y, in_box cl cu y -> (up <> PInf -> touching r x y <= r_g r y) /\ (lo <> MInf -> r_g r y <= touching r x y).
(** The entries name variables, each at most once. *)
Definition row_wf (cl cu : list ext) (r : row) (x : list Q) : Prop :=
  length cu = length cl /\ length x = length cl /\ NoDup (map fst (r_j r x)) /\ forall j v, In (j, v) (r_j r x) -> (j < length cl)%nat.
(** A row that a 0-1 variable switches: it holds, and the variable is 1, or the variable and all variables of the row are 0. *)
Definition on_off (r : row) (x y : list Q) : Prop :=
  match r_id r with
  | None => satisfied r y
  | Some z => (nth z y 0 == 1 /\ satisfied r y) \/ (nth z y 0 == 0 /\ forall j v, In (j, v) (r_j r x) -> nth j y 0 == 0)
  end.
(** Entries that are dropped without compensation. *)
Definition neglected (vtiny : Q) (es : pvec) (x y : list Q) : Q :=
  qsum (map (fun e => if Qltb (Qabs (snd e)) vtiny then Qabs (snd e * (nth (fst e) y 0 - nth (fst e) x 0)) else 0) es).
Definition no_small (tiny : Q) (es : pvec) : Prop := forall j v, In (j, v) es -> tiny <= Qabs v.
Definition big_limit : Q := 1000000000000000.
Definition no_big (es : pvec) : Prop := forall j v, In (j, v) es -> Qabs v <= big_limit.

(** C200: the tangents of the outer description keep all solutions of a convex row. *)
Definition C200_full : Prop := forall cl cu r dual x cs c y,
  row_wf cl cu r x -> r_id r = None -> convex cl cu (r_lo r) (r_up r) r x -> in_box cl cu y -> satisfied r y ->
  getMyOuterApproximation cl cu r dual x None 0 = Ok cs -> In c cs -> holds c y.

(** C202: the tangents of rows that a variable switches keep all solutions. *)
Definition C202_full : Prop := forall tiny vtiny cl cu r x y, 0 < vtiny <= tiny ->
  row_wf cl cu r x -> convex cl cu (r_lo r) (r_up r) r x -> no_small tiny (r_j r x) -> in_box cl cu y -> on_off r x y ->
  exists cs, get_oa tiny vtiny cl cu r x = Ok cs /\ forall c, In c cs -> holds c y.

(** C203: the sampling of both outer descriptions ends. *)
Definition C203_full : Prop := forall nb int cl cu r, length int = length cl -> length cu = length cl -> exists fuel pts, od_points nb fuel int cl cu r = Ok pts.
Definition C203_values_full : Prop := forall nb lin cl cu r, length lin = length cl -> length cu = length cl -> exists fuel pts, fv_points nb fuel lin cl cu r = Ok pts.
(** The points chosen: each the first at which the row has moved by thr from the value at the last one. *)
Fixpoint spaced (g : nat -> Q) (thr : Q) (from : nat) (ref : Q) (ks : list nat) : Prop :=
  match ks with
  | [] => True
  | k :: ks => (from < k)%nat /\ thr <= Qabs (ref - g k) /\ (forall j, (from < j < k)%nat -> Qabs (ref - g j) < thr) /\ spaced g thr k (g k) ks
  end.

(** C204: the points at which functions are evaluated for an outer description lie within the bounds. *)
Definition C204_full : Prop := forall nb fuel flags cl cu r pts p, length flags = length cl -> length cu = length cl ->
  (exists y, in_box cl cu y) ->
  od_points nb fuel flags cl cu r = Ok pts \/ fv_points nb fuel flags cl cu r = Ok pts \/ refined_points nb flags cl cu = pts ->
  In p pts -> in_box cl cu p.
(** Where clipping to 10000 does no harm. *)
Definition clippable (flags : list bool) (cl cu : list ext) : Prop :=
  forall i, (i < length cl)%nat -> let l := nth i cl MInf in let u := nth i cu PInf in
    if nth i flags false then lo_ok l 0 /\ up_ok u 0 else lo_ok l 10000 /\ up_ok u (-10000) /\ exists v, lo_ok l v /\ up_ok u v.

(** C205: the linear program keeps all solutions. *)
Definition C205_full : Prop := forall tiny vtiny cl cu rows x cs y, 0 < vtiny <= tiny ->
  (forall r, In r rows -> row_wf cl cu r x /\ convex cl cu (r_lo r) (r_up r) r x /\ on_off r x y /\
                          (r_linear r = true -> forall z, r_g r z == lhs (r_j r x) z)) ->
  in_box cl cu y -> extract tiny vtiny cl cu rows x = Ok cs -> forall c, In c cs -> holds c y.

(** C206: a copy of a transformer works like the original. *)
Definition C206_full : Prop := forall t, uses (clone t) = uses t.

(** C207: with a second point only tangents violated by it are added. *)
Definition violation (c : cut) (y : list Q) (theta : Q) : Prop :=
  (exists u, c_up c = Fin u /\ theta <= lhs (c_row c) y - u) \/ (exists l, c_lo c = Fin l /\ theta <= l - lhs (c_row c) y).
Definition C207_full : Prop := forall cl cu r dual x y theta c cs, r_id r = None -> 0 < theta ->
  getMyOuterApproximation cl cu r dual x None 0 = Ok [c] ->
  getMyOuterApproximation cl cu r dual x (Some y) theta = Ok cs -> cs <> [] -> violation c y theta.

(** C208: the tangent at a point that violates the row is violated by the point. *)
Definition C208_full : Prop := forall cl cu r dual x cs, row_wf cl cu r x -> r_id r = None -> ~ satisfied r x ->
  getMyOuterApproximation cl cu r dual x None 0 = Ok cs -> exists c, In c cs /\ ~ holds c x.
