(** Specifications for cut strengthening: C40, C82-C84, C133. *)
From Verif Require Import Base Arr Oad_Model Str_Model.
#[local] Open Scope Q_scope.

(** A point of the problem: [n] variables and the objective variable at the end.  *)
Definition value (c : row) (z : list Q) : Q := qsum (map (fun p => snd p * nth (fst p) z 0) c).
Definition holds (c : row) (lb ub : ext) (z : list Q) : Prop := lo_ok lb (value c z) /\ up_ok ub (value c z).
Definition in_box (n : nat) (l u : list ext) (z : list Q) : Prop :=
  forall j, (j < n)%nat -> lo_ok (nth j l MInf) (nth j z 0) /\ up_ok (nth j u PInf) (nth j z 0).
(** The constraint (or, for the objective, f(z) <= w) holds. *)
Definition con_ok (t : tminlp) (gi : option nat) (z : list Q) : Prop :=
  match gi with
  | None => exists z' w, z = z' ++ [w] /\ t_f t z' <= w
  | Some i => exists z' w, z = z' ++ [w] /\ lo_ok (nth i (t_gl t) PInf) (t_g t i z') /\ up_ok (nth i (t_gu t) MInf) (t_g t i z')
  end.
Definition integral (n : nat) (ts : list vtype) (z : list Q) : Prop :=
  forall j, (j < n)%nat -> discrete (nth j ts CONT) = true -> exists k : Z, nth j z 0 == inject_Z k.
(** A solver that finds minima. *)
Definition dotp (o y : list Q) : Q := qsum (map (fun p => fst p * snd p) (combine o y)).
Definition feas (P : stnlp) (y : list Q) : Prop :=
  length y = length (y_vars P) /\ Forall2 lo_ok (y_lo P) y /\ Forall2 up_ok (y_up P) y /\
  exists v, y_con P y = Ok v /\ lo_ok (y_gl P) v /\ up_ok (y_gu P) v.
Definition exact (solver : stnlp -> option Q) : Prop :=
  forall P b, solver P = Some b -> (forall y, feas P y -> b <= dotp (y_obj P) y) /\ exists y, feas P y /\ dotp (y_obj P) y == b.
(** The boxes the cut is strengthened on: the whole one, or one side of a disjunction on a discrete
    variable of the cut. *)
Definition fractional (v : Q) : Prop := ~ exists k : Z, v == inject_Z k.
Definition changed (l : list ext) (j : nat) (e : ext) (l' : list ext) : Prop :=
  length l' = length l /\ forall i, nth i l' MInf = if Nat.eqb i j then e else nth i l MInf.
Inductive piece (n : nat) (ts : list vtype) (x : list Q) (c : row) (l u : list ext) : list ext -> list ext -> Prop :=
| pc_whole : piece n ts x c l u l u
| pc_down : forall j u', In j (map fst c) -> (j < n)%nat -> discrete (nth j ts CONT) = true -> fractional (nth j x 0) ->
    changed u j (Fin (inject_Z (Qfloor (nth j x 0)))) u' -> piece n ts x c l u l u'
| pc_up : forall j l', In j (map fst c) -> (j < n)%nat -> discrete (nth j ts CONT) = true -> fractional (nth j x 0) ->
    changed l j (Fin (inject_Z (Qfloor (nth j x 0)) + 1)) l' -> piece n ts x c l u l' u.
(** The variables announced for a strengthening problem (the structure of a constraint's gradient; for
    the objective, those with a nonzero derivative at the point tried) tell all: with the others
    as in [x], the function is the same in the box. *)
Definition func (t : tminlp) (gi : option nat) (a : list Q) : Q := match gi with None => t_f t a | Some i => t_g t i a end.
Definition sees (t : tminlp) (gi : option nat) (rnd : nat -> Q) (n : nat) (x : list Q) (c : row) (l u : list ext) : Prop :=
  forall v, sub_vars t rnd gi n x l u = Ok (Some v) -> incl (map fst c) v ->
    forall z a, length z = n -> length a = n -> in_box n l u z ->
      (forall j, In j v -> nth j a 0 = nth j z 0) -> (forall j, ~ In j v -> nth j a 0 = nth j x 0) -> func t gi a == func t gi z.
(** Preconditions. *)
Record str_pre (t : tminlp) (rnd : nat -> nat -> Q) (gi : option nat) (l u : list ext) (n : nat) (x : list Q) (c : row) : Prop := {
  st_x : length x = n;
  st_l : length l = n;
  st_u : length u = n;
  st_types : length (t_types t) = n;
  st_nodup : NoDup (map fst c);
  st_struct : forall i v, gi = Some i -> t_struct t i = Some v -> NoDup v /\ Forall (fun j => (j < n)%nat) v;
  st_gf : forall a g, t_gf t a = Some g -> length g = n;
  st_sees : forall k l' u', piece n (t_types t) x c l u l' u' -> sees t gi (rnd k) n x c l' u' }.

(** ** C40 *)
Definition C40_full : Prop := forall solver t rnd d tight gi l u c lb ub n x infty c' lb' ub',
  exact solver -> str_pre t rnd gi l u n x c ->
  HandleOneCut solver t rnd d tight gi l u c lb ub n x infty = Ok (true, c', lb', ub') ->
  forall z, length z = S n -> in_box n l u z -> con_ok t gi z -> integral n (t_types t) z -> holds c lb ub z -> holds c' lb' ub' z.
(** [z] takes one of the two integers around the value of [x], for each discrete variable of the cut that is
    fractional in [x]. *)
Definition near (n : nat) (ts : list vtype) (x : list Q) (c : row) (z : list Q) : Prop :=
  forall j, In j (map fst c) -> (j < n)%nat -> discrete (nth j ts CONT) = true -> fractional (nth j x 0) ->
    inject_Z (Qfloor (nth j x 0)) <= nth j z 0 <= inject_Z (Qfloor (nth j x 0)) + 1.

(** ** C82: never weaker *)
(** The cut is implied by the constraint in the box. *)
Definition valid_in (t : tminlp) (gi : option nat) (n : nat) (l u : list ext) (c : row) (lb ub : ext) : Prop :=
  forall z, length z = S n -> in_box n l u z -> con_ok t gi z -> holds c lb ub z.

(** ** C83: validity of all cuts produced, for binary variables *)
Definition binary (n : nat) (ts : list vtype) (l u : list ext) : Prop :=
  forall j, (j < n)%nat -> discrete (nth j ts CONT) = true ->
    (exists a, nth j l MInf = Fin a /\ 0 <= a) /\ exists b, nth j u PInf = Fin b /\ b <= 1.

(** ** C84: strengthening of an objective cut does not stop the program *)
Definition one_sided (lb ub : ext) : Prop := (lb = MInf /\ ub <> PInf) \/ (lb <> MInf /\ ub = PInf).
Definition C84_full : Prop := forall solver t rnd d tight gi l u c lb ub n x infty,
  str_pre t rnd gi l u n x c -> one_sided lb ub ->
  match gi with
  | None => exists g, t_gf t x = Some g /\ (forall j, In j (map fst c) -> ((j < n)%nat /\ ~ nth j g 0 == 0) \/ j = n)
  | Some i => (i < length (t_gl t))%nat /\ (i < length (t_gu t))%nat /\ forall v, t_struct t i = Some v -> incl (map fst c) v
  end ->
  exists r, HandleOneCut solver t rnd d tight gi l u c lb ub n x infty = Ok r.

(** ** C133: without a disjunction the cut obtained is the tightest one *)
(** The constraint is active (within 1e-8) at the point on the side of the cut; an objective cut always is. *)
Definition active (gi : option nat) (lb ub : ext) (g : Q) (glb gub : ext) : Prop :=
  gi = None \/ (lb = MInf /\ exists v, gub = Fin v /\ v - g <= 1 # 100000000) \/ (ub = PInf /\ exists v, glb = Fin v /\ g - v <= 1 # 100000000).
(** Some point of the box satisfies the constraint and the cut with equality. *)
Definition supports (t : tminlp) (gi : option nat) (n : nat) (l u : list ext) (c : row) (lb ub : ext) : Prop :=
  exists z b, length z = S n /\ in_box n l u z /\ con_ok t gi z /\ value c z == b /\ ((lb = Fin b /\ ub = PInf) \/ (lb = MInf /\ ub = Fin b)).
Definition close (a b : ext) : Prop :=
  match a, b with Fin p, Fin q => Qabs (p - q) < 1 # 10000 | PInf, PInf | MInf, MInf => True | _, _ => False end.
(** What the strengthening types ask for, doc/options_set.tex cut_strengthening_type. *)
Definition wants_global (ty : cstype) : Prop := ty = CS_StrengthenedGlobal \/ ty = CS_StrengthenedGlobal_StrengthenedLocal.
Definition wants_local (ty : cstype) : Prop := ty = CS_UnstrengthenedGlobal_StrengthenedLocal \/ ty = CS_StrengthenedGlobal_StrengthenedLocal.
