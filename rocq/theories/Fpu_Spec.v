(** Specification of the feasibility pump heuristic (C115 - C118). *)
From Verif Require Import Base Arr Oad_Model Fpu_Model.
#[local] Open Scope Q_scope.

Record sized (n : nat) (P : prob) : Prop := {
  sz_ty : length (p_ty P) = n; sz_lo : length (p_lo P) = n; sz_up : length (p_up P) = n;
  sz_jac : forall r c a, In ((r, c), a) (p_jac P) -> (c < n)%nat;
  sz_tol : 0 <= p_tol P /\ p_tol P < 1 # 2 }.
Definition is_int (P : prob) (i : nat) : Prop := nth_error (p_ty P) i = Some true.
(** Within the tolerance of an integer. *)
Definition integral (tol v : Q) : Prop := exists z, Qabs (v - inject_Z z) <= tol.
(** Inside the bounds of column i, up to 1e-6. *)
Definition above (l : ext) (v : Q) : Prop := match l with MInf => True | Fin a => a - ptol <= v | PInf => False end.
Definition under (u : ext) (v : Q) : Prop := match u with MInf => False | Fin b => v <= b + ptol | PInf => True end.
Definition boxed (P : prob) (i : nat) (v : Q) : Prop := forall l u, nth_error (p_lo P) i = Some l -> nth_error (p_up P) i = Some u -> above l v /\ under u v.
Definition in_box (P : prob) (x : list Q) : Prop := forall i v l u, nth_error x i = Some v -> nth_error (p_lo P) i = Some l -> nth_error (p_up P) i = Some u -> lo_ok l v /\ up_ok u v.
(** There is an integer between the bounds of every integer column. *)
Definition has_int (P : prob) : Prop := forall i l u, is_int P i -> nth_error (p_lo P) i = Some l -> nth_error (p_up P) i = Some u ->
  exists z, lo_ok l (inject_Z z) /\ up_ok u (inject_Z z).
(** Value of a row linear with the coefficients of the Jacobian. *)
Definition row_val (jac : list (nat * nat * Q)) (r : nat) (x : list Q) : Q :=
  qsum (map (fun e => snd e * nth (snd (fst e)) x 0) (filter (fun e => Nat.eqb (fst (fst e)) r) jac)).
Definition one_row (P : prob) (r : nat) : Prop := exists a b, nth_error (p_g P) r = Some (Fin a, Fin b) /\ a == 1 /\ b == 1.
(** What rounding promises. *)
Definition rounds_well (n : nat) (P : prob) (x : list Q) : Prop :=
  exists x', round P x = Ok x' /\ length x' = n /\ forall i v, is_int P i -> nth_error x' i = Some v -> integral (p_tol P) v /\ boxed P i v.
(** C115: the rounding of a point that satisfies the bounds and the rows x_1 + ... + x_k = 1
    is integral and inside the bounds. *)
Definition C115_full : Prop := forall n P x, sized n P -> has_int P -> length x = n -> in_box P x ->
  (forall r, one_row P r -> row_val (p_jac P) r x == 1) -> rounds_well n P x.

(** A target of the pump: one value per integer column, integral and inside the bounds. *)
Definition good_target (P : prob) (t : list Q) : Prop :=
  length t = length (ints P) /\ forall j i v, nth_error (ints P) j = Some i -> nth_error t j = Some v -> integral (p_tol P) v /\ boxed P i v.
(** Two targets differ by more than the tolerance somewhere. *)
Definition differs (tol : Q) (a b : list Q) : Prop := exists j v w, nth_error a j = Some v /\ nth_error b j = Some w /\ tol < Qabs (v - w).
(** How a target is related to the earlier ones (last first). *)
Definition link (tol : Q) (t : list Q) (h : how) (l : list (list Q * how)) : Prop :=
  match h, l with
  | Rounded, [] => True
  | Rounded, (t1, _) :: _ => differs tol t t1
  | Flipped, (t1, _) :: l' => (exists j0, forall j v w, j <> j0 -> nth_error t j = Some v -> nth_error t1 j = Some w -> Qabs (v - w) <= tol) /\
                              forall p, In p (firstn 3 l') -> differs tol t (fst p)
  | Perturbed, (t1, _) :: _ => forall j v w, nth_error t j = Some v -> nth_error t1 j = Some w -> v == w \/ v == w + 1 \/ v == w - 1
  | _, [] => False
  end.
Inductive chain (tol : Q) : list (list Q * how) -> Prop :=
| chain0 : chain tol []
| chain1 : forall t h l, chain tol l -> link tol t h l -> chain tol ((t, h) :: l).
(** The integer columns are integral at x; the point after the targets l (last first);
    the last projection is at distance less than 1e-5 of its target. *)
Definition all_int (P : prob) (x : list Q) : Prop := forall i v, is_int P i -> nth_error x i = Some v -> integral (p_tol P) v.
Definition point (O : nat -> list Q -> Q * list Q) (x0 : list Q) (l : list (list Q * how)) : list Q :=
  match l with [] => x0 | (t, _) :: l' => snd (O (length l') t) end.
Definition reached (O : nat -> list Q -> Q * list Q) (l : list (list Q * how)) : Prop :=
  match l with [] => False | (t, _) :: l' => fst (O (length l') t) < 1 # 100000 end.
(** C117: two consecutive targets are different. *)
Fixpoint moving (tol : Q) (l : list (list Q * how)) : Prop :=
  match l with
  | (t, _) :: (((t1, _) :: _) as l') => differs tol t t1 /\ moving tol l'
  | _ => True
  end.
(** What the surroundings promise the pump: points [good], one index for the sort. *)
Record world (n : nat) (P : prob) (good : list Q -> Prop) (O : nat -> list Q -> Q * list Q) (srt : nat -> list Q -> nat) : Prop := {
  wo_len : forall x, good x -> length x = n;
  wo_round : forall x, good x -> rounds_well n P x;
  wo_nlp : forall k t, good (snd (O k t));
  wo_srt : forall k sc, sc <> [] -> (srt k sc < length sc)%nat }.
Definition C117_full : Prop := forall n P good O srt rnd fin f e x0 val buf r, sized n P -> world n P good O srt -> good x0 ->
  solution P O srt rnd fin f e (Some x0) val buf = Ok r -> moving (p_tol P) (r_log r).
