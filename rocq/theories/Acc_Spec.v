(** Specification of the interface seen as an Osi solver (C92-C98).
    Histories are given newest call first. *)
From Verif Require Import Base Arr Nlp Prob_Model Prob_Spec Acc_Model.
#[local] Open Scope Q_scope.

(** Calls reaching the problem object. *)
Fixpoint calls (h : list iop) : list op :=
  match h with
  | [] => []
  | ISolve x g zL zU lam ob v :: h => OFinal x g zL zU lam ob v :: calls h
  | ISetCol x ex :: h => OX x ex :: calls h
  | IClearCol :: h => OReset :: calls h
  | ISetPrice d ex :: h => OD d ex :: calls h
  | ILow i l :: h => OLow i l :: calls h
  | IUp i u :: h => OUp i u :: calls h
  | ILows l :: h => OLower l :: calls h
  | IUps u :: h => OUpper u :: calls h
  | IAdd gl gu ex :: h => OAdd gl gu ex :: calls h
  | IDel gl gu :: h => ODel gl gu :: calls h
  | _ :: h => calls h
  end.
Definition no_use (h : list iop) : Prop := Forall (fun o => match o with IUse _ => False | _ => True end) h.
(** Arguments have the right sizes and the problem object is not exchanged. *)
Definition legal (P : nlp) (h : list iop) : Prop := no_use h /\ valid_hist P (calls h).

(** ** C92: sense, right-hand side and range describe the rows *)
Definition sense_ok (d : sense * ext * ext) (v : Q) : Prop :=
  match d with
  | (sE, r, _) => lo_ok r v /\ up_ok r v
  | (sL, r, _) => up_ok r v
  | (sG, r, _) => lo_ok r v
  | (sR, r, w) => lo_ok (eminus r w) v /\ up_ok r v
  | (sN, _, _) => True
  end.
Definition describes (d : sense * ext * ext) (b : ext * ext) : Prop :=
  forall v, sense_ok d v <-> (lo_ok (fst b) v /\ up_ok (snd b) v).
(** The documented form of the range: 0 unless the row is a range. *)
Definition range_ok (d : sense * ext * ext) : Prop :=
  match d with (sR, _, _) => True | (_, _, w) => w = Fin 0 end.
(** No lower bound of +infinity, no upper bound of -infinity. *)
Definition proper (b : ext * ext) : Prop := fst b <> PInf /\ snd b <> MInf.
(** The three arrays (NULL when there are no rows) against the row bounds. *)
Definition arrays_ok (gl gu : list ext) (ss : option (list sense)) (rs ws : option (list ext)) : Prop :=
  match gl with
  | [] => ss = None /\ rs = None /\ ws = None
  | _ => exists s r w, ss = Some s /\ rs = Some r /\ ws = Some w /\
         Forall2 (fun d b => describes d b /\ range_ok d) (combine (combine s r) w) (combine gl gu) /\
         length s = length gl /\ length r = length gl /\ length w = length gl
  end.
(** What the three queries return after the history, asked in this order. *)
Definition ask (s : itf) : outcome (option (list sense) * option (list ext) * option (list ext)) :=
  do ' (ss, s) <- getRowSense s; do ' (rs, s) <- getRightHandSide s; do ' (ws, s) <- getRowRange s;
  Ok (ss, rs, ws).
(** Row bounds a user of the interface sees. *)
Definition C92_full : Prop :=
  forall P h s, nlp_ok P -> irun P h = Ok s ->
  Forall proper (combine (b_gl (i_p s)) (b_gu (i_p s))) -> length (b_gu (i_p s)) = length (b_gl (i_p s)) ->
  exists ss rs ws, ask s = Ok (ss, rs, ws) /\ arrays_ok (b_gl (i_p s)) (b_gu (i_p s)) ss rs ws.

(** ** C93: the point reported *)
(** The last point set by the user or found by a solve. *)
Fixpoint last_point (h : list iop) : option (list Q) :=
  match h with
  | [] => None
  | ISolve x _ _ _ _ _ _ :: _ => Some x
  | ISetCol x _ :: _ => Some x
  | IClearCol :: _ => None
  | _ :: h => last_point h
  end.
Definition C93_full : Prop :=
  forall P h, nlp_ok P -> (0 < p_n P)%nat -> legal P h ->
  exists s, irun P h = Ok s /\
  forall x, last_point h = Some x -> getColSolution s = Ok x.
(** A solve is the last call that matters: rows and queries do not. *)
Fixpoint solved (h : list iop) : bool :=
  match h with
  | [] => false
  | ISolve _ _ _ _ _ _ _ :: _ => true
  | (ISense | IRhs | IRange | IAdd _ _ _ | IDel _ _ | IUse _) :: h => solved h
  | _ => false
  end.
(** What is really reported. *)
Definition shown (n : nat) (h : list iop) : option (list Q) :=
  if solved h then Some (fst (fst (last_final (calls h)))) else eff_x n (calls h).

(** ** C94: point, activities, objective and gradient belong together *)
(** Every solve reports the values of its point, on the rows of the problem. *)
Definition true_solves (P : nlp) (h : list iop) : Prop :=
  Forall (fun o => match o with
                   | ISolve x g _ _ _ ob v => g = p_g P x /\ ob = p_f P x /\ v = None
                   | IAdd _ _ _ | IDel _ _ => False
                   | _ => True
                   end) h.
Definition has_solve (h : list iop) : Prop := exists x g zL zU lam ob v, In (ISolve x g zL zU lam ob v) h.
Definition C94_full : Prop :=
  forall P h, nlp_ok P -> (0 < p_n P)%nat -> legal P h -> true_solves P h -> has_solve h ->
  exists s, irun P h = Ok s /\
  forall x, getColSolution s = Ok x ->
  getRowActivity s = Ok (p_g P x) /\ getObjValue s = Some (p_f P x) /\ getObjCoefficients s = Ok (p_gf P x).

(** ** C95: the basis made up for the rows *)
(** A row at one bound and well away from the other one. *)
Definition at_lower (l u : ext) (a : Q) : Prop :=
  (exists q, l = Fin q /\ a == q) /\ match u with Fin q => a + (1#1000) <= q | PInf => True | MInf => False end.
Definition at_upper (l u : ext) (a : Q) : Prop :=
  (exists q, u = Fin q /\ a == q) /\ match l with Fin q => q + (1#1000) <= a | MInf => True | PInf => False end.
Definition between (l u : ext) (a : Q) : Prop :=
  match l with Fin q => q + (1#1000) <= a | MInf => True | PInf => False end /\
  match u with Fin q => a + (1#1000) <= q | PInf => True | MInf => False end.
(** Rows at their lower bound and rows at their upper bound are told apart. *)
Definition C95_full : Prop :=
  forall s st, build_fake_basis s = Ok st ->
  forall i j l u a l' u' a' t t',
    nth_error (b_gl (i_p s)) i = Some l -> nth_error (b_gu (i_p s)) i = Some u ->
    nth_error (b_gs (i_p s)) i = Some a -> nth_error st i = Some t ->
    nth_error (b_gl (i_p s)) j = Some l' -> nth_error (b_gu (i_p s)) j = Some u' ->
    nth_error (b_gs (i_p s)) j = Some a' -> nth_error st j = Some t' ->
    (between l u a -> t = bBasic) /\ (at_lower l u a \/ at_upper l u a -> t <> bBasic) /\
    (at_lower l u a -> at_upper l' u' a' -> t <> t').

(** ** C96: parameters *)
Definition C96_full : Prop :=
  forall k v p ok p', setDblParam k v p = (ok, p') ->
  (ok = true -> getDblParam k p' = Some (Fin v)) /\ (ok = false -> p' = p) /\
  (forall k', k' <> k -> getDblParam k' p' = getDblParam k' p).

(** ** C97: violations *)
(** v is the largest violation over the rows selected (0 when none is violated). *)
Definition row_excess (l u : ext) (g e : Q) : Prop :=
  match l with MInf => True | Fin q => q - g <= e | PInf => False end /\
  match u with PInf => True | Fin q => g - q <= e | MInf => False end.
Definition largest (gl gu : list ext) (g : list Q) (sel : nat -> Prop) (v : Q) : Prop :=
  0 <= v /\
  (forall i l u x, nth_error gl i = Some l -> nth_error gu i = Some u -> nth_error g i = Some x ->
     sel i -> row_excess l u x v) /\
  (v == 0 \/ exists i x, nth_error g i = Some x /\ sel i /\
     ((exists q, nth_error gl i = Some (Fin q) /\ v == q - x) \/
      (exists q, nth_error gu i = Some (Fin q) /\ v == x - q))).
(** Finite bounds are within 1e10. *)
Definition small_bounds (b : ext * ext) : Prop :=
  match fst b with MInf => True | Fin q => - big < q | PInf => False end /\
  match snd b with PInf => True | Fin q => q < big | MInf => False end.
Definition C97_full : Prop :=
  forall P h s ct x, nlp_ok P -> legal P h -> irun P h = Ok s -> length x = p_n P ->
  (forall t, ct = Some t -> t = p_lin P) ->
  Forall small_bounds (combine (b_gl (i_p s)) (b_gu (i_p s))) ->
  exists v, getConstraintsViolation ct x s = Ok (v, p_f P x) /\
    largest (p_gl P) (p_gu P) (p_g P x) (fun _ => True) v.
Definition no_row_change (h : list iop) : Prop :=
  Forall (fun o => match o with IAdd _ _ _ | IDel _ _ | IUse _ => False | _ => True end) h.

(** ** C98: warm starts *)
Definition C98_full : Prop :=
  forall (W : Type) (empty basis : W) valid pd m w stored,
  let '(acc, stored', _) := setWarmStart W valid pd m (Some w) stored in
  (acc = true -> getWarmStart W empty basis m stored' = w) /\
  (acc = false -> stored' = stored).
