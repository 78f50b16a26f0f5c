(** Specification of the problem object in terms of the history of calls.
    Histories are given newest call first. *)
From Verif Require Import Base Arr Nlp Prob_Model.
#[local] Open Scope Q_scope.

(** Constraint bounds in force after the history. *)
Fixpoint rows_now (P : nlp) (h : list op) : list ext * list ext :=
  match h with
  | [] => (p_gl P, p_gu P)
  | OAdd gl gu _ :: h => (fst (rows_now P h) ++ gl, snd (rows_now P h) ++ gu)
  | ODel gl gu :: _ => (gl, gu)
  | _ :: h => rows_now P h
  end.
Definition m_now (P : nlp) (h : list op) : nat := length (fst (rows_now P h)).

(** Arguments have the sizes the interface asks for at the time of the call. *)
Definition valid_op (n m : nat) (o : op) : Prop :=
  match o with
  | OReset => True
  | OX x _ => length x = n
  | OD d _ => length d = (2 * n + m)%nat
  | OAdd gl gu _ => length gu = length gl
  | ODel gl gu => length gu = length gl /\ (length gl <= m)%nat
  | OBounds l u => length l = n /\ length u = n
  | OLower l => length l = n
  | OUpper u => length u = n
  | OBound i _ _ | OLow i _ | OUp i _ => (i < n)%nat
  | OFinal x g zL zU lam _ _ =>
      length x = n /\ length g = m /\ length zL = n /\ length zU = n /\ length lam = m
  end.
Fixpoint valid_hist (P : nlp) (h : list op) : Prop :=
  match h with
  | [] => True
  | o :: h => valid_hist P h /\ valid_op (p_n P) (m_now P h) o
  end.

(** ** Starting point *)
(** Last primal point set since the last reset. *)
Fixpoint last_x (h : list op) : option (list Q) :=
  match h with
  | [] => None
  | OX x _ :: _ => Some x
  | OReset :: _ => None
  | _ :: h => last_x h
  end.
(** Last multipliers set since the last reset. *)
Fixpoint last_d (h : list op) : option (list Q) :=
  match h with
  | [] => None
  | OD d _ :: _ => Some d
  | OReset :: _ => None
  | _ :: h => last_d h
  end.
(** The same when rows may change: rows added later have multiplier 0; after a
    removal of rows the multipliers are not meaningful any more. *)
Fixpoint wanted_d (h : list op) : option (list Q) :=
  match h with
  | [] => None
  | OD d _ :: _ => Some d
  | OReset :: _ => None
  | OAdd gl _ _ :: h => option_map (fun d => d ++ repeat 0 (length gl)) (wanted_d h)
  | ODel _ _ :: _ => None
  | _ :: h => wanted_d h
  end.

(** What the solver should be handed: x, and multipliers d = (z_L, z_U, lambda)
    if there are any; the call returns false when multipliers are asked for and
    there are none. *)
Definition answer (n : nat) (x : list Q) (d : option (list Q)) (ix iz il : bool) : start :=
  let ox := if ix then Some x else None in
  match d with
  | None => mkStart (negb (iz || il)) ox None None None
  | Some d => mkStart true ox (if iz then Some (firstn n d) else None)
                (if iz then Some (firstn n (skipn n d)) else None)
                (if il then Some (skipn (2 * n) d) else None)
  end.

Definition C15_full : Prop :=
  forall P h, nlp_ok P -> valid_hist P h ->
  exists s, run P h = Ok s /\
  forall ix iz il,
    get_starting_point (p_n P) (m_now P h) ix iz il s =
    Ok (answer (p_n P) (match last_x h with Some x => x | None => p_x0 P end) (wanted_d h) ix iz il).

(** What really happens.  Setting multipliers or adding rows creates a primal
    point (of zeros) when there was none, and adding rows creates multipliers. *)
Fixpoint eff_x (n : nat) (h : list op) : option (list Q) :=
  match h with
  | [] => None
  | OX x _ :: _ => Some x
  | OReset :: _ => None
  | OD _ _ :: h | OAdd _ _ _ :: h => Some (match eff_x n h with Some x => x | None => repeat 0 n end)
  | _ :: h => eff_x n h
  end.
Fixpoint eff_d (P : nlp) (h : list op) : option (list Q) :=
  match h with
  | [] => None
  | OD d _ :: _ => Some d
  | OReset :: _ => None
  | (OAdd _ _ _ as o) :: h' =>
      let k := (2 * p_n P + m_now P (o :: h'))%nat in
      let d := match eff_d P h' with Some d => d | None => [] end in
      Some (firstn k d ++ repeat 0 (k - length d))
  | _ :: h => eff_d P h
  end.
(** Multipliers have existed at some time. *)
Fixpoint ever_d (h : list op) : bool :=
  match h with [] => false | OD _ _ :: _ | OAdd _ _ _ :: _ => true | _ :: h => ever_d h end.
(** The outcome of a query: a failed assertion when multipliers are asked for and
    the stored ones have been dropped by a reset or do not fit the rows. *)
Definition real_answer (P : nlp) (h : list op) (ix iz il : bool) : outcome start :=
  let x := match eff_x (p_n P) h with Some x => x | None => p_x0 P end in
  match eff_d P h with
  | Some d => if ((iz || il) && negb (Nat.eqb (length d) (2 * p_n P + m_now P h)))%bool then AssertFail
              else Ok (answer (p_n P) x (Some d) ix iz il)
  | None => if ((iz || il) && ever_d h)%bool then AssertFail
            else Ok (answer (p_n P) x None ix iz il)
  end.

(** ** Bounds *)
(** Lower bound of variable i in force after the history. *)
Fixpoint lower_at (P : nlp) (h : list op) (i : nat) : ext :=
  match h with
  | [] => nth i (p_xl P) MInf
  | OBounds l _ :: _ => nth i l MInf
  | OLower l :: _ => nth i l MInf
  | OBound j l _ :: h => if Nat.eqb i j then l else lower_at P h i
  | OLow j l :: h => if Nat.eqb i j then l else lower_at P h i
  | _ :: h => lower_at P h i
  end.
Fixpoint upper_at (P : nlp) (h : list op) (i : nat) : ext :=
  match h with
  | [] => nth i (p_xu P) PInf
  | OBounds _ u :: _ => nth i u PInf
  | OUpper u :: _ => nth i u PInf
  | OBound j _ u :: h => if Nat.eqb i j then u else upper_at P h i
  | OUp j u :: h => if Nat.eqb i j then u else upper_at P h i
  | _ :: h => upper_at P h i
  end.

(** ** Solutions *)
(** Point, row activities and objective of the last finished solve. *)
Fixpoint last_final (h : list op) : list Q * list Q * option Q :=
  match h with
  | [] => ([], [], None)
  | OFinal x g _ _ _ ob v :: _ => (x, g, Some (match v with Some w => w | None => ob end))
  | _ :: h => last_final h
  end.
(** Multipliers: those of the last finished solve, 0 for rows added since
    (adding rows to a problem never solved gives zeros). *)
Fixpoint last_duals (P : nlp) (h : list op) : list Q :=
  match h with
  | [] => []
  | OFinal _ _ zL zU lam _ _ :: _ => zL ++ zU ++ lam
  | (OAdd _ _ _ as o) :: h' =>
      let k := (m_now P (o :: h') + 2 * p_n P)%nat in
      firstn k (last_duals P h') ++ repeat 0 (k - length (last_duals P h'))
  | _ :: h => last_duals P h
  end.
Definition C52_full : Prop :=
  forall P h, nlp_ok P -> valid_hist P h ->
  exists s, run P h = Ok s /\ (b_xs s, b_gs s, b_obj s) = last_final h /\ b_ds s = last_duals P h.
(** The number of rows never drops to zero. *)
Fixpoint rows_stay (h : list op) : Prop :=
  match h with
  | [] => True
  | ODel gl _ :: h => rows_stay h /\ gl <> []
  | _ :: h => rows_stay h
  end.

(** ** Rounding and checking *)
(** e is the largest violation of the bounds gl <= g <= gu (0 when all hold). *)
Definition viol_le (e : Q) (gl gu : list ext) (g : list Q) : Prop :=
  forall i l u v, nth_error gl i = Some l -> nth_error gu i = Some u -> nth_error g i = Some v ->
    match l with MInf => True | Fin q => q - v <= e | PInf => False end /\
    match u with PInf => True | Fin q => v - q <= e | MInf => False end.
Definition viol_hit (e : Q) (gl gu : list ext) (g : list Q) : Prop :=
  e == 0 \/ exists i v, nth_error g i = Some v /\
     ((exists q, nth_error gl i = Some (Fin q) /\ e == q - v) \/
      (exists q, nth_error gu i = Some (Fin q) /\ e == v - q)).
Definition integral (q : Q) : Prop := exists z, q == inject_Z z.
(** z is the integer nearest to q (halves go up). *)
Definition nearest (q z : Q) : Prop := integral z /\ z - (1#2) <= q /\ q < z + (1#2).

(** ** Forcing a fractional point *)
Definition unfixed (l u : ext) : Prop :=
  match l, u with Fin a, Fin b => a < b | _, _ => True end.
Definition C54_full : Prop :=
  forall s r i t l u x e,
    force_fractionnal_sol s = Ok r ->
    nth_error (b_ty s) i = Some t -> nth_error (b_xl s) i = Some l -> nth_error (b_xu s) i = Some u ->
    nth_error (b_xs s) i = Some x -> nth_error r i = Some e ->
    (t = true /\ unfixed l u -> exists v, e = Fin v /\ ~ integral v) /\
    (t = false \/ ~ unfixed l u -> e = Fin x).

(** ** Copying: what can be seen of an object *)
Definition same_view (s t : prob) : Prop :=
  b_P s = b_P t /\ b_xl s = b_xl t /\ b_xu s = b_xu t /\ b_ol s = b_ol t /\ b_ou s = b_ou t /\
  b_gl s = b_gl t /\ b_gu s = b_gu t /\ b_ty s = b_ty t /\ b_user s = b_user t /\
  b_xs s = b_xs t /\ b_gs s = b_gs t /\ b_ds s = b_ds t /\ b_obj s = b_obj t /\
  has_x_init s = has_x_init t /\
  forall n m ix iz il, get_starting_point n m ix iz il s = get_starting_point n m ix iz il t.
Definition C55_full : Prop :=
  forall P h s, nlp_ok P -> valid_hist P h -> run P h = Ok s ->
  exists t, copy_ctor s = Ok t /\ same_view t s.
Definition C56_full : Prop :=
  forall P P' h h' s t, nlp_ok P -> nlp_ok P' -> p_n P = p_n P' ->
  valid_hist P h -> valid_hist P' h' -> run P h = Ok s -> run P' h' = Ok t ->
  exists t', assign s t = Ok t' /\ same_view t' s.
