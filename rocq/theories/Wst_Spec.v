From Verif Require Import Base Arr Wst_Model.
#[local] Open Scope Q_scope.

(** The point and the multipliers that the interface has stored for its next solve; None: the user's point, no multipliers. *)
Definition point_of (n : nat) (user : list Q) (s : st) : list Q := match s_x s with [] => firstn n user | l => firstn n l end.
Definition duals_of (n : nat) (s : st) : option (list Q) := if s_du s then Some (skipn n (s_x s)) else None.
(** A complete start: point and multipliers of the right sizes. *)
Definition complete (n m : nat) (s : st) : Prop := length (s_x s) = (3 * n + m)%nat /\ s_du s = true /\ s_alloc s = true.
Definition sized (n m : nat) (w : ws) : Prop := length (w_x w) = n /\ length (w_d w) = (2 * n + m)%nat.
(** The random points have one value per variable, the points found one per variable and three kinds of multipliers. *)
Definition sizes (n m : nat) (ans : nat -> answer) (rnd : nat -> list Q) : Prop :=
  (forall k, length (rnd k) = n) /\ (forall k, length (a_x (ans k)) = n /\ length (a_d (ans k)) = (2 * n + m)%nat).
(** The k-th solve started from q. *)
Definition started (s : st) (k : nat) (q : start) : Prop := nth_error (s_log s) k = Some (Some q).

(** Re-solving after a failure leaves the stored start as it was. *)
Definition C192_full : Prop := forall n m user ans rnd mode pretend k s s', sizes n m ans rnd -> (n <= length user)%nat ->
  (mode < 2)%nat -> robust n m user ans rnd mode pretend k s = Ok s' ->
  point_of n user s' = point_of n user s /\ duals_of n s' = duals_of n s.

(** Solving again for a better point leaves the stored start as it was if that is asked for. *)
Definition C193_full : Prop := forall n m user ans rnd mode k best s s', sizes n m ans rnd -> (n <= length user)%nat ->
  (mode < 2)%nat -> cost n m user ans rnd mode k true best s = Ok s' ->
  point_of n user s' = point_of n user s /\ duals_of n s' = duals_of n s.

(** All operations given data of the right sizes. *)
Definition okop (n m : nat) (o : op) : Prop :=
  match o with
  | OInit _ _ b | OResolve _ b => length (fst b) = n /\ length (snd b) = (2 * n + m)%nat
  | OSetWs (Some w) => sized n m w
  | OSetCol (Some x) => length x = n
  | OSetPrice d => length d = (2 * n + m)%nat
  | _ => True
  end.
(** Solving any number of times never breaks a contract, and every solve gets a point to start from. *)
Definition C194_full : Prop := forall n m user ans rnd mode pretend ru ops, (0 < n)%nat -> sizes n m ans rnd -> (n <= length user)%nat ->
  Forall (okop n m) ops ->
  match run n m user ans rnd mode pretend ru ops init with
  | Ok s => ~ In None (s_log s)
  | Thrown => True
  | _ => False
  end.
(** The start is not restored over a search for better points unless none was reset before. *)
Fixpoint keeps (mode : nat) (fresh : bool) (ops : list op) : Prop :=
  match ops with
  | [] => True
  | OInit _ k _ :: ops => (k = true -> fresh = true \/ (2 < mode)%nat) /\ keeps mode false ops
  | OResolve _ _ :: ops => keeps mode false ops
  | OSetCol None :: ops => keeps mode false ops
  | _ :: ops => keeps mode fresh ops
  end.

(** Having no usable warm start is no reason to fail: a solve after it is as good as one without. *)
Definition C195_full : Prop := forall n m user ans rnd mode pretend ru w retry best s, (2 <= mode)%nat -> sized n m w \/ w = flush w ->
  resolve n m user ans rnd mode pretend ru retry best (setWarmStart mode (Some w) s) <> AssertFail.

(** A difference applied to the warm start it was made from gives the other one. *)
Definition diff_ok {D} (vgen : list Q * list Q -> list Q * list Q -> D) (vapply : D -> list Q * list Q -> list Q * list Q) : Prop :=
  forall a b, vapply (vgen b a) a = b.
Definition C196_full : Prop := forall A D vgen vapply (new old : iws A), @diff_ok D vgen vapply ->
  applyDiff A D vapply (generateDiff A D vgen new old) old = copy A new.

(** *** Interior warm starts.  What Ipopt keeps for given bounds: the values of the variables that are not fixed, the multipliers of their finite bounds. *)
Fixpoint pack_x (b : list (Q * Q)) (v : list Q) : list Q :=
  match b, v with (l, u) :: b, x :: v => (if Qltb l u then [x] else []) ++ pack_x b v | _, _ => [] end.
Fixpoint pack_l (low : Q) (b : list (Q * Q)) (v : list Q) : list Q :=
  match b, v with (l, u) :: b, x :: v => (if (Qltb l u && Qltb low l)%bool then [x] else []) ++ pack_l low b v | _, _ => [] end.
Fixpoint pack_u (high : Q) (b : list (Q * Q)) (v : list Q) : list Q :=
  match b, v with (l, u) :: b, x :: v => (if (Qltb l u && Qltb u high)%bool then [x] else []) ++ pack_u high b v | _, _ => [] end.
Definition tighter (a b : Q * Q) : Prop := fst a <= fst b /\ snd b <= snd a.
(** An iterate holds the values x, zl, zu for these bounds. *)
Definition holds (low high : Q) (b : list (Q * Q)) (x zl zu : list Q) (i : iterate) : Prop :=
  t_x i = pack_x b x /\ t_zl i = pack_l low b zl /\ t_zu i = pack_u high b zu.
(** The iterate to be filled has the room for these bounds. *)
Definition room (low high : Q) (b : list (Q * Q)) (p d : iterate) : Prop :=
  length (t_x d) = length (pack_x b (repeat 0 (length b))) /\ length (t_zl d) = length (pack_l low b (repeat 0 (length b))) /\
  length (t_zu d) = length (pack_u high b (repeat 0 (length b))) /\
  length (t_s d) = length (t_s p) /\ length (t_yd d) = length (t_yd p) /\ length (t_yd p) = length (t_s p) /\
  length (t_yc d) = length (t_yc p) /\ length (t_vl d) = length (t_vl p) /\ length (t_vu d) = length (t_vu p).
(** With tightened bounds every variable that is still not fixed starts from its own value, and every bound that was finite from its own multiplier;
    rows keep theirs. *)
Definition C197_full : Prop := forall low high prev new x zl zu p dst, length x = length prev -> length zl = length prev -> length zu = length prev ->
  length new = length prev -> Forall2 tighter prev new -> holds low high prev x zl zu p -> room low high new p dst ->
  exists i, warmStartIterate low high [p] prev new dst = Ok (Some i) /\
    t_x i = pack_x new x /\
    (forall k, (k < length prev)%nat -> low < fst (nth k prev (0, 0)) -> fst (nth k new (0, 0)) < snd (nth k new (0, 0)) ->
       nth (length (pack_l low (firstn k new) zl)) (t_zl i) 0 = nth k zl 0) /\
    (forall k, (k < length prev)%nat -> snd (nth k prev (0, 0)) < high -> fst (nth k new (0, 0)) < snd (nth k new (0, 0)) ->
       nth (length (pack_u high (firstn k new) zu)) (t_zu i) 0 = nth k zu 0) /\
    t_s i = t_s p /\ t_yc i = t_yc p /\ t_yd i = t_yd p /\ t_vl i = t_vl p /\ t_vu i = t_vu p.
(** Finite bounds stay as they are where the variable is not fixed; what becomes fixed had two finite bounds; nothing fixed is freed. *)
Definition same_pattern (low high : Q) (a b : Q * Q) : Prop :=
  (fst b < snd b -> fst a < snd a /\ (low < fst a <-> low < fst b) /\ (snd a < high <-> snd b < high)) /\
  (~ fst b < snd b -> fst a < snd a -> low < fst a /\ snd a < high).

(** The iterates of the regular phase, in order. *)
Definition regular (l : list (bool * iterate)) : list iterate := map snd (filter fst l).
Definition stored (several : bool) (l : list (bool * iterate)) : list iterate := fold_left (fun a i => update several (fst i) (snd i) a) l [].

(** *** Warm starts of bqpd. *)
Inductive bop := BFlush | BCopy.
Definition bstep (w : bws) (o : bop) : outcome bws := match o with BFlush => Ok (flush_bws w) | BCopy => copy_bws w end.
Fixpoint brun (ops : list bop) (w : bws) : outcome bws := match ops with [] => Ok w | o :: ops => do w <- bstep w o; brun ops w end.
(** Whatever is done to it, a warm start can be copied. *)
Definition C199_full : Prop := forall x lam size a istat w ops w', new_bws x lam size a istat = Ok w -> brun ops w = Ok w' -> copy_bws w' = Ok w'.
