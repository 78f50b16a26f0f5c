(** Specifications for the information objects (C159-C163). *)
From Verif Require Import Base Arr Nlp Oad_Model Sec_Model.
#[local] Open Scope Q_scope.

(** ** Families of solvers
    Each solver belongs to the family of the search that first gave it an information object of Bonmin, directly or through copies.
    Searches are named by their place in the history. *)
Definition fam_step (k : nat) (o : op) (l : list (option nat)) : list (option nat) :=
  match o with
  | New _ _ => l ++ [None]
  | Clone i => l ++ [nth i l None]
  | SetOsi i => firstn i l ++ None :: skipn (S i) l
  | SetModel _ _ _ | Solve _ _ => l
  | Start i => let f := match nth i l None with Some o => Some o | None => Some k end in
               (firstn i l ++ f :: skipn (S i) l) ++ [f]
  end.
Fixpoint families (k : nat) (ops : list op) (l : list (option nat)) : list (option nat) :=
  match ops with [] => l | o :: ops => families (S k) ops (fam_step k o l) end.
(** Columns of each solver. *)
Definition dim_step (o : op) (l : list (nat * list bool)) : list (nat * list bool) :=
  match o with
  | New n ints => l ++ [(n, ints)]
  | Clone i | Start i => l ++ [nth i l (0%nat, [])]
  | SetModel i n ints => firstn i l ++ (n, ints) :: skipn (S i) l
  | SetOsi _ | Solve _ _ => l
  end.
(** A point counts if it was proven optimal and is integral, judged by the objects if there are any and by the columns otherwise. *)
Definition near_int (v : Q) : Prop := exists z, Qabs (v - inject_Z z) <= 1 # 100000000.
Definition counts (n : nat) (ints : list bool) (f : found) : Prop :=
  w_opt f = true /\
  match w_infs f with
  | Some l => forall d, In d l -> d <= 1 # 100000000
  | None => forall i, (i < n)%nat -> nth_error ints i = Some true -> exists v, nth_error (w_x f) i = Some v /\ near_int v
  end.
(** An event: place in the history, family, point, second objective. *)
Definition event := (nat * nat * list Q * Q)%type.
Inductive events : nat -> list op -> list (option nat) -> list (nat * list bool) -> list event -> Prop :=
| Ev_nil : forall k l d, events k [] l d []
| Ev_hit : forall k i f ops l d o n ints h es, nth_error l i = Some (Some o) -> nth_error d i = Some (n, ints) -> counts n ints f -> w_second f = Some h ->
    events (S k) ops l d es -> events k (Solve i f :: ops) l d ((k, o, firstn n (w_x f), h) :: es)
| Ev_miss : forall k i f ops l d n ints es, nth_error d i = Some (n, ints) -> ~ counts n ints f \/ nth_error l i = Some None ->
    events (S k) ops l d es -> events k (Solve i f :: ops) l d es
| Ev_other : forall k o ops l d es, (forall i f, o <> Solve i f) -> events (S k) ops (fam_step k o l) (dim_step o d) es -> events k (o :: ops) l d es.
Definition of_family (o : nat) (es : list event) : list (list Q * Q) :=
  map (fun e => (snd (fst e), snd e)) (filter (fun e => Nat.eqb (snd (fst (fst e))) o) es).
(** The first of the best. *)
Definition best_of (l : list (list Q * Q)) (r : option (list Q * Q)) : Prop :=
  match r with
  | None => l = []
  | Some (x, v) => exists a b, l = a ++ (x, v) :: b /\ (forall y w, In (y, w) a -> v < w) /\ (forall y w, In (y, w) b -> v <= w)
  end.

(** ** C159: the solution reported was found in the search that reports it. *)
Definition C159_full : Prop := forall a i b s n x v, exec (a ++ Start i :: b) init = Ok s -> report i n s = Ok (Some (x, v)) ->
  exists j f h m, In (Solve j f) b /\ w_second f = Some h /\ v = Fin h /\ x = firstn m (w_x f).

(** ** C160: an integer point found by the nonlinear solver of the set-up during the search counts, whatever the algorithm. *)
Definition C160_full : Prop := forall a i nl b s n, exec (a ++ Start i :: b) init = Ok s ->
  (exists f h m ints, In (Solve nl f) b /\ counts m ints f /\ (0 < m)%nat /\ nth_error (t_solvers s) nl <> None /\
     (forall v, nth_error (t_solvers s) nl = Some v -> v_n v = m /\ v_ints v = ints) /\ w_second f = Some h) ->
  report i n s <> Ok None.

(** ** C161: the solution reported has the variables of the problem. *)
Definition C161_full : Prop := forall ops i s v, exec ops init = Ok s -> nth_error (t_solvers s) i = Some v -> report i (v_n v) s <> AssertFail.

(** No other problem is put into a solver. *)
Definition no_model (o : op) : Prop := match o with SetModel _ _ _ => False | _ => True end.

(** ** C162: the slot for an NLP solution. *)
Fixpoint last_set (ops : list sop) (r : option (list Q * nat * Q)) : option (list Q * nat * Q) :=
  match ops with [] => r | Set_ sol n v :: ops => last_set ops (Some (sol, n, v)) | _ :: ops => last_set ops r end.
Fixpoint last_has (ops : list sop) (b : bool) : bool := match ops with [] => b | Has b :: ops => last_has ops b | _ :: ops => last_has ops b end.
Definition sized (o : sop) : Prop := match o with Set_ sol n _ => (n <= length sol)%nat | _ => True end.
Definition C162_full : Prop := forall ops, Forall sized ops -> exists a, sexec ops slot_init = Ok a.

(** ** C163: the option changes neither whether the search starts nor the number of variables of its solutions. *)
Definition C163_full : Prop := forall d, d_quad d = true ->
  exists m k, dyn_root d = Ok (m, k) /\ forall sol, length sol = m -> exists x, final_copy d sol = Ok x.
