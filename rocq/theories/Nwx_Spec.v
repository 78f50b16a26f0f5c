(** * What the "new point" protocol should give: specification

    Nothing here refers to how calls are handed on. *)
From Coq Require Import List QArith Arith Bool.
From Verif Require Import Nwx_Model.
Import ListNotations.
Set Implicit Arguments.

(** A solver's side of the protocol: the flag is true on the first call and
    whenever the point differs from the previous call's. *)
Fixpoint respects (last : option pt) (cs : list call) : Prop :=
  match cs with
  | [] => True
  | k :: r => (c_new k = true \/ last = Some (c_x k)) /\ respects (Some (c_x k)) r
  end.

(** Always announcing a new point. *)
Definition always_new (cs : list call) : Prop := Forall (fun k => c_new k = true) cs.

(** ** The point of the user's problem a solver's point stands for *)

(** Where [j] is in [vi]. *)
Fixpoint place (j : nat) (vi : list nat) : option nat :=
  match vi with
  | [] => None
  | a :: r => if a =? j then Some 0%nat
              else match place j r with Some k => Some (S k) | None => None end
  end.

(** The starting point with the entries of [vi] taken from [y]. *)
Definition spread (start : pt) (vi : list nat) (y : pt) : pt :=
  map (fun j => match place j vi with
                | Some k => nth k y 0
                | None => nth j start 0
                end) (seq 0 (length start)).

Definition tm_point (t : tm) (x : pt) : pt :=
  match t with User => x | Lin => firstn (length x - 1) x end.

(** Variables of a strengthening problem that are variables of the user's. *)
Definition own (vi : list nat) (con : option nat) : list nat :=
  match con with None => firstn (length vi - 1) vi | Some _ => vi end.

Fixpoint user_point (s : tn) (start x : pt) : pt :=
  match s with
  | T2T t => tm_point t x
  | Quad t _ _ => tm_point t x
  | FP s _ => user_point s start x
  | Str t vi con => tm_point t (spread start (own vi con) x)
  end.

(** The shapes the constructors guarantee: a strengthening problem has different
    variables of the user's, and its points have one entry for each. *)
Fixpoint shaped (s : tn) (start x : pt) : Prop :=
  match s with
  | FP s _ => shaped s start x
  | Str _ vi con =>
      NoDup (own vi con) /\ (forall j, In j (own vi con) -> (j < length start)%nat)
      /\ length x = length vi
  | _ => True
  end.

(** ** What the user should see *)

(** All evaluations a call causes are at the point asked for. *)
Definition right (s : tn) (start : pt) (cs : list call) (es : list (list ev)) : Prop :=
  Forall2 (fun k e => Forall (fun v => ev_at v = Some (user_point s start (c_x k))) e) cs es.

(** The user's functions a result depends on. *)
Definition tm_needs (t : tm) (f : fn) : list fn :=
  match t with
  | User => [f]
  | Lin => match f with
           | F | GradF => []
           | G => [F; G]
           | Jac => [GradF; Jac]
           | H => [H]
           | Gi i => [match i with O => F | S i => Gi i end]
           | GradGi i => [match i with O => GradF | S i => GradGi i end]
           end
  end.

Fixpoint needs (s : tn) (f : fn) : list fn :=
  match s with
  | T2T t => tm_needs t f
  | Quad t lin morig =>
      match f with
      | F | GradF => if lin then [] else tm_needs t f
      | Gi i | GradGi i => if (i <? morig)%nat then tm_needs t f else []
      | _ => tm_needs t f
      end
  | FP s cut =>
      match f with
      | G => needs s G ++ (if cut then needs s F else [])
      | Jac => needs s Jac ++ (if cut then needs s GradF else [])
      | Gi _ | GradGi _ => []
      | _ => needs s f
      end
  | Str t vi con =>
      match f with
      | G => tm_needs t (match con with None => F | Some i => Gi i end)
      | Jac => tm_needs t (match con with None => GradF | Some i => GradGi i end)
      | _ => []
      end
  end.

(** ** C315: a solver that keeps to the protocol gets the values it asked for *)
Definition C315_full : Prop :=
  forall ok s start c0 cs,
    (forall k, In k cs -> shaped s start (c_x k)) ->
    respects None cs ->
    right s start cs (fst (run ok s cs (St c0 start))).

(** Stacks in which every call of a solver reaches the user's problem. *)
Fixpoint plain (s : tn) : Prop :=
  match s with
  | T2T t | Quad t _ _ => t = User
  | FP s _ => plain s
  | Str _ _ _ => False
  end.

(** The calls a solver makes. *)
Definition solver_fn (f : fn) : Prop :=
  match f with Gi _ | GradGi _ => False | _ => True end.

(** The stack without the quadratic rows. *)
Fixpoint no_quad (s : tn) : Prop :=
  match s with Quad _ _ _ => False | FP s _ => no_quad s | _ => True end.

(** ** C317: exactly where the functions are evaluated *)

(** Whether a call made with the flag true lets the user's problem see the point. *)
Definition tm_shows (t : tm) (f : fn) : bool :=
  match t, f with Lin, F | Lin, GradF => false | _, _ => true end.

Fixpoint shows (s : tn) (f : fn) : bool :=
  match s with
  | T2T t => tm_shows t f
  | Quad t lin morig =>
      match f with
      | Gi i | GradGi i => (i <? morig)%nat && tm_shows t f
      | _ => tm_shows t f
      end
  | FP s _ => match f with Gi _ | GradGi _ => false | _ => shows s f end
  | Str t _ con =>
      match f with
      | G => tm_shows t (match con with None => F | Some i => Gi i end)
      | Jac => tm_shows t (match con with None => GradF | Some i => GradGi i end)
      | _ => false
      end
  end.

(** The point the user's problem has seen last. *)
Fixpoint seen (s : tn) (start : pt) (c : option pt) (cs : list call) : list (option pt) :=
  match cs with
  | [] => []
  | k :: r =>
      let c' := if c_new k && shows s (c_fn k) then Some (user_point s start (c_x k)) else c in
      c' :: seen s start c' r
  end.

(** Each new point is first used in a call that shows it. *)
Definition shown_first (s : tn) (cs : list call) : Prop :=
  Forall (fun k => c_new k = true -> shows s (c_fn k) = true) cs.

(** ** C318: the rows computed one at a time *)
Definition C318_full : Prop :=
  forall ok t lin morig start c0 cs,
    respects None cs ->
    right (Quad t lin morig) start cs (fst (run ok (Quad t lin morig) cs (St c0 start))).

(** ** C319: the model of a node for QP strong branching *)
Definition C319_full : Prop :=
  forall ok s start c0 x es w,
    shaped s start x ->
    branching_tqp ok s x (St c0 start) = (true, es, w) ->
    right s start (tqp_calls x) es.

(** ** C320: the Jacobian the rounding heuristic works with *)
Definition C320_full : Prop :=
  forall ok s start c0 x,
    shaped s start x ->
    right s start [Call Jac x false] (fst (rounding_jacobian ok s x (St c0 start))).

(** ** C321: a point is announced to the user once *)
Definition announced (es : list ev) : nat := length (filter ev_new es).

Definition C321_full : Prop :=
  forall ok s w f x nw,
    (announced (snd (tn_call ok s f x nw w)) <= (if nw then 1 else 0))%nat.

Fixpoint no_cutoff (s : tn) : Prop :=
  match s with FP s cut => cut = false /\ no_cutoff s | _ => True end.
