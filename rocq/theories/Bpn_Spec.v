(** What users of the parallel program expect of the start of its processes, its nodes and its cuts. *)
From Coq Require Import List Bool Arith ZArith QArith Ascii.
From Verif Require Import Base Arr Bpn_Model.
Import ListNotations.
Open Scope nat_scope.

(** ** C341: an LP process gets the files of the user as they are.  [ipopt]: no file, or its content. *)
Definition sent (ipopt : option (list ascii)) (nl : list ascii) : outcome (list ascii * list ascii) :=
  do d <- read_ipopt (option_map Some ipopt) (Some nl); unpack_module (pack_module d).
Definition content (f : option (list ascii)) : list ascii := match f with Some b => b | None => [] end.
Definition C341_full : Prop := forall ipopt nl, sent ipopt nl = Ok (content ipopt, nl).
(** [p] is [s] up to its first zero byte. *)
Definition cut_at_zero (p s : list ascii) : Prop :=
  ~ In zero p /\ (s = p \/ exists r, s = p ++ zero :: r).

(** ** C342: when a node begins, the integer objects have the bounds of the node. *)
Definition bounds_ok (n : nat) (b : list Q * list Q) : Prop := List.length (fst b) = n /\ List.length (snd b) = n.
(** The integer objects are those of the integer columns in order, with the bounds given; then the SOS in order. *)
Definition described (isint : list bool) (lo up : list Q) (sos : nat) (os : list bobj) : Prop :=
  exists ints, os = ints ++ map BSos (seq 0 sos) /\
    map (fun o => match o with BInt c l u => (c, Some l, Some u) | BSos k => (k, None, None) end) ints =
    map (fun j => (j, nth_error lo j, nth_error up j)) (filter (fun j => nth j isint false) (seq 0 (List.length isint))).

(** ** C343: frequencies.  The documentation: k > 0 every k nodes, -99 < k < 0 every -k nodes (Cbc may stop), -99 only
    at the root, 0 or 100 never.  [m]: number of the node, the root is 0. *)
Definition documented (k : Z) (m : nat) : bool :=
  (if Z.eqb k 0 || Z.eqb k 100 then false
   else if Z.eqb k (-99) then Nat.eqb m 0
   else Nat.eqb (Nat.modulo m (Z.abs_nat k)) 0).
Definition draw_ok (d : Q) : Prop := (0 <= d)%Q /\ (d < 1)%Q.
(** Which generators are asked at the node number [m] of a run: [draws] for that node. *)
Definition C343_full : Prop := forall (k : Z) (m : nat) (d : Q) cs, draw_ok d ->
  asked (Gen k d cs) = documented k m.

(** ** C344: every cut found is handed over, once and in order. *)
Definition found (e : event) : list cut :=
  match e with
  | Check cs => cs
  | Round gs => flat_map (fun g => if asked g then g_cuts g else []) (removelast gs)
  | Expand _ => []
  end.
Definition good_event (e : event) : Prop :=
  match e with Check _ => True | Round gs => gs <> [] | Expand cs => ~ In None cs end.
Definition as_row (b : bbcut) : cut := Row (b_cut b).
Definition C344_full : Prop := forall es out, Forall good_event es -> history false es [] = Ok (out, []) ->
  map as_row out = flat_map found es.
(** What the next event that empties the list of pending cuts does with them. *)
Fixpoint next_is_round (es : list event) : bool :=
  match es with
  | [] => false
  | Check _ :: es => next_is_round es
  | Round _ :: _ => true
  | Expand _ :: _ => false
  end.

(** ** C345: a cut that travels. *)
(** The row BCP makes of a cut whose bounds BCP sets to [l] and [u] at the receiver. *)
Definition with_bounds (l u : Q) (b : bbcut) : bbcut := BB l u (b_cut b).
(** The cuts handed over: what an event found, if the next emptying of the list is a round. *)
Fixpoint handed (es : list event) : list rowcut :=
  match es with
  | [] => []
  | e :: r => (if next_is_round es then flat_map (fun c => match c with Row x => [x] | Col _ => [] end) (found e) else []) ++ handed r
  end.

(** ** C351: the special ordered sets of the problem are among the objects the program branches on. *)
Definition C351_full : Prop := forall isint lo up sos os, build_objs shipped isint lo up sos = Ok os ->
  forall k, (k < sos)%nat -> In (BSos k) os.

(** ** C352: the core problem has the columns of the relaxation with their types.  Binary columns are integer (Osi). *)
Definition columns_ok (cols : list col) : Prop := forall c, In c cols -> c_bin c = true -> c_int c = true.
Definition proper_type (c : col) (t : ctype) : Prop :=
  match t with CBin => c_bin c = true | CInt => c_int c = true /\ c_bin c = false | CCont => c_int c = false /\ c_bin c = false end.
Definition C352_full : Prop := forall pure cols rows i c v, columns_ok cols ->
  nth_error cols i = Some c -> nth_error (fst (core_of pure cols rows)) i = Some v -> proper_type c (v_type v).
