(** Specifications for problems given as AMPL files (C175-C189). *)
From Coq Require Import Ascii String.
From Verif Require Import Base Arr Amp_Model.
#[local] Open Scope list_scope.
#[local] Open Scope Q_scope.

(** ** Order of the variables in an AMPL problem (Gay, Hooking Your Solver to AMPL, table 3): how many there are of each kind.
    b: nonlinear in an objective and in a constraint; c: in constraints only; o: in objectives only; l: linear. *)
Record layout := mkLay { b_cont : nat; b_int : nat; c_cont : nat; c_int : nat; o_cont : nat; o_int : nat; l_cont : nat; l_bin : nat; l_int : nat }.
Definition nb (L : layout) : nat := (b_cont L + b_int L)%nat.
Definition nc (L : layout) : nat := (c_cont L + c_int L)%nat.
Definition no (L : layout) : nat := (o_cont L + o_int L)%nat.
Definition total (L : layout) : nat := (nb L + nc L + no L + l_cont L + l_bin L + l_int L)%nat.
(** The counts ASL gives: nlvo goes beyond nlvc only if there are variables nonlinear in objectives only. *)
Definition counts_of (L : layout) : counts :=
  mkCounts (Z.of_nat (nb L)) (Z.of_nat (b_int L)) (Z.of_nat (nb L + nc L)) (Z.of_nat (c_int L))
           (Z.of_nat (match no L with O => nb L | _ => nb L + nc L + no L end)) (Z.of_nat (o_int L)) (Z.of_nat (l_bin L)) (Z.of_nat (l_int L)).
Definition types_of (L : layout) : list vtype :=
  repeat Continuous (b_cont L) ++ repeat Integer (b_int L) ++ repeat Continuous (c_cont L) ++ repeat Integer (c_int L) ++
  repeat Continuous (o_cont L) ++ repeat Integer (o_int L) ++ repeat Continuous (l_cont L) ++ repeat Binary (l_bin L) ++ repeat Integer (l_int L).
Definition linear_of (L : layout) : list bool := repeat false (nb L + nc L + no L) ++ repeat true (l_cont L + l_bin L + l_int L).
(** Variable [j] is nonlinear in an objective. *)
Definition in_obj (L : layout) (j : nat) : Prop := (j < nb L)%nat \/ (nb L + nc L <= j < nb L + nc L + no L)%nat.

(** C175: types and linearity of the variables, and whether the objective is linear. *)
Definition C175_full : Prop := forall L a b, length a = total L -> length b = total L ->
  variables_types (counts_of L) (Z.of_nat (total L)) a = Ok (map Some (types_of L)) /\
  variables_linearity (counts_of L) (Z.of_nat (total L)) b = Ok (map Some (linear_of L)) /\
  (linear_objective (counts_of L) = true <-> forall j, (j < total L)%nat -> ~ in_obj L j).
(** C176: the linear part of the objective has the coefficients of the variables that are linear in it and 0 for the others. *)
Definition C176_full : Prop := forall L grad, length grad = total L -> exists r, linear_part (counts_of L) grad = Ok r /\ length r = total L /\
  forall j, (j < total L)%nat -> (in_obj L j -> nth j r 0 == 0) /\ (~ in_obj L j -> nth j r 0 == nth j grad 0).

(** ** Suffixes *)
Definition long_enough {A} (n : nat) (l : option (list A)) : Prop := forall a, l = Some a -> length a = n.
Record vsuff_ok (n : nat) (x : vsuff) : Prop := mkVok {
  vo_pri : long_enough n (x_pri x); vo_dir : long_enough n (x_dir x); vo_up : long_enough n (x_up x); vo_dw : long_enough n (x_dw x) }.
(** C177: a variable of higher priority gets a smaller number (is branched on earlier), variables without one get 9999; pseudo-costs given in
    one direction only count for both. *)
Definition C177_full : Prop := forall words n x, vsuff_ok n x -> exists b, read_priorities words n x = Ok b /\
  match x_pri x with
  | None => r_pri b = None
  | Some p => exists q, r_pri b = Some q /\ length q = n /\
      (forall i j a c a' c', nth_error p i = Some a -> nth_error p j = Some c -> nth_error q i = Some a' -> nth_error q j = Some c' -> (a < c <-> c' < a')%Z) /\
      (forall i, nth_error p i = Some 0%Z -> nth_error q i = Some 9999%Z)
  end /\
  (r_up b = None <-> x_up x = None /\ x_dw x = None) /\ (r_dw b = None <-> x_up x = None /\ x_dw x = None) /\
  (forall u, x_up x = Some u -> r_up b = Some u /\ (x_dw x = None -> r_dw b = Some u)) /\
  (forall d, x_dw x = Some d -> r_dw b = Some d /\ (x_up x = None -> r_up b = Some d)).
(** The doubles 0, 1 and -1 on a little-endian machine. *)
Definition ieee (words : Q -> Z * Z) : Prop := words 0 = (0, 0)%Z /\ words 1 = (0, 1072693248)%Z /\ words (-1) = (0, -1074790400)%Z.
Definition sign_of (q : Q) : Z := if Qltb q 0 then (-1)%Z else if Qltb 0 q then 1%Z else 0%Z.
Definition one_of (q : Q) : Prop := q = 0 \/ q = 1 \/ q = -1.
(** C178: the preferred direction of each variable is the one of the suffix. *)
Definition C178_full : Prop := forall words n x l b, ieee words -> vsuff_ok n x -> x_dir x = Some l -> Forall one_of l -> read_priorities words n x = Ok b ->
  exists d, r_dir b = Some d /\ forall i q, nth_error l i = Some q -> exists z, nth_error d i = Some z /\ Z.sgn z = sign_of q.

(** ** Special ordered sets *)
Definition gap : Q := 1 # 10000000000.
Definition spaced (l : list Q) : Prop := forall i a b, nth_error l i = Some a -> nth_error l (S i) = Some b -> a + gap < b.
Record spread (l l' : list Q) : Prop := mkSpread {
  sp_len : length l' = length l;
  sp_first : forall a, nth_error l 0 = Some a -> nth_error l' 0 = Some a;
  sp_spaced : spaced l';
  sp_up : forall i a b, nth_error l i = Some a -> nth_error l' i = Some b -> a <= b;
  sp_same : spaced l -> l' = l }.
(** Where the sets start. *)
Fixpoint starts_of (s : nat) (w : list (list Q)) : list nat := s :: match w with [] => [] | l :: w => starts_of (s + length l)%nat w end.
(** C179: sets of type 1 and 2 are taken over, with reference values that increase within each set; others are refused. *)
Definition C179_full : Prop := forall m (w : list (list Q)) types, Forall (fun l => l <> []) w -> length types = length w ->
  let z := mkSos (length w) types (starts_of 0 w) (concat w) m in
  (Forall (fun c => c = 49%Z \/ c = 50%Z) types ->
     exists w', read_sos m z = Ok (map (fun c => (c - 48)%Z) types, concat w') /\ Forall2 spread w w') /\
  (~ Forall (fun c => c = 49%Z \/ c = 50%Z) types -> read_sos m z = Thrown).

(** ** Objectives, concave constraints, indicator variables *)
(** C180: with one of several objectives marked, this one is for upper bounds and one that is not marked is minimized. *)
Definition C180_full : Prop := forall nobj l, (2 <= nobj)%nat -> length l = nobj ->
  (forall k, nth_error l k = Some 1%Z -> (forall k', nth_error l k' = Some 1%Z -> k' = k) ->
     exists a, read_obj nobj (Some l) = Ok (Some a, Some k) /\ (a < nobj)%nat /\ nth_error l a <> Some 1%Z) /\
  ((forall k, nth_error l k <> Some 1%Z) -> read_obj nobj (Some l) = Ok (Some 0%nat, None)).
(** C181: of a constraint marked with an identifier y is the variable with this identifier and x the other one; the marked constraints are reported in
    order, each once. *)
Definition marked (pv : list Z) (i : nat) : Prop := exists z, nth_error pv i = Some z /\ z <> 0%Z.
Definition C181_full : Prop := forall ids pv grads r, length grads = length pv -> read_convexities (Some ids) (Some pv) grads = Ok r ->
  (forall i, marked pv i <-> In i (map (fun t => fst (fst t)) r)) /\ NoDup (map (fun t => fst (fst t)) r) /\
  forall i y x, In (i, y, x) r -> nth_error ids y = nth_error pv i /\ (nth_error grads i = Some [x; y] \/ nth_error grads i = Some [y; x]).
(** C182: a constraint marked with a positive identifier is switched by a variable that carries it, a constraint that is not marked by none; an
    identifier without a variable is refused. *)
Definition C182_full : Prop := forall c v,
  (forall r, read_onoff (Some c) (Some v) = Ok r -> exists l, r = Some l /\ length l = length c /\
     forall i z o, nth_error c i = Some z -> nth_error l i = Some o ->
       match o with Some j => (0 < z)%Z /\ nth_error v j = Some z | None => (z <= 0)%Z end) /\
  (read_onoff (Some c) (Some v) = Thrown <-> exists i z, nth_error c i = Some z /\ (0 < z)%Z /\ ~ In z v).

(** ** The end of a run *)
Definition code_ok (s : status) (z : Z) : Prop :=
  match s with
  | Success => (0 <= z < 100)%Z | Infeasible => (200 <= z < 300)%Z | Unbounded => (300 <= z < 400)%Z
  | Limit | User => (400 <= z < 500)%Z | Error => (500 <= z < 600)%Z
  end.
(** C183: every end of a run is reported with a code of the range AMPL has for it; the codes of an interrupted run tell whether there is a solution. *)
Definition C183_full : Prop := forall app ampl m n x, long_enough n x ->
  (forall s, exists f z, finalize app ampl s m n x = Ok (f, z) /\ code_ok s z) /\
  forall s x' f z f' z', s = Limit \/ s = User -> long_enough n x' -> finalize app ampl s m n x = Ok (f, z) -> finalize app ampl s m n x' = Ok (f', z') ->
    (z = z' <-> (x = None <-> x' = None)).
(** C184: the solution in a file that was written is read back. *)
Definition C184_full : Prop := forall s m n x old f z, length x = n -> finalize "bonmin" true s m n (Some x) = Ok (f, z) -> read_sol f old = Ok x.
(** C190: the own file holds every variable's number, from 0 on, with its value, and is closed by -1. *)
Definition C190_full : Prop := forall app s m n x f z, length x = n -> finalize app false s m n (Some x) = Ok (f, z) ->
  length f = (2 * n + 1)%nat /\ nth_error f (2 * n) = Some (N (-1)) /\
  forall i v, nth_error x i = Some v -> nth_error f (2 * i) = Some (N (inject_Z (Z.of_nat i))) /\ nth_error f (2 * i + 1) = Some (N v).

(** ** Names *)
(** C185: after reading, each name has its index and each index its name. *)
Definition C185_full : Prop := forall sso file, (15 <= sso)%nat -> NoDup file -> exists r, read_names sso file = Ok r /\
  forall i s, nth_error file i = Some s -> nth_error (k_names r) i = Some s /\ index r s = Ok i.
(** C186: the names are copied to the caller. *)
Definition C186_full : Prop := forall r names, snd (copy_names r names) = k_names r.
(** C187: the files that belong to stub.nl are called stub with another suffix. *)
Definition nl : list ascii := list_ascii_of_string ".nl".
Definition C187_full : Prop := forall stub suffix, stub <> [] -> file_name (stub ++ nl) suffix = stub ++ suffix.

(** ** Further information about variables *)
Fixpoint set_all (n : nat) (l : list (option (list Q))) (p : ptr) : outcome ptr :=
  match l with [] => Ok p | a :: l => do p <- set_perturb n a p; set_all n l p end.
(** C188: the radii are those set last. *)
Definition C188_full : Prop := forall n l, Forall (long_enough n) l -> exists p, set_all n l Null = Ok p /\ get_perturb p = Ok (last l None).
(** C189: general integer variables are reported exactly if there are some. *)
Definition integral (q : Q) : Prop := exists z, q == inject_Z z.
Definition C189_full : Prop := forall t lo up, length lo = length t -> length up = length t -> exists b, general_integer t lo up = Ok b /\
  (b = false -> forall j l u z, nth_error t j = Some Integer -> nth_error lo j = Some l -> nth_error up j = Some u ->
     l <= inject_Z z -> inject_Z z <= u -> z = 0%Z \/ z = 1%Z) /\
  (b = true -> Forall integral lo -> Forall integral up -> exists j l u, nth_error t j = Some Integer /\ nth_error lo j = Some l /\ nth_error up j = Some u /\
     ~ (l == 0 /\ u == 1)).
