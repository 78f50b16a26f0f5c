(** * Choosing among sets: specification *)
From Coq Require Import List Arith ZArith QArith Qabs Bool Permutation Sorting.Sorted.
From Verif Require Import Base Arr Nwc_Model.
Import ListNotations.
Open Scope Q_scope.

(** The sorter sorts by keys. *)
Definition sorter (srt : list (Q * nat) -> list (Q * nat)) : Prop :=
  forall l, Permutation (srt l) l /\ StronglySorted (fun a b => fst a <= fst b) (srt l).

(** Set number [o] (counted with the first [start] objects) is one of [cs]. *)
Definition isset (start : nat) (cs : list cand) (o : nat) (c : cand) : Prop :=
  (start <= o)%nat /\ nth_error cs (o - start) = Some c.

Definition unsat (start : nat) (cs : list cand) (o : nat) : Prop :=
  exists c, isset start cs o c /\ 0 < c_inf c.

(** The best priority among the unsatisfied sets. *)
Definition best_prio (cs : list cand) (p : Z) : Prop :=
  (exists c, In c cs /\ 0 < c_inf c /\ c_prio c = p) /\
  forall c, In c cs -> 0 < c_inf c -> (p <= c_prio c)%Z.

Definition prios (cs : list cand) : Prop := Forall (fun c => (c_prio c <= 2147483647)%Z) cs.

(** ** C328: every unsatisfied set exactly once, the candidates of the best priority first. *)
Definition good_list (strong : bool) (start : nat) (cs : list cand) (r : result) : Prop :=
  exists l,
    firstn (r_uns r) (r_list r) = map Some l /\ length l = r_uns r /\
    NoDup l /\ (forall o, In o l <-> unsat start cs o) /\
    (forall o c, In o (firstn (r_on r) l) -> isset start cs o c -> best_prio cs (c_prio c)) /\
    (strong = true -> l <> [] -> (0 < r_on r)%nat) /\ (r_on r <= length l)%nat /\
    (strong = false -> r_on r = O).

(** ** C329: the first set of the list is the most useful one of the best priority. *)
Definition best_first (root : bool) (start : nat) (cs : list cand) (r : result) : Prop :=
  forall p, best_prio cs p ->
  exists o c, nth_error (r_list r) 0 = Some (Some o) /\ isset start cs o c /\ c_prio c = p /\
    0 < c_inf c /\
    forall o' c', isset start cs o' c' -> 0 < c_inf c' -> c_prio c' = p -> value root c' <= value root c.

Definition C329_full : Prop :=
  forall srt root strong start cs r, sorter srt -> prios cs ->
    setup srt root strong start cs = Ok r -> best_first root start cs r.

(** ** C330: usefulness is not negative, and raising the bound or the unit change of a
    member does not make a set less useful. *)
Definition better (a b : memb) : Prop :=
  m_lo a = m_lo b /\ m_up a = m_up b /\ m_x a = m_x b /\ m_x a <= m_up a /\
  m_unit a <= m_unit b /\ m_bnd a <= m_bnd b.

(** No branch was seen to improve the objective. *)
Definition sane (m : memb) : Prop := 0 <= m_unit m.

Definition C330_full : Prop :=
  forall geo tol cutoff mult obj ms ms' r r',
    0 < tol -> 1 <= mult -> obj < cutoff -> Forall sane ms -> Forall2 better ms ms' ->
    usefulness geo tol cutoff mult obj ms = Ok r ->
    usefulness geo tol cutoff mult obj ms' = Ok r' -> 0 <= r /\ r <= r'.

(** The number of members not fixed. *)
Definition free (tol : Q) (ms : list memb) : nat :=
  length (filter (fun m => negb (Qltb (Qabs (m_lo m - m_up m)) tol)) ms).

(** ** C331: the estimate is the mean of what was observed. *)

(** The unit changes counted for member [k]: what was seen at the (last) root strong branching
    if there was one, and every positive one after it. *)
Fixpoint seen (k : nat) (os : list obs) (acc : list Q) : list Q :=
  match os with
  | [] => acc
  | o :: os =>
      let u := nth k (o_unit o) 0 in
      seen k os (if o_root o then [u]
                 else if (o_enough o && Qltb 0 u)%bool then acc ++ [u] else acc)
  end.

Definition qprod (l : list Q) : Q := fold_right Qmult 1 l.
Definition qplus (l : list Q) : Q := fold_right Qplus 0 l.

(** The mean of a non-empty list; [root] is the root function. *)
Definition the_mean (root : Q -> nat -> Q) (geo : bool) (l : list Q) : Q :=
  if geo then root (qprod l) (length l) else qplus l / inject_Z (Z.of_nat (length l)).

Definition fits (n : nat) (os : list obs) : Prop := Forall (fun o => length (o_unit o) = n) os.

Definition C331_full : Prop :=
  forall (root : Q -> nat -> Q) geo n os k,
    (forall a b m, a == b -> root a m == root b m) ->
    fits n os -> (k < n)%nat -> seen k os [] <> [] ->
    mean root geo (nth k (fold_left (learn geo) os (pc_init n)) (0, O))
    == the_mean root geo (seen k os []).
