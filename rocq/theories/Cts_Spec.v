(** Cuts, specification: a collection is a list of linear cuts and a list of quadratic cuts, both by value. *)
From Verif Require Import Base Arr Cts_Model.

(** What a client sees of a world: for every collection that is not destroyed its linear cuts and its quadratic cuts ([None]: a null
    pointer in the collection), and what the variables of the client point to. *)
Record seen A R := mkSeen { v_colls : list (option (list R * list (option A))); v_vars : list (option A) }.
Arguments mkSeen {A R}. Arguments v_colls {A R}. Arguments v_vars {A R}.
Definition look {A} (H : list (option A)) (p : ptr) : option A := match p with None => None | Some n => nth n H None end.
Definition see_coll {A R} (H : list (option A)) (c : coll R) : list R * list (option A) := (c_rows c, map (look H) (c_quads c)).
Definition see {A R} (w : world A R) : seen A R :=
  mkSeen (map (option_map (see_coll (heap w))) (colls w)) (map (look (heap w)) (vars w)).

(** Replacing and removing one element of a list, and the element itself; [None] if there is none. *)
Definition set_nth {B} (i : nat) (v : B) (l : list B) : option (list B) := if Nat.ltb i (length l) then Some (firstn i l ++ v :: skipn (S i) l) else None.
Definition del_nth {B} (i : nat) (l : list B) : option (list B) := if Nat.ltb i (length l) then Some (firstn i l ++ skipn (S i) l) else None.
Definition obind {B C} (x : option B) (f : B -> option C) : option C := match x with Some a => f a | None => None end.
Notation "'let?' x := a 'in' b" := (obind a (fun x => b)) (at level 200, x name, a at level 100, b at level 200).
Definition there {A R} (i : nat) (s : seen A R) : option (list R * list (option A)) := nth i (v_colls s) None.
Definition upd_coll {A R} (i : nat) (c : option (list R * list (option A))) (s : seen A R) : option (seen A R) :=
  let? l := set_nth i c (v_colls s) in Some (mkSeen l (v_vars s)).
(** No null pointer among the cuts. *)
Definition no_null {A} (l : list (option A)) : bool := forallb (fun x => match x with Some _ => true | None => false end) l.

(** What each call is to do; [None]: the client must not make it (no such collection, no such cut or variable, a cut needed that is
    null). *)
Definition calls {A R} (s : seen A R) (o : op A R) : option (seen A R) :=
  match o with
  | New => Some (mkSeen (v_colls s ++ [Some ([], [])]) (v_vars s))
  | CopyOf i => let? c := there i s in if no_null (snd c) then Some (mkSeen (v_colls s ++ [Some c]) (v_vars s)) else None
  | Assign i j => let? c := there i s in let? d := there j s in if Nat.eqb i j || no_null (snd d) then upd_coll i (Some d) s else None
  | Destroy i => let? c := there i s in upd_coll i None s
  | AddRow i r => let? c := there i s in upd_coll i (Some (fst c ++ [r], snd c)) s
  | InsVal i v => let? c := there i s in upd_coll i (Some (fst c, snd c ++ [Some v])) s
  | InsRef i j k => let? c := there i s in let? d := there j s in let? v := nth k (snd d) None in upd_coll i (Some (fst c, snd c ++ [Some v])) s
  | NewCut v => Some (mkSeen (v_colls s) (v_vars s ++ [Some v]))
  | DelCut x => let? l := set_nth x None (v_vars s) in Some (mkSeen (v_colls s) l)
  | InsPtr i x => let? c := there i s in let? p := nth_error (v_vars s) x in let? l := set_nth x None (v_vars s) in
      let? m := set_nth i (Some (fst c, snd c ++ [p])) (v_colls s) in Some (mkSeen m l)
  | InsAll i j => let? c := there i s in let? d := there j s in
      if no_null (snd d) then upd_coll i (Some (fst c ++ fst d, snd c ++ snd d)) s else None
  | Erase i k => let? c := there i s in let? l := del_nth k (snd c) in upd_coll i (Some (fst c, l)) s
  | Write i k v => let? c := there i s in let? u := nth k (snd c) None in let? l := set_nth k (Some v) (snd c) in upd_coll i (Some (fst c, l)) s
  end.
Fixpoint all_calls {A R} (ops : list (op A R)) (s : seen A R) : option (seen A R) :=
  match ops with [] => Some s | o :: t => let? s1 := calls s o in all_calls t s1 end.
Definition nothing {A R} : seen A R := mkSeen [] [].

(** C303: whatever the client may do is done, in finite time. *)
Definition C303_full : Prop := forall A R (ops : list (op A R)) s, all_calls ops nothing = Some s ->
  exists N, forall fuel, N <= fuel -> exists w, run fuel ops start = Ok w /\ see w = s.
(** A collection that has quadratic cuts is not inserted into itself. *)
Definition not_self {A R} (s : seen A R) (o : op A R) : Prop := forall i c, o = InsAll i i -> there i s = Some c -> snd c = [].
Fixpoint never_self {A R} (ops : list (op A R)) (s : seen A R) : Prop :=
  match ops with [] => True | o :: t => not_self s o /\ match calls s o with Some s1 => never_self t s1 | None => True end end.

(** C304: the collection whose contents a call may change. *)
Definition changes {A R} (o : op A R) : option nat :=
  match o with
  | New | CopyOf _ | NewCut _ | DelCut _ => None
  | Assign i _ | Destroy i | AddRow i _ | InsVal i _ | InsRef i _ _ | InsPtr i _ | InsAll i _ | Erase i _ | Write i _ _ => Some i
  end.

(** C305: how often a cut is held by the collections and by the client, and whether it is allocated. *)
Definition is_ptr (n : nat) (p : ptr) : bool := match p with Some m => Nat.eqb n m | None => false end.
Definition times (n : nat) (ps : list ptr) : nat := length (filter (is_ptr n) ps).
Definition all_ptrs {A R} (w : world A R) : list ptr :=
  concat (map (fun c => match c with Some c => c_quads c | None => [] end) (colls w)) ++ vars w.
Definition allocated {A R} (w : world A R) (n : nat) : Prop := exists v, nth n (heap w) None = Some v.
Definition all_gone {A R} (w : world A R) : Prop := (forall i, nth i (colls w) None = None) /\ (forall x, nth x (vars w) None = None).

(** C306: every collection can be copied. *)
Definition C306_full : Prop := forall A R fuel (ops : list (op A R)) w i c, run fuel ops start = Ok w -> nth i (colls w) None = Some c ->
  exists w', step fuel w (CopyOf i) = Ok w'.
