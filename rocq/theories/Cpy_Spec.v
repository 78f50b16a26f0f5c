(** What users of copied generators, heuristics and rules expect. *)
From Verif Require Import Base Cpy_Model.
#[local] Open Scope Q_scope.

Definition upd {A} (i : nat) (a : A) (l : list A) : list A := firstn i l ++ (if (i <? List.length l)%nat then [a] else []) ++ skipn (S i) l.

(** ** C347: settings given when a generator is built are those of all its copies, and copies of copies; the number of cuts a
    checker goes by is that of all checks made by it and, before it was copied, by those it comes from. *)
(** The settings of each generator, from the history. *)
Fixpoint given (acc : list (pars * kind * bool * bool)) (h : list ev) : list (pars * kind * bool * bool) :=
  match h with
  | [] => acc
  | New p k lv ra :: h => given (acc ++ [(p, k, lv, ra)]) h
  | Copy i :: h => given (acc ++ match nth_error acc i with Some s => [s] | None => [] end) h
  | _ :: h => given acc h
  end.
Definition settings_of (g : gen) := (g_par g, g_kind g, g_leave g, g_reassign g).
(** Kinds (outer approximation or not) and numbers of the cuts of the checks seen. *)
Definition kinds (l : list lev) : list (bool * nat) := flat_map (fun e => match e with Cuts _ oa n => [(oa, n)] | _ => [] end) l.
(** Cuts counted by each generator, from the history: those of its checks and of the one it was copied from at that time. *)
Definition checker (k : kind) : bool := match k with KFeas _ _ _ => true | _ => false end.
Fixpoint counts (acc : list (bool * nat)) (h : list ev) : list (bool * nat) :=
  match h with
  | [] => acc
  | Tick _ :: h => counts acc h
  | New _ k _ _ :: h => counts (acc ++ [(checker k, 0%nat)]) h
  | Copy i :: h => counts (acc ++ match nth_error acc i with Some c => [c] | None => [] end) h
  | Gen i _ int _ cs :: h =>
    counts (match nth_error acc i with
            | Some (true, c) => if int then upd i (true, (c + list_sum cs)%nat) acc else acc
            | _ => acc end) h
  end.
(** Kinds of cuts of the passes of a check: outer approximation while no more than m cuts were made, if wanted at all. *)
Fixpoint passes (oa : bool) (m c : nat) (cs : list nat) : list (bool * nat) :=
  match cs with [] => [] | n :: cs => ((c <=? m)%nat && oa, n) :: passes oa m (c + n) cs end.

(** ** C348 *)
(** Time passed. *)
Fixpoint clock (t : Q) (h : list ev) : Q :=
  match h with [] => t | Tick d :: h => clock (t + d) h | _ :: h => clock t h end.
(** When each generator was made, by a constructor or as a copy. *)
Fixpoint births (t : Q) (h : list ev) : list Q :=
  match h with
  | [] => []
  | Tick d :: h => births (t + d) h
  | New _ _ _ _ :: h | Copy _ :: h => t :: births t h
  | Gen _ _ _ _ _ :: h => births t h
  end.
(** When the generator it comes from was built from the options. *)
Fixpoint built (t : Q) (acc : list Q) (h : list ev) : list Q :=
  match h with
  | [] => acc
  | Tick d :: h => built (t + d) acc h
  | New _ _ _ _ :: h => built t (acc ++ [t]) h
  | Copy i :: h => built t (acc ++ match nth_error acc i with Some b => [b] | None => [] end) h
  | Gen _ _ _ _ _ :: h => built t acc h
  end.
(** Sub-MIPs solved by a generator. *)
Definition solves (i : nat) (l : list lev) : nat :=
  List.length (filter (fun e => match e with Solved j => Nat.eqb i j | _ => false end) l).
(** Solutions found. *)
Definition found (rs : list bool) : nat := List.length (filter (fun b => b) rs).
(** The classes that search. *)
Definition searching (k : kind) : Prop := match k with KOa _ | KPump _ _ => True | _ => False end.
(** A local search begins at a fractional point only within the time limit since the options were read. *)
Definition C348_full : Prop := forall h w t i p k lv ra b,
  run h world0 = Ok w -> In (Asked t i true) (w_log w) ->
  nth_error (given [] h) i = Some (p, k, lv, ra) -> nth_error (built 0 [] h) i = Some b -> t - b < p_maxT p.

(** ** C349: no history of constructions, initialisations, copies, assignments and deletions of heuristics that exist accesses
    released memory, and what is not released is what living heuristics own. *)
(** Names of events exist: the objects alive, from the history. *)
Fixpoint alive (f : nat -> bool) (n : nat) (dead : list nat) (h : list hev) : Prop :=
  let ok i := (i < n)%nat /\ ~ In i dead in
  match h with
  | [] => True
  | HNew s :: h => alive f (if f s then S n else n) dead h
  | HInit i _ :: h | HOften i _ :: h => ok i /\ alive f n dead h
  | HCopy i :: h => ok i /\ alive f (S n) dead h
  | HAssign i j :: h => ok i /\ ok j /\ alive f n dead h
  | HDel i :: h => ok i /\ alive f n (i :: dead) h
  end.
Definition can (of_setup : nat -> option sub) (s : nat) : bool := match of_setup s with Some _ => true | None => false end.
(** Sub-MIPs not released, and those owned. *)
Definition kept (m : list (option sub)) (p : nat) : Prop := exists b, nth_error m p = Some (Some b).
Definition owns (w : hworld) (i p : nat) : Prop := exists s o, nth_error (hw_obj w) i = Some (Some (mkHeur s o (Some p))).
Definition sound (w : hworld) : Prop :=
  (forall p, kept (hw_mem w) p <-> exists i, owns w i p) /\ (forall i j p, owns w i p -> owns w j p -> i = j).
Definition C349_full : Prop := forall of_setup often h,
  alive (can of_setup) 0 [] h -> exists w, hrun of_setup often h hworld0 = Ok w /\ sound w.
(** No initialisation of an existing heuristic throws. *)
Definition inits_succeed (f : nat -> bool) (h : list hev) : Prop := forall i s, In (HInit i s) h -> f s = true.
(** Frequency and sub-MIP of each heuristic alive, from the history. *)
Fixpoint plan (f : nat -> option sub) (often : Z) (acc : list (option (Z * sub))) (h : list hev) : list (option (Z * sub)) :=
  match h with
  | [] => acc
  | HNew s :: h => plan f often (acc ++ match f s with Some b => [Some (often, b)] | None => [] end) h
  | HInit i s :: h =>
    plan f often (match nth_error acc i, f s with Some (Some (z, _)), Some b => upd i (Some (z, b)) acc | _, _ => acc end) h
  | HOften i z :: h => plan f often (match nth_error acc i with Some (Some (_, b)) => upd i (Some (z, b)) acc | _ => acc end) h
  | HCopy i :: h => plan f often (acc ++ match nth_error acc i with Some x => [x] | None => [] end) h
  | HAssign i j :: h => plan f often (match nth_error acc j with Some x => upd i x acc | None => acc end) h
  | HDel i :: h => plan f often (upd i None acc) h
  end.
(** What a heuristic will do: its frequency and its sub-MIP. *)
Definition does (w : hworld) (o : option heur) : option (Z * sub) :=
  match o with
  | None => None
  | Some o =>
    match h_mip o with
    | None => None
    | Some p => match nth_error (hw_mem w) p with Some (Some b) => Some (h_often o, b) | _ => None end
    end
  end.

(** ** C350: a rule copied or assigned has the options, time limit and pseudo-costs of the other. *)
Definition like (r s : rule) : Prop := r_opt r = r_opt s /\ r_lim r = r_lim s /\ r_pc r = r_pc s.
Definition C350_full : Prop := forall h w,
  rrun h rworld0 = Ok w ->
  (forall i r w', nth_error (rw_rules w) i = Some r -> rstep (RCopy i) w = Ok w' ->
     exists c, nth_error (rw_rules w') (List.length (rw_rules w)) = Some c /\ like c r) /\
  (forall i j r w', nth_error (rw_rules w) j = Some r -> rstep (RAssign i j) w = Ok w' ->
     exists c, nth_error (rw_rules w') i = Some c /\ like c r).
(** Options and pseudo-costs over a history, assignments included. *)
Fixpoint learnt (acc : list (ropts * list Q)) (h : list rev) : list (ropts * list Q) :=
  match h with
  | [] => acc
  | RTick _ :: h => learnt acc h
  | RNew o _ pc :: h => learnt (acc ++ [(o, pc)]) h
  | RCopy i :: h => learnt (acc ++ match nth_error acc i with Some x => [x] | None => [] end) h
  | RAssign i j :: h => learnt (match nth_error acc j with Some x => upd i x acc | None => acc end) h
  | RLearn i pc :: h => learnt (match nth_error acc i with Some (o, _) => upd i (o, pc) acc | None => acc end) h
  end.
(** Time limit, and time from which it counts: those of the construction or of the copy, whatever is assigned since. *)
Fixpoint limits (t : Q) (acc : list (Q * Q)) (h : list rev) : list (Q * Q) :=
  match h with
  | [] => acc
  | RTick d :: h => limits (t + d) acc h
  | RNew _ l _ :: h => limits t (acc ++ [(l, t)]) h
  | RCopy i :: h => limits t (acc ++ match nth_error acc i with Some (l, _) => [(l, t)] | None => [] end) h
  | _ :: h => limits t acc h
  end.
