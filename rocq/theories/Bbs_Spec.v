(** Specification of the set-up of a branch-and-bound run. *)
From Verif Require Import Base Bbs_Model.
#[local] Open Scope Z_scope.

(** ** What the user gave for a column *)
Definition at_col {A} (a : option (list A)) (j : nat) (d : A) : A := match a with Some l => nth j l d | None => d end.
Definition columns (u : setup) : list (nat * bool) := combine (seq 0 (length (u_cols u))) (u_cols u).
(** One object for every integer column, in order, with the data given for this column. *)
Definition wanted_ints (u : setup) : list obj :=
  flat_map (fun '(j, b) =>
    if b : bool then [OInt j (at_col (u_prio u) j 1000) (at_col (u_dir u) j 0)
                     (match u_up u, u_down u with Some a, Some d => Some (nth j a 0%Q, nth j d 0%Q) | _, _ => None end)]
    else []) (columns u).
Definition between {A} (s e : nat) (l : list A) : list A := skipn s (firstn e l).
(** One object for every SOS constraint; its priority is the one given, 10 if none is given or it is 0. *)
Definition wanted_sos (u : setup) : list obj :=
  if u_nosos u then [] else
  match u_sos u with
  | None => []
  | Some q =>
      map (fun i => let s := nth i (so_starts q) O in let e := nth (S i) (so_starts q) O in
             OSos (between s e (so_ind q)) (between s e (so_wts q)) i (nth i (so_types q) 0)
                  (match at_col (so_prio q) i 0 with 0 => 10 | z => z end)) (seq 0 (so_num q))
  end.
Definition wanted_extra (u : setup) : list obj := flat_map (fun e => match e with Some k => [OExtra k] | None => [] end) (u_extra u).
(** Arrays have the sizes documented. *)
Definition fits {A} (n : nat) (a : option (list A)) : Prop := match a with Some l => length l = n | None => True end.
Definition sos_ok (q : sosinfo) : Prop :=
  length (so_starts q) = S (so_num q) /\ length (so_types q) = so_num q /\ fits (so_num q) (so_prio q) /\
  (forall i, (i < so_num q)%nat -> (nth i (so_starts q) O <= nth (S i) (so_starts q) O)%nat) /\
  (forall i, (i <= so_num q)%nat -> (nth i (so_starts q) O <= length (so_ind q))%nat) /\ length (so_wts q) = length (so_ind q).
Definition sized (u : setup) : Prop :=
  let n := length (u_cols u) in
  fits n (u_prio u) /\ fits n (u_dir u) /\ fits n (u_up u) /\ fits n (u_down u) /\
  match u_sos u with Some q => sos_ok q | None => True end /\ Forall (fun e => e <> None) (u_extra u).
Definition user_branching (u : setup) : Prop := u_cobjs u = None.

(** ** C265: what the user says about branching reaches the search *)
Definition C265_full : Prop :=
  forall p u, sized u -> user_branching u ->
  exists b t, prepare u (bab0 p) = Ok (b, t) /\ m_objs (b_model b) = wanted_ints u ++ wanted_sos u ++ wanted_extra u.

(** ** C266: objects made by the branching rule *)
Definition covers (u : setup) (l : list obj) : Prop :=
  forall j, nth_error (u_cols u) j = Some true -> exists o, In o l /\ col_of o = Some j.

(** ** Several runs on one Bab; an exception is caught by the user *)
Fixpoint prepares (us : list setup) (b : bab) : outcome bab :=
  match us with [] => Ok b | u :: t => do ' (b1, _) <- prepare u b; prepares t b1 end.
(** What the search of a run works with. *)
Definition how (g : gen) : nat * Z * bool * bool * bool := (g_id g, g_freq g, g_normal g, g_atsol g, g_always g).
Definition gen_calls (m : cbc) : list (nat * Z * bool * bool * bool) := map how (m_gens m).
Definition C267_full : Prop :=
  forall p us u b t b1, prepares us (bab0 p) = Ok b -> sized u -> Forall sized us ->
    prepare u (bab0 p) = Ok (b1, t) ->
    exists b2 t2, prepare u b = Ok (b2, t2) /\
    gen_calls (b_model b2) = gen_calls (b_model b1) /\ m_heus (b_model b2) = m_heus (b_model b1) /\ m_objs (b_model b2) = m_objs (b_model b1).
(** Nothing said about integer variables. *)
Definition plain (u : setup) : Prop := u_cobjs u = None /\ u_prio u = None /\ u_dir u = None /\ u_up u = None.
Definition guesses (u : setup) : list heu := match u_cmp u with bestGuess => [HGuess] | _ => [] end.

(** ** C268: settings *)
Definition C268_full : Prop :=
  forall p us u b t b1 b2 t2, prepares us (bab0 p) = Ok b -> prepare u (bab0 p) = Ok (b1, t) -> prepare u b = Ok (b2, t2) ->
    m_special (b_model b2) = m_special (b_model b1) /\ m_strat (b_model b2) = m_strat (b_model b1) /\
    m_tree (b_model b2) = m_tree (b_model b1) /\ m_cmp (b_model b2) = m_cmp (b_model b1) /\ m_pars (b_model b2) = m_pars (b_model b1).
(** The last element satisfying [f], if any. *)
Definition last_such {A} (f : A -> bool) (l : list A) : option A := hd_error (filter f (rev l)).
Definition special_of (us : list setup) : Z :=
  match last_such (fun u => negb (Z.eqb (u_special u) 0)) us with Some u => u_special u | None => 0 end.
Definition strategy_of (us : list setup) : option (Z * Z * Z) :=
  option_map u_fail (last_such (fun u => Z.eqb (u_special u) 16) us).
Definition uses_tree (u : setup) : bool := match u_tree u with HeapOnly => false | _ => true end.
Definition search_tree (us : list setup) : ntree := match last_such uses_tree us with Some u => u_tree u | None => HeapOnly end.
(** The comparison each value of node_comparison stands for, wrapped by the one that knows about diving for dfs-dive-dynamic. *)
Definition comparison_meant (u : setup) : kcmp :=
  let c := match u_cmp u with bestBound => KObjective | DFS => KDepth | BFS => KDefault0 | dynamic => KDefault | bestGuess => KEstimate end in
  match u_tree u with DfsDiveDynamic => KDiver c | HeapOnly | DiveFromBest | ProbedDive | DfsDiveFromBest => c end.

(** ** C270: no generator works on a solver that has been deleted *)
Definition unassigned (u : setup) : Prop := Forall (fun g => g_lp g = None) (u_gens u).
Definition C270_full : Prop :=
  forall p us b g, Forall unassigned us -> prepares us (bab0 p) = Ok b -> In g (m_gens (b_model b)) ->
    g_lp g = if (g_oa g && g_reassign g)%bool then Some (m_solver (b_model b)) else None.

(** ** C271: pointers to objects *)
Definition C271_full : Prop :=
  forall p us b u, Forall sized us -> prepares us (bab0 p) = Ok b -> destroy b <> Uninit /\ prepare u b <> Uninit.

(** ** C272: the root with enable_dynamic_nlp *)
Definition C272_full : Prop :=
  forall u w b, Z.eqb (u_special u) 16 = false \/ u_same u = true -> exists r, root_phase u w false b = Ok r.

(** ** C274: interruptions only reach models that exist *)
Definition C274_full : Prop := forall l p es, acts proc0 l = Ok (p, es) -> act_step p Interrupt <> Dangling.
(** ** C275: an interruption stops the current run only *)
Definition C275_full : Prop :=
  forall l p es i, acts proc0 l = Ok (p, es) -> ~ In EExit es -> existsb (Nat.eqb i) (pr_live p) = true -> exists q, act_step p (Run i) = Ok (q, ESearch i).
