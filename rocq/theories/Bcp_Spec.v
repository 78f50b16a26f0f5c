(** What the properties about the parallel driver (experimental/Bcp) say. *)
From Coq Require Import String Sorted.
From Verif Require Import Base Arr Bcp_Model.
#[local] Open Scope Q_scope.

(** ** One node in one process *)
Record site := {
  x_objs : list obj;  x_order : list nat;
  x_sol : list Q;  x_lo : list Q;  x_up : list Q;  x_tol : Q;
  x_srt : bool -> list (Q * nat) -> list (Q * nat);
  x_useful : nat -> Q -> Q;
  x_disr : bool;  x_pseudo : bool;  x_decr : bool;
  x_solve : list Q -> list Q -> ans;
  x_ndebug : bool;  x_net : list (nat * list ans) -> list (nat * list ans);
  x_over : Q -> bool;  x_maxmin : Q;  x_val : Q;  x_pref : nat -> option bool;  x_high : bool;
  x_par : ints;  x_index : Z;  x_pids : nat;
  x_tab : list sbres                           (* results kept from earlier nodes *)
}.
Definition col s i := o_col (nth i (x_objs s) dobj).
Definition prio s i := o_prio (nth i (x_objs s) dobj).
Definition value s i := nth (col s i) (x_sol s) 0.
Definition low s i := nth (col s i) (x_lo s) 0.
Definition high s i := nth (col s i) (x_up s) 0.
Definition infeas_of s i := osi_infeas (x_tol s) (low s i) (high s i) (value s i).
Definition candidates (s : site) : outcome cand :=
  sort_objects (x_objs s) (x_order s) (x_sol s) (x_lo s) (x_up s) (x_srt s) (infeas_of s) (x_useful s)
    (x_disr s) (x_pseudo s) (x_decr s) (Z.eqb (x_index s) 0).
Definition branch_at_node (s : site) : outcome told :=
  bbBranch (x_objs s) (x_order s) (x_sol s) (x_lo s) (x_up s) (x_srt s) (infeas_of s) (x_useful s)
    (x_disr s) (x_pseudo s) (x_decr s) (Z.eqb (x_index s) 0) (x_solve s) (x_ndebug s) (x_net s)
    (x_over s) (x_maxmin s) (x_val s) (x_pref s) (x_high s) (x_par s) (x_index s) (x_pids s) (x_tab s).
(** The results table after the strong branching of the node. *)
Definition evaluate (s : site) (n : nat) (inf feas : list nat) :=
  do_distributed_SB (x_objs s) (x_sol s) (x_lo s) (x_up s) (x_solve s) (x_ndebug s) (x_net s) (x_pids s) n inf feas (clear (x_tab s)).
Definition asked (s : site) (num : Z) : outcome Z := how_many (x_par s) (x_index s) (x_pids s) num.

Definition integral (q : Q) : Prop := exists z, q == inject_Z z.
Definition at_least (d : bool) (a b : Q * nat) : Prop := if d then fst b <= fst a else fst a <= fst b.
(** CoinSort_2: the same entries, in order. *)
Definition sorter (f : bool -> list (Q * nat) -> list (Q * nat)) : Prop :=
  forall d l, Permutation l (f d l) /\ StronglySorted (at_least d) (f d l).
(** What the code relies on. *)
Record well_formed (s : site) : Prop := {
  wf_order : Permutation (x_order s) (seq 0 (List.length (x_objs s)));
  wf_sorted : StronglySorted (fun i j => (prio s i <= prio s j)%Z) (x_order s);
  wf_some : x_objs s <> [];
  wf_cols : NoDup (map o_col (x_objs s));
  wf_range : Forall (fun o => (o_col o < List.length (x_lo s))%nat) (x_objs s);
  wf_up : List.length (x_up s) = List.length (x_lo s);
  wf_srt : sorter (x_srt s);
  wf_net : forall l, Permutation l (x_net s l);
  wf_tol : 0 <= x_tol s < 1 # 2;
  wf_int : forall i, (i < List.length (x_objs s))%nat -> integral (low s i) /\ integral (high s i);
  wf_box : forall i, (i < List.length (x_objs s))%nat -> low s i <= high s i /\ low s i - (1 # 2) < value s i < high s i + (1 # 2);
  wf_tab : map r_col (x_tab s) = map o_col (x_objs s);
  (* one process less than there are branches is asked for (766) *)
  wf_pids : forall c, candidates s = Ok c -> (Z.of_nat (x_pids s) < Z.max 1 (c_num c))%Z
}.

(** *** C218: the candidates *)
Definition fractional s i : Prop := 0 < infeas_of s i.
Definition loose s i : Prop := ~ fractional s i /\ (1 # 10) <= Qabs (high s i - low s i).
(** The usefulness on which the infeasible candidates are sorted. *)
Definition inf_use s i : Q :=
  if x_pseudo s then if Z.eqb (x_index s) 0 then infeas_of s i else x_useful s i (infeas_of s i) else infeas_of s i.
Definition feas_use s i : Q := x_useful s i (value s i).
Definition by_use (d : bool) (u : nat -> Q) (i j : nat) : Prop := if d then u j <= u i else u i <= u j.
Definition by_prio s (u : nat -> Q) (i j : nat) : Prop :=
  (prio s i < prio s j)%Z \/ (prio s i = prio s j /\ by_use (x_decr s) u i j).
Definition the_lists s (c : cand) : Prop :=
  NoDup (c_inf c) /\ NoDup (c_feas c) /\
  (forall i, In i (c_inf c) <-> (i < List.length (x_objs s))%nat /\ fractional s i) /\
  (forall i, In i (c_feas c) <-> (i < List.length (x_objs s))%nat /\ loose s i).
Definition C218_full : Prop := forall s, well_formed s -> x_disr s = false ->
  exists c, candidates s = Ok c /\ the_lists s c /\
    StronglySorted (by_prio s (inf_use s)) (c_inf c) /\ StronglySorted (by_prio s (feas_use s)) (c_feas c).
(** Going through the objects by priority, no level is entered by a feasible candidate. *)
Fixpoint never_first s (lvl : Z) (l : list nat) : Prop :=
  match l with
  | [] => True
  | i :: r => (fractional s i -> never_first s (Z.max lvl (prio s i)) r) /\
              (~ fractional s i -> (loose s i -> (prio s i <= lvl)%Z) /\ never_first s lvl r)
  end.

(** *** C219: the branches *)
Definition branches s (c : cand) : list branch :=
  all_branches (x_objs s) (x_sol s) (x_lo s) (x_up s) (c_inf c) (c_feas c).
Definition inside s (b : branch) : Prop :=
  low s (b_obj b) <= b_bd b <= high s (b_obj b) /\ integral (b_bd b) /\ b_col b = col s (b_obj b).
(** The side a branch leaves. *)
Definition keeps (b : branch) (z : Q) : Prop := if b_up b then b_bd b <= z else z <= b_bd b.
Definition C219_spec s c : Prop :=
  Forall (inside s) (branches s c) /\ Forall (fun b => ~ keeps b (b_val b)) (branches s c) /\
  Z.of_nat (List.length (branches s c)) = c_num c /\
  (forall i z, In i (c_inf c) -> integral z ->
     exists b, In b (branches s c) /\ b_obj b = i /\ keeps b z) /\
  (forall i, In i (c_feas c) -> exists k, integral k /\ Qabs (value s i - k) < 1 # 2 /\ low s i <= k <= high s i /\
     forall z, integral z -> low s i <= z <= high s i -> ~ z == k ->
       exists b, In b (branches s c) /\ b_obj b = i /\ keeps b z).

(** *** C220: solving the branches.  One bound is moved, the others are those of the node. *)
Definition changed_lo (l : list Q) (b : branch) : list Q := if b_up b then put (b_col b) (b_bd b) l else l.
Definition changed_up (u : list Q) (b : branch) : list Q := if b_up b then u else put (b_col b) (b_bd b) u.
Definition answer (solve : list Q -> list Q -> ans) (l u : list Q) (b : branch) : ans :=
  let a := solve (changed_lo l b) (changed_up u b) in (fst a, if opt (fst a) then snd a else 0).

(** *** C221: evaluation on several processes against evaluation on one *)
Definition one_process s (n : nat) (c : cand) : list sbres :=
  let bs := firstn n (branches s c) in
  register bs (map (answer (x_solve s) (x_lo s) (x_up s)) bs) (clear (x_tab s)).
Definition C221_full : Prop := forall s c n, well_formed s -> candidates s = Ok c -> (0 < n <= Z.to_nat (c_num c))%nat ->
  exists un, evaluate s n (c_inf c) (c_feas c) = Ok (one_process s n c, un).
(** What a table holds: for each branch its answer and how far it moves the
    value, and no mark where nothing was evaluated. *)
Definition result_of s (b : branch) : side :=
  let a := answer (x_solve s) (x_lo s) (x_up s) b in {| d_st := fst a; d_val := snd a; d_chg := Qabs (value s (b_obj b) - b_bd b) |}.
Definition table_of s (bs : list branch) (tab : list sbres) : Prop :=
  (forall b, In b bs -> let r := nth (b_obj b) tab dres in
     if b_up b then r_e1 r = true /\ r_d1 r = Some (result_of s b) else r_e0 r = true /\ r_d0 r = Some (result_of s b)) /\
  (forall i, (i < List.length (x_objs s))%nat ->
     (r_e0 (nth i tab dres) = true -> exists b, In b bs /\ b_obj b = i /\ b_up b = false) /\
     (r_e1 (nth i tab dres) = true -> exists b, In b bs /\ b_obj b = i /\ b_up b = true)).
(** *** C222: no message of an evaluation is left *)
Definition C222_full : Prop := forall s c n tab un, well_formed s -> candidates s = Ok c -> (0 < n <= Z.to_nat (c_num c))%nat ->
  evaluate s n (c_inf c) (c_feas c) = Ok (tab, un) -> un = [].

(** *** C223: no better solution is lost *)
Definition within (l u x : list Q) : Prop :=
  List.length x = List.length l /\ forall c, (c < List.length l)%nat -> nth c l 0 <= nth c x 0 <= nth c u 0.
(** [F]: the integer feasible points of the problem, [f] their objective. *)
Record truthful (s : site) (F : list Q -> Prop) (f : list Q -> Q) : Prop := {
  tr_inf : forall l u st v, x_solve s l u = (st, v) -> pinf st = true -> forall x, F x -> ~ within l u x;
  tr_opt : forall l u st v, x_solve s l u = (st, v) -> opt st = true -> forall x, F x -> within l u x -> v <= f x;
  tr_int : forall i x, (i < List.length (x_objs s))%nat -> F x -> integral (nth (col s i) x 0);
  tr_over : forall a b, a <= b -> x_over s a = true -> x_over s b = true
}.
Definition nothing_lost (s : site) (F : list Q -> Prop) (f : list Q -> Q) (t : told) : Prop :=
  forall x, F x -> within (x_lo s) (x_up s) x -> x_over s (f x) = false ->
    match t with
    | BFathomed => False
    | BResolve l u => within l u x
    | BLocal => True
    | BBranch i _ l u _ =>
        within l u x /\ (nth (col s i) x 0 <= flo (value s i) \/ cei (value s i) <= nth (col s i) x 0)
    end.
Definition C223_full : Prop := forall s F f t, well_formed s -> truthful s F f ->
  branch_at_node s = Ok t -> nothing_lost s F f t.

(** With an even number of branches, or one that covers the infeasible
    candidates, both sides of such a candidate are evaluated or none. *)
Definition paired (c : cand) (n : nat) : Prop := Nat.even n = true \/ (2 * List.length (c_inf c) <= n)%nat.
Definition never_abandons (s : site) : Prop := forall l u, ab (fst (x_solve s l u)) = false.

(** *** C224: the evaluation of a node comes to an end *)
Definition C224_full : Prop := forall s, well_formed s -> x_pids s = 0%nat ->
  x_par s SBNumBranchesInRoot <> None -> x_par s SBNumBranchesInTree <> None -> x_par s SBMaxLevel <> None ->
  (exists c, candidates s = Ok c /\ c_inf c <> []) ->
  exists t, branch_at_node s = Ok t.

(** *** C225: parameters *)
Definition settable (k : ipar) : Prop := exists w, forall v P, read_par [(w, v)] P k = Some v.
Definition C225_full : Prop := forall k, settable k /\ default_entries k <> None.

(** *** C226: the candidate chosen *)
Definition trusted (tab : list sbres) (i : nat) (d0 d1 : side) : Prop :=
  let r := nth i tab dres in
  (r_e0 r = true \/ r_e1 r = true) /\ r_d0 r = Some d0 /\ r_d1 r = Some d1 /\ ab (d_st d0) = false /\ ab (d_st d1) = false.
(** Change of the objective on the two sides: weighted mean of the smaller and the larger one. *)
Definition mean (maxmin nodeval : Q) (d0 d1 : side) (v : Q) : Prop :=
  let a := d_val d0 - nodeval in let b := d_val d1 - nodeval in
  (a <= b /\ v == maxmin * a + (1 - maxmin) * b) \/ (b <= a /\ v == maxmin * b + (1 - maxmin) * a).
Definition half_done (tab : list sbres) (i : nat) : Prop :=
  exists d, (r_d0 (nth i tab dres) = Some d \/ r_d1 (nth i tab dres) = Some d) /\ ab (d_st d) = false.
Definition touched (tab : list sbres) (i : nat) : Prop :=
  r_e0 (nth i tab dres) = true \/ r_e1 (nth i tab dres) = true.
(** A side that holds nothing better. *)
Definition hopeless (over : Q -> bool) (d : side) : Prop :=
  pinf (d_st d) = true \/ (opt (d_st d) = true /\ over (d_val d) = true).
Definition sides (tab : list sbres) (i : nat) (d0 d1 : side) : Prop :=
  touched tab i /\ r_d0 (nth i tab dres) = Some d0 /\ r_d1 (nth i tab dres) = Some d1.
(** Smaller or larger values are preferred. *)
Definition no_worse (high : bool) (v w : Q) : Prop := if high then w <= v else v <= w.
Definition preferred (high : bool) (v w : Q) : Prop := if high then w < v else v < w.
Definition best_choice maxmin nodeval pref high tab (inf : list nat) (k : nat) (w : bool) : Prop :=
  (k < List.length inf)%nat /\
  exists d0 d1 v, trusted tab (nth k inf 0%nat) d0 d1 /\ mean maxmin nodeval d0 d1 v /\
    match pref (nth k inf 0%nat) with
    | Some p => w = p
    | None => w = true <-> d_val d1 <= d_val d0
    end /\
    forall j e0 e1 v', (j < List.length inf)%nat -> trusted tab (nth j inf 0%nat) e0 e1 -> mean maxmin nodeval e0 e1 v' ->
      no_worse high v v' /\ ((j < k)%nat -> preferred high v v').
Definition first_such (Pr : nat -> Prop) (inf : list nat) (k : nat) : Prop :=
  (k < List.length inf)%nat /\ Pr (nth k inf 0%nat) /\ forall j, (j < k)%nat -> ~ Pr (nth j inf 0%nat).
Definition none_such (Pr : nat -> Prop) (inf : list nat) : Prop := forall i, In i inf -> ~ Pr i.
Definition C226_choice maxmin nodeval pref high tab inf k w : Prop :=
  best_choice maxmin nodeval pref high tab inf k w \/
  (none_such (fun i => exists d0 d1, trusted tab i d0 d1) inf /\ w = true /\
   (first_such (fun i => ~ touched tab i) inf k \/
    (none_such (fun i => ~ touched tab i) inf /\
     (first_such (half_done tab) inf k \/ (none_such (half_done tab) inf /\ k = (List.length inf - 1)%nat))))).
Definition C226_spec over maxmin nodeval pref high tab inf (d : decision) : Prop :=
  match d with
  | DFathom => exists i d0 d1, In i inf /\ sides tab i d0 d1 /\ hopeless over d0 /\ hopeless over d1
  | DResolve =>
      (forall i d0 d1, In i inf -> sides tab i d0 d1 -> ~ (hopeless over d0 /\ hopeless over d1)) /\
      (exists i d0 d1, In i inf /\ sides tab i d0 d1 /\ (hopeless over d0 \/ hopeless over d1))
  | DBranch k w _ =>
      (forall i d0 d1, In i inf -> sides tab i d0 d1 -> ~ (hopeless over d0 \/ hopeless over d1)) /\
      C226_choice maxmin nodeval pref high tab inf k w
  end.
(** *** C234: a node is solved again only with a smaller box *)
Definition smaller s (l u : list Q) : Prop :=
  exists i, (i < List.length (x_objs s))%nat /\ fractional s i /\
    (low s i < nth (col s i) l 0 \/ nth (col s i) u 0 < high s i).

(** *** C227: the values given for the children *)
Definition of_this_node s (i : nat) (w : bool) (p : status * Q) : Prop :=
  let b := {| b_up := w; b_obj := i; b_col := col s i; b_val := value s i; b_bd := if w then cei (value s i) else flo (value s i) |} in
  p = answer (x_solve s) (x_lo s) (x_up s) b.
Definition C227_full : Prop := forall s t, well_formed s -> x_ndebug s = false -> branch_at_node s = Ok t ->
  match t with
  | BBranch i w _ _ pre => exists p q, pre = [p; q] /\ of_this_node s i w p /\ of_this_node s i (negb w) q
  | _ => True
  end.

(** ** C228: failures in a row *)
Fixpoint row (h : list bool) : Z := match h with true :: r => (row r + 1)%Z | _ => 0%Z end.
Definition reach (max : Z) (procs : nat) (es : list event) : world := fold_left (happen max) es (start procs).
Definition C228_spec (max : Z) (w : world) : Prop :=
  (forall n h, In (n, h) (w_open w) -> n = row h /\ (row h < max)%Z) /\
  (forall k n h, nth k (w_busy w) None = Some (n, h) -> n = row h /\ (row h < max)%Z) /\
  (forall h, In h (w_gone w) -> row h = max).

(** ** C229: pseudo-costs *)
(** What the evaluation of one side is worth. *)
Inductive worth (cutoff nodeval : Q) : option side -> bool -> option Q -> Prop :=
| w_none d : worth cutoff nodeval d false None
| w_ab s : ab (d_st s) = true -> opt (d_st s) = false -> pinf (d_st s) = false -> worth cutoff nodeval (Some s) true None
| w_opt s : ab (d_st s) = false -> opt (d_st s) = true -> pinf (d_st s) = false ->
    worth cutoff nodeval (Some s) true (Some ((d_val s - nodeval) / d_chg s))
| w_inf s c : pinf (d_st s) = true -> ab (d_st s) = false ->
    c == (if Qltb cutoff (inject_Z (10 ^ 50)) then 2 * (cutoff - nodeval) else 2 * Qabs nodeval) / d_chg s ->
    worth cutoff nodeval (Some s) true (Some c)
| w_else s : ab (d_st s) = false -> opt (d_st s) = false -> pinf (d_st s) = false ->
    worth cutoff nodeval (Some s) true None.
Definition moved_by (w : option Q) (t t' : Q) (n n' : Z) : Prop :=
  match w with None => t' = t /\ n' = n | Some c => t' == t + c /\ n' = (n + 1)%Z end.
Definition same_size (n : nat) (p : pcosts) : Prop :=
  List.length (up_tot p) = n /\ List.length (up_num p) = n /\ List.length (down_tot p) = n /\ List.length (down_num p) = n.
Definition accounted (cutoff nodeval : Q) (tab : list sbres) (p p' : pcosts) : Prop :=
  same_size (List.length tab) p' /\
  forall i, (i < List.length tab)%nat -> let r := nth i tab dres in
    (exists w, worth cutoff nodeval (r_d0 r) (r_e0 r) w /\
       moved_by w (nth i (down_tot p) 0) (nth i (down_tot p') 0) (nth i (down_num p) 0%Z) (nth i (down_num p') 0%Z)) /\
    (exists w, worth cutoff nodeval (r_d1 r) (r_e1 r) w /\
       moved_by w (nth i (up_tot p) 0) (nth i (up_tot p') 0) (nth i (up_num p) 0%Z) (nth i (up_num p') 0%Z)).
(** Results as stored by an evaluation: present, and the variable did change. *)
Definition stored_side (ev : bool) (d : option side) : Prop :=
  ev = true -> exists s, d = Some s /\ 0 < d_chg s.
Definition stored (tab : list sbres) : Prop :=
  Forall (fun r => stored_side (r_e0 r) (r_d0 r) /\ stored_side (r_e1 r) (r_d1 r)) tab.
(** At most one bit is set: the solver says one thing at a time. *)
Definition one_bit (st : status) : Prop :=
  (ab st && opt st = false) /\ (ab st && pinf st = false) /\ (opt st && pinf st = false).
Definition C229_full : Prop := forall cutoff nodeval tab p, stored tab -> same_size (List.length tab) p ->
  Forall (fun r => forall d, r_d0 r = Some d \/ r_d1 r = Some d -> one_bit (d_st d)) tab ->
  exists m p', send_pseudo_cost_update cutoff nodeval tab = Ok m /\ tm_process_message m p = Ok p' /\
    accounted cutoff nodeval tab p p'.
(** Every evaluated side has been solved, refuted or abandoned. *)
Definition decided (tab : list sbres) : Prop :=
  Forall (fun r => (forall d, r_e0 r = true -> r_d0 r = Some d -> ab (d_st d) || opt (d_st d) || pinf (d_st d) = true) /\
                   (forall d, r_e1 r = true -> r_d1 r = Some d -> ab (d_st d) || opt (d_st d) || pinf (d_st d) = true)) tab.

(** ** C231: the solution written *)
Definition C231_full : Prop := forall isint tol x i, 0 < tol < 1 # 2 -> (i < List.length x)%nat ->
  (forall j, isint j = true -> (j < List.length x)%nat -> exists k, integral k /\ Qabs (nth j x 0 - k) <= tol) ->
  let y := nth i (written isint (List.length x) (hybrid_entries tol x)) 0 in
  Qabs (y - nth i x 0) <= tol.

(** ** C232: the order of the nodes *)
Definition C232_full : Prop :=
  (forall x, before x x = false) /\
  (forall x y z, before x y = true -> before y z = true -> before x z = true).

(** ** C233: the lower bound of a node *)
Definition C233_full : Prop := forall pure objval old, exists b, compute_lower_bound pure objval old = Ok b /\ old <= b.
