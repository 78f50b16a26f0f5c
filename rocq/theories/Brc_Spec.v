(** Specifications for branching: C36-C39, C45, C76-C81. *)
From Verif Require Import Base Arr Itf_Model Oad_Model Brc_Model.
#[local] Open Scope Q_scope.

(** ** C36, C76: the candidate list *)
(** Object [i] is not satisfied; some object cannot be repaired. *)
Definition unsat (os : list bobj) (i : nat) : Prop := exists o, nth_error os i = Some o /\ 0 < o_inf o.
Definition hopeless (os : list bobj) : Prop := exists o, In o os /\ inject_Z (10 ^ 50) <= o_inf o.
(** Numbers of the unsatisfied objects. *)
Fixpoint unsat_from (i : nat) (os : list bobj) : list nat :=
  match os with
  | [] => []
  | o :: os' => if Qltb 0 (o_inf o) then i :: unsat_from (S i) os' else unsat_from (S i) os'
  end.
Definition prio (os : list bobj) (i : nat) : Z := match nth_error os i with Some o => o_prio o | None => 0%Z end.
Definition infeas (os : list bobj) (i : nat) : Q := match nth_error os i with Some o => o_inf o | None => 0 end.
(** No unsatisfied object has a better (smaller) priority. *)
Definition best (os : list bobj) (i : nat) : Prop := unsat os i /\ forall j, unsat os j -> (prio os i <= prio os j)%Z.
(** A better priority never comes after a worse one. *)
Fixpoint by_prio (os : list bobj) (l : list nat) : Prop :=
  match l with [] => True | a :: l' => Forall (fun b => (prio os a <= prio os b)%Z) l' /\ by_prio os l' end.
(** CoinSort_2: a rearrangement ordered by the first component. *)
Definition cell_le (a b : cell) : Prop :=
  match a, b with None, _ => True | Some _, None => False | Some x, Some y => (x <= y)%nat end.
Inductive sorted_by {A B} (le : A -> A -> Prop) : list (A * B) -> Prop :=
| sb_nil : sorted_by le []
| sb_cons : forall a l, Forall (fun b => le (fst a) (fst b)) l -> sorted_by le l -> sorted_by le (a :: l).
Definition sorters_ok (S : sorters) : Prop :=
  (forall l, Permutation l (sI S l) /\ sorted_by cell_le (sI S l)) /\
  (forall l, Permutation l (sQ S l) /\ sorted_by Qle (sQ S l)).
Definition pc_ok (n : nat) (pc : pcosts) : Prop :=
  length (p_ut pc) = n /\ length (p_un pc) = n /\ length (p_dt pc) = n /\ length (p_dn pc) = n.
(** What the caller of setupList provides. *)
Record setup_pre (S : sorters) (q : sopts) (cap : nat) (pc : pcosts) (os : list bobj) : Prop := {
  sp_sort : sorters_ok S;
  sp_some : os <> [];
  sp_cap : (length os <= cap)%nat;
  sp_pc : pc_ok (length (p_un pc)) pc;
  sp_frac : 0 <= s_frac q <= 1;
  sp_inf : Forall (fun o => 0 <= o_inf o) os;
  sp_int : Forall (fun o => (o_prio o <= 2147483647)%Z) os }.
Definition C36_full : Prop := forall S q cap pc os, setup_pre S q cap pc os ->
  exists r pc', setupList S q true cap pc os = Ok (r, pc') /\
    (r_uns r = (-1)%Z <-> hopeless os) /\
    (~ hopeless os -> exists l, firstn (length l) (r_list r) = map Some l /\ Permutation l (unsat_from 0 os) /\
       Forall (best os) (firstn (r_nol r) l)).
(** The stronger reading: the whole list is ordered by priority. *)
Definition C36_order_full : Prop := forall S q cap pc os, setup_pre S q cap pc os -> ~ hopeless os ->
  s_frac q == 0 -> (0 < Nat.max (s_strong q) (s_root q))%nat ->
  exists r pc' l, setupList S q true cap pc os = Ok (r, pc') /\ length l = length (unsat_from 0 os) /\
    firstn (length l) (r_list r) = map Some l /\ by_prio os l.
(** Best priority of an unsatisfied object, and how many unsatisfied objects have it. *)
Definition bp (os : list bobj) : Z := fold_right (fun j m => Z.min (prio os j) m) INT_MAX (unsat_from 0 os).
Definition number_best (os : list bobj) : nat := length (filter (fun i => Z.eqb (prio os i) (bp os)) (unsat_from 0 os)).
(** The number of candidates asked for. *)
Definition ms_of (q : sopts) (os : list bobj) : nat := Nat.min (Nat.max (s_strong q) (s_root q)) (length os).
(** C76: with most-fractional the list has the most fractional objects, most fractional first; with
    least-fractional the least fractional ones, least fractional first.  [kept]: an object left out
    compared with one on the list; [order]: a later one compared with an earlier one. *)
Definition list_holds_by (key : nat -> Q) (os : list bobj) (kept order : Q -> Q -> Prop) (k : nat) (r : slist) : Prop :=
  exists l, firstn (r_nol r) (r_list r) = map Some l /\ length l = r_nol r /\ NoDup l /\ Forall (best os) l /\
    r_nol r = Nat.min k (number_best os) /\
    (forall a b, In a l -> best os b -> ~ In b l -> kept (key b) (key a)) /\
    (forall i j a b, (i < j)%nat -> nth_error l i = Some a -> nth_error l j = Some b -> order (key b) (key a)).
Definition list_holds (os : list bobj) := list_holds_by (infeas os) os.
Definition Qge' (a b : Q) : Prop := b <= a.
Definition C76_full : Prop := forall S q cap pc os, setup_pre S q cap pc os -> ~ hopeless os ->
  s_frac q == 0 -> (0 < Nat.max (s_strong q) (s_root q))%nat ->
  exists r pc', setupList S q true cap pc os = Ok (r, pc') /\
    (s_crit q = DecrInfeas -> list_holds os Qle Qle (Nat.max (s_strong q) (s_root q)) r) /\
    (s_crit q = IncrInfeas -> list_holds os Qge' Qge' (Nat.max (s_strong q) (s_root q)) r).

(** ** C37: random choice *)
Definition runsat (os : list robj) (i : nat) : Prop :=
  exists o, nth_error os i = Some o /\ match ro_inf o with None => True | Some v => 0 < v end.
Definition rprio (os : list robj) (i : nat) : Z := match nth_error os i with Some o => ro_prio o | None => 0%Z end.
Definition rbest (os : list robj) (i : nat) : Prop := runsat os i /\ forall j, runsat os j -> (rprio os i <= rprio os j)%Z.
Definition choose_random (os : list robj) (d : Q) : outcome (option nat) := do L <- rsetup os; rchoose d L.
Definition C37_full : Prop := forall os d, os <> [] -> Forall (fun o => (ro_prio o <= 2147483647)%Z) os -> 0 <= d -> d < 1 ->
  exists r, choose_random os d = Ok r /\
    (r = None <-> ~ exists i, runsat os i) /\ forall i, r = Some i -> rbest os i.
(** The part of the objects before the first one that cannot be repaired, and its unsatisfied objects. *)
Fixpoint reach (os : list robj) : list robj :=
  match os with [] => [] | o :: os' => match ro_inf o with None => [] | Some _ => o :: reach os' end end.
Fixpoint runsat_from (i : nat) (os : list robj) : list nat :=
  match os with
  | [] => []
  | o :: os' => match ro_inf o with
                | None => i :: runsat_from (S i) os'
                | Some v => if Qltb 0 v then i :: runsat_from (S i) os' else runsat_from (S i) os'
                end
  end.
(** The longest final part of [l] along which the priorities do not improve. *)
Fixpoint nonimproving (key : nat -> Z) (l : list nat) : Prop :=
  match l with a :: ((b :: _) as l') => (key a <= key b)%Z /\ nonimproving key l' | _ => True end.
Definition final_run (key : nat -> Z) (l r : list nat) : Prop :=
  nonimproving key r /\ (l <> [] -> r <> []) /\
  exists p, l = p ++ r /\ (p = [] \/ exists p' a b r', p = p' ++ [a] /\ r = b :: r' /\ (key b < key a)%Z).

(** ** C38: strong branching *)
Definition same_bounds (a b : bounds) : Prop := Forall2 (fun x y => fst x == fst y /\ snd x == snd y) a b.
(** Preconditions: known objects with positive estimates, branches that keep the number of columns,
    pseudo-costs for all objects. *)
Record sb_pre (q : sbopts) (n : nat) (cs : list cand) (s : sb) : Prop := {
  sbp_c : Forall (fun c => (d_obj c < n)%nat /\ 0 < d_up c /\ 0 < d_dn c /\ forall up b, length (d_do c up b) = length b) cs;
  sbp_pc : pc_ok n (v_pc s);
  sbp_dbg : q_dbg q = false }.
Definition both_inf (r : hot) : Prop := g_dst r = 1%Z /\ g_ust r = 1%Z.
Definition some_inf (r : hot) : Prop := g_dst r = 1%Z \/ g_ust r = 1%Z.
Definition C38_full : Prop := forall q n solve late cs s, sb_pre q n cs s ->
  exists rc rs s', doStrongBranching q n solve late cs s = Ok (rc, rs, s') /\
    same_bounds (v_b s') (v_b s) /\ (rc = (-1)%Z <-> exists r, In r rs /\ both_inf r).
(** The last tried candidate with an infeasible child. *)
Inductive last_inf : list hot -> hot -> Prop :=
| li : forall l r l', some_inf r -> Forall (fun x => ~ some_inf x) l' -> last_inf (l ++ r :: l') r.
(** What an infeasible status means, for a child solved to [h]. *)
Definition child_infeasible (trust : bool) (cut : ext) (h : child) : Prop :=
  (h_opt h = false /\ h_inf h = true) \/ (h_opt h = true /\ trust = true /\ ext_ltb (Fin (h_obj h)) cut = false).
(** C81: the look-ahead limit only shortens strong branching. *)
Definition C81_full : Prop := forall q n solve late cs s, sb_pre q n cs s ->
  exists rc rs s', doStrongBranching q n solve late cs s = Ok (rc, rs, s').
(** C80: pseudo-costs change only for children that were solved to optimality or proved infeasible. *)
Definition C80_full : Prop := forall q n cut good up h c pc ret st ch good' pc',
  pc_ok n pc -> update_info q n cut good up h c pc = Ok (ret, st, ch, good', pc') ->
  (h_opt h = true \/ h_inf h = true) \/ pc' = pc.

(** ** C39, C77: strong branching on the linear relaxation *)
(** A solve that depends only on the values of the bounds. *)
Definition by_value (solve : bounds -> lpres) : Prop := forall b b', same_bounds b b' -> solve b = solve b'.
(** The child's bounds lie within the parent's. *)
Definition tighter (chd par : bounds) : Prop := Forall2 (fun c o => fst o <= fst c /\ fst c <= snd c /\ snd c <= snd o) chd par.
Definition C39_full : Prop := forall basis solve chd l, by_value solve -> tighter chd (u_bounds l) ->
  exists st f x l', lp_hot basis 0 solve chd l = Ok (st, f, x, l') /\ u_bounds l' = u_bounds l /\
    f = j_obj (solve chd) /\ (st = provenInfeasible <-> j_inf (solve chd) = true).
(** C77: the answer is that of the solve: status, objective and solution. *)
Definition C77_full : Prop := forall basis rounds (r : lpres) chd l,
  exists st f x l', lp_hot basis rounds (fun _ => r) chd l = Ok (st, f, x, l') /\
    (st = provenInfeasible <-> j_inf r = true) /\ f = j_obj r /\ x = j_sol r.

(** ** C45: pseudo-costs *)
(** What an observation contributes to the pseudo-cost of an object's branch: change of the objective
    per unit; an infeasible branch counts as twice the gap to the cutoff (or twice the objective). *)
Definition contribution (b : obs) : Q :=
  (if Z.eqb (b_status b) 1 then
     match b_cut b with
     | Fin c => if Qltb c (inject_Z (10 ^ 50)) then 2 * (c - b_cur b) else 2 * Qabs (b_cur b)
     | _ => 2 * Qabs (b_cur b)
     end
   else b_dobj b) / b_dval b.
Definition about (up : bool) (i : nat) (b : obs) : bool := (Nat.eqb (b_index b) i && Bool.eqb up (negb (Z.eqb (b_branch b) 0)))%bool.
(** Observations which count: the value moved by at least 1e-6. *)
Definition counted (b : obs) : bool := Qle_bool (1 # 1000000) (Qabs (b_dval b)).
Definition obs_ok (n : nat) (b : obs) : Prop := (b_index b < n)%nat /\ (b_branch b < 2)%Z /\ (0 <= b_status b)%Z.
Definition total (up : bool) (i : nat) (pc : pcosts) : Q := nth i (if up then p_ut pc else p_dt pc) 0.
Definition number (up : bool) (i : nat) (pc : pcosts) : nat := nth i (if up then p_un pc else p_dn pc) O.
Definition C45_full : Prop := forall n bs, Forall (obs_ok n) bs ->
  exists pc, updates true n bs (pc_init n) = Ok pc /\
    forall up i, (i < n)%nat ->
      number up i pc = length (filter (about up i) bs) /\
      total up i pc == qsum (map contribution (filter (about up i) bs)) /\
      0 <= total up i pc.

(** ** C78, C79: the choice *)
(** Score of a tried candidate: infeasible children count as twice the gap. *)
Definition side (cut : ext) (obj : Q) (st : Z) (ch : Q) : Q :=
  if Z.eqb st 1 then match cut with Fin c => if Qltb c (inject_Z (10 ^ 50)) then 2 * (c - obj) else 2 * Qabs obj | _ => 2 * Qabs obj end else ch.
Definition tried_score (W : Q) (cut : ext) (obj : Q) (r : hot) : Q :=
  let u := side cut obj (g_ust r) (g_uch r) in
  let d := side cut obj (g_dst r) (g_dch r) in
  if Qltb u d then W * u + (1 - W) * d else W * d + (1 - W) * u.
(** The list of candidates: the first [k] cells are known objects. *)
Definition cands_ok (n k : nat) (mk : nat -> cand) (L : list cell) : Prop :=
  (k <= length L)%nat /\
  (forall i, (i < k)%nat -> exists o, nth_error L i = Some (Some o) /\ (o < n)%nat) /\
  forall o, (o < n)%nat -> d_obj (mk o) = o /\ 0 < d_up (mk o) /\ 0 < d_dn (mk o) /\ forall up b, length (d_do (mk o) up b) = length b.

(** The cutoff in use: the first one, or the objective of an optimal child whose solution was feasible. *)
Definition cut_from (solve : nat -> bool -> bounds -> child) (cut0 cut : ext) : Prop :=
  cut = cut0 \/ exists j up b, h_opt (solve j up b) = true /\ h_feas (solve j up b) = true /\ cut = Fin (h_obj (solve j up b)).
(** What the statuses of the [i]th tried candidate [c] tell. *)
Definition status_means (q : sbopts) (solve : nat -> bool -> bounds -> child) (b : bounds) (cut0 : ext) (i : nat) (c : cand) (r : hot) : Prop :=
  forall up : bool, (if up then g_ust r else g_dst r) = 1%Z ->
    exists b0 cut, same_bounds b0 b /\ cut_from solve cut0 cut /\ child_infeasible (q_trustBound q) cut (solve i up (d_do c up b0)).
(** Bounds changed only by branching away from children reported infeasible. *)
Inductive justified (mk : nat -> cand) (rs : list hot) : bounds -> bounds -> Prop :=
| j_same : forall b, justified mk rs b b
| j_down : forall b b' r, justified mk rs b b' -> In r rs -> g_ust r = 1%Z -> justified mk rs b (d_do (mk (g_obj r)) false b')
| j_up : forall b b' r, justified mk rs b b' -> In r rs -> g_dst r = 1%Z -> justified mk rs b (d_do (mk (g_obj r)) true b').
(** The estimate from pseudo-costs: an up side without observation is left out, a down side without
    observation makes it NaN. *)
Definition estimate (q : sbopts) (pc : pcosts) (c : cand) (o : nat) : option Q :=
  let a up := if Nat.eqb (number up o pc) 0 then None else Some (total up o pc * (if up then d_up c else d_dn c) / inject_Z (Z.of_nat (number up o pc))) in
  match a true, a false with
  | Some u, Some d => Some (if Qltb u d then q_weight q * u + (1 - q_weight q) * d else q_weight q * d + (1 - q_weight q) * u)
  | None, Some d => Some d
  | _, None => None
  end.
(** The calls of chooseVariable: the first [uns] cells of the list are objects. *)
Record choose_pre (q : sbopts) (n : nat) (mk : nat -> cand) (uns : Z) (L : list cell) (s : sb) : Prop := {
  cp_cands : cands_ok n (Z.to_nat uns) mk L;
  cp_some : L <> [];
  cp_pc : pc_ok n (v_pc s);
  cp_dbg : q_dbg q = false }.
Definition forced_ok (rs : list hot) (f : option (nat * Z)) : Prop :=
  forall o way, f = Some (o, way) -> exists r, In r rs /\ g_obj r = o /\ ((way = 0%Z /\ g_ust r = 1%Z) \/ (way = 1%Z /\ g_dst r = 1%Z)).
(** How many cells are looked at. *)
Definition looked (q : sbopts) (w : copts) (uns : Z) (done : nat) : nat :=
  Z.to_nat (Z.min (Z.of_nat (if q_isroot q then Nat.max (w_strong w) (w_root w) else w_strong w) - Z.of_nat done) uns).

(** ** C135: candidates by pseudo-costs *)
(** Expected change of the objective per unit: the average of the observations of this object; without
    any, the average of all observations of all objects (with one more of 1). *)
Definition observed (up : bool) (pc : pcosts) : list nat := if up then p_un pc else p_dn pc.
Definition totals (up : bool) (pc : pcosts) : list Q := if up then p_ut pc else p_dt pc.
Definition per_unit (up : bool) (pc : pcosts) (i : nat) : Q :=
  if Nat.eqb (number up i pc) 0 then (1 + qsum (totals up pc)) / (1 + qsum (map (fun k => inject_Z (Z.of_nat k)) (observed up pc)))
  else (total up i pc + (1 # 10 ^ 30)) / inject_Z (Z.of_nat (number up i pc)).
Definition side_cost (up : bool) (pc : pcosts) (os : list bobj) (i : nat) : Q :=
  match nth_error os i with Some o => (if up then o_up o else o_dn o) * per_unit up pc i | None => 0 end.
(** Both sides observed: the weighted sum of the smaller and the larger; else one of them. *)
Definition expected (W : Q) (pc : pcosts) (os : list bobj) (i : nat) : Q :=
  let u := side_cost true pc os i in
  let d := side_cost false pc os i in
  let lo := if Qltb u d then u else d in
  let hi := if Qltb u d then d else u in
  if (Nat.eqb (number true i pc) 0 || Nat.eqb (number false i pc) 0)%bool then (if Qle_bool (1 # 2) W then lo else hi) else W * lo + (1 - W) * hi.
(** The pseudo-costs are started afresh when there are new objects. *)
Definition costs (pc : pcosts) (os : list bobj) : pcosts := if Nat.ltb (length (p_un pc)) (length os) then pc_init (length os) else pc.
Record ps_pre (q : sopts) (pc : pcosts) (os : list bobj) : Prop := {
  pp_W : 0 <= s_W q <= 1;
  pp_tot : Forall (fun t => 0 <= t) (p_ut pc) /\ Forall (fun t => 0 <= t) (p_dt pc);
  pp_est : forall i o, nth_error os i = Some o -> 0 <= o_up o /\ 0 <= o_dn o /\ (0 < o_inf o -> 0 < o_up o /\ 0 < o_dn o) }.
Definition C135_full : Prop := forall S q cap pc os, setup_pre S q cap pc os -> ps_pre q pc os -> ~ hopeless os ->
  s_frac q == 0 -> (0 < Nat.max (s_strong q) (s_root q))%nat ->
  exists r, setupList S q true cap pc os = Ok (r, costs pc os) /\
    (s_crit q = DecrPs -> list_holds_by (expected (s_W q) (costs pc os) os) os Qle Qle (Nat.max (s_strong q) (s_root q)) r) /\
    (s_crit q = IncrPs -> list_holds_by (expected (s_W q) (costs pc os) os) os Qge' Qge' (Nat.max (s_strong q) (s_root q)) r).

(** ** C136, C137: the direction, and which objects are tried *)
(** Expected changes of a trusted object, from its own observations. *)
Definition own_cost (up : bool) (pc : pcosts) (c : cand) (o : nat) : option Q :=
  if Nat.eqb (number up o pc) 0 then None else Some (total up o pc * (if up then d_up c else d_dn c) / inject_Z (Z.of_nat (number up o pc))).
(** The less expensive side first: 0 is down, 1 is up. *)
Definition trusted_way (pc : pcosts) (c : cand) (o : nat) : Z :=
  match own_cost true pc c o, own_cost false pc c o with Some u, Some d => if Qltb d u then 0%Z else 1%Z | _, _ => 1%Z end.
Definition tried_way (cut : ext) (obj : Q) (pref : nat -> option Z) (r : hot) : Z :=
  match pref (g_obj r) with
  | Some w => w
  | None => if Qltb (side cut obj (g_dst r) (g_dch r)) (side cut obj (g_ust r) (g_uch r)) then 0%Z else 1%Z
  end.
(** The direction belongs to the chosen object. *)
Definition right_way (q : sbopts) (cut : ext) (pc : pcosts) (mk : nat -> cand) (pref : nat -> option Z) (rs : list hot) (o : nat) (way : Z) : Prop :=
  (exists r, In r rs /\ g_obj r = o /\ way = tried_way cut (q_orig q) pref r) \/ way = trusted_way pc (mk o) o.
(** Among the trusted objects looked at, none has a larger estimate. *)
Definition best_estimate (q : sbopts) (w : copts) (pc : pcosts) (mk : nat -> cand) (uns : Z) (L : list cell) (done o : nat) : Prop :=
  exists v, estimate q pc (mk o) o = Some v /\
    forall j o' v', (j < looked q w uns done)%nat -> nth_error L j = Some (Some o') -> estimate q pc (mk o') o' = Some v' -> v' <= v.
(** C136: the object branched on is the best one also when all are trusted, and the direction is its own. *)
Definition C136_full : Prop := forall q w n mk pref fixv solve late uns L s x o, choose_pre q n mk uns L s -> (forall k, late k = false) ->
  chooseVariable q w n mk pref fixv solve late uns L s = Ok x -> x_best x = Some o -> x_way x <> (-1)%Z ->
  (exists cut, cut_from solve (v_cut s) cut /\ right_way q cut (v_pc s) mk pref (x_rs x) o (x_way x)) /\
  (x_rs x = [] -> best_estimate q w (v_pc s) mk uns L (v_done s) o).
(** C137: the objects to be tried, in the order of the list: all of them if nothing is trusted, the first
    ones up to a minimum, and those with too few observations (at the root: with none at all). *)
Definition untrusted (q : sbopts) (w : copts) (pc : pcosts) (j o : nat) : bool :=
  (Nat.eqb (w_trusted w) 0 || Nat.ltb j (w_min w) || (w_only w && Nat.ltb 0 (w_nnt w)) ||
   (if q_isroot q then Nat.eqb (number true o pc) 0 && Nat.eqb (number false o pc) 0
    else Nat.ltb (Nat.min (number true o pc) (number false o pc)) (w_trusted w)))%bool.
Definition to_try (q : sbopts) (w : copts) (pc : pcosts) (L : list cell) (js : list nat) : list nat :=
  flat_map (fun j => match nth_error L j with Some (Some o) => if untrusted q w pc j o then [o] else [] | _ => [] end) js.
