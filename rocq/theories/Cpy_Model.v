(** Copies and assignments of what a search works with: the generators based on OaDecompositionBase, the heuristics with a
    sub-MIP and the branching rule.
    src/Algorithms/OaGenerators: BonOaDecBase.cpp 30-130, 237-303, BonOACutGenerator2.cpp 31-58, 96-102, 153, 208-230,
    BonOACutGenerator2.hpp 25-29, BonFpForMinlp.cpp 30-60, 106-112, 166, 208-216, BonFpForMinlp.hpp 21-26,
    BonOaFeasChecker.cpp 22-33, 75-90, BonOaFeasChecker.hpp 24-31, BonEcpCuts.hpp 23-30;
    src/Algorithms/BonSubMipSolver.cpp 44-136;
    src/CbcBonmin/Heuristics: BonHeuristicDiveMIP.cpp 40-82, BonMilpRounding.cpp 30-72;
    src/Algorithms/Branching/BonChooseVariable.cpp 42-139, 924-929.
    Simplifications: strategies, options and pseudo-costs are values; times are given by the events; pointers to the NLP and
    to the setup, which all copies share, are left out, as are messages. *)
From Verif Require Import Base.
#[local] Open Scope Q_scope.

(** ** Cut generators *)

(** OaDecompositionBase::Parameters, BonOaDecBase.hpp 149-170; [p_strat]: strategy_, none if NULL. *)
Record pars := mkPars { p_global : bool; p_viol : bool; p_incr : Q; p_int : Q; p_gap : Q; p_maxLS : nat; p_maxT : Q;
  p_lev : Z; p_maxSols : nat; p_freq : Q; p_strat : option nat }.
(** Copy of the parameters, BonOaDecBase.cpp 112-128. *)
Definition pars_copy (p : pars) : pars :=
  mkPars (p_global p) (p_viol p) (p_incr p) (p_int p) (p_gap p) (p_maxLS p) (p_maxT p) (p_lev p) (p_maxSols p) (p_freq p)
    (match p_strat p with Some s => Some s | None => None end).
(** SubMipSolver: milp_strat_, gap_tol_, strategy_, log level of the LP solver. *)
Record sub := mkSub { s_strat : bool; s_gap : Q; s_cbc : option nat; s_lev : Z }.
(** BonSubMipSolver.cpp 105-136: bound, status and solution are not copied. *)
Definition sub_copy (s : sub) : sub := mkSub (s_strat s) (s_gap s) (s_cbc s) (s_lev s).
(** The classes, with what their constructors read from the options. *)
Inductive kind :=
| KOa (s : sub)                                  (* OACutGenerator2 *)
| KPump (s : sub) (pass : bool)                  (* MinlpFeasPump *)
| KFeas (pol : Z) (oa : bool) (maxoa : nat)      (* OaFeasibilityChecker *)
| KEcp (rounds : Z) (abs rel beta : Q).          (* EcpCuts *)
(** BonOACutGenerator2.hpp 25-29, BonFpForMinlp.hpp 21-26, BonOaFeasChecker.hpp 24-31, BonEcpCuts.hpp 23-30. *)
Definition kind_copy (k : kind) : kind :=
  match k with
  | KOa s => KOa (sub_copy s)
  | KPump s b => KPump (sub_copy s) b
  | KFeas p t m => KFeas p t m
  | KEcp n a r b => KEcp n a r b
  end.
(** A generator; [g_cuts]: cut_count_ of the feasibility checker. *)
Record gen := mkGen { g_par : pars; g_kind : kind; g_leave : bool; g_reassign : bool;
  g_nLS : nat; g_sols : nat; g_begin : Q; g_cuts : nat }.
(** BonOaDecBase.cpp 30-64. *)
Definition gen_new (now : Q) (p : pars) (k : kind) (lv ra : bool) : gen := mkGen p k lv ra 0 0 now 0.
(** BonOaDecBase.cpp 68-88: nLocalSearch_ starts again at 0 and timeBegin_ is the time of the copy. *)
Definition gen_copy (now : Q) (g : gen) : gen :=
  mkGen (pars_copy (g_par g)) (kind_copy (g_kind g)) (g_leave g) (g_reassign g) 0 (g_sols g) now (g_cuts g).
(** doLocalSearch: BonOACutGenerator2.cpp 53-58, BonFpForMinlp.cpp 54-60; 0 in the two other classes. *)
Definition ask (now : Q) (g : gen) : bool :=
  match g_kind g with
  | KOa _ | KPump _ _ =>
    (g_nLS g <? p_maxLS (g_par g))%nat && (g_sols g <? p_maxSols (g_par g))%nat && Qltb (now - g_begin g) (p_maxT (g_par g))
  | _ => false
  end.

(** What is seen of the generators: question asked at a time, solve of a sub-MIP, cuts of a check (outer approximation or not). *)
Inductive lev := Asked (t : Q) (i : nat) (b : bool) | Solved (i : nat) | Cuts (i : nat) (oa : bool) (n : nat).
Record world := mkWorld { w_now : Q; w_gens : list gen; w_log : list lev }.
Definition world0 : world := mkWorld 0 [] [].

(** The loop of performOa: [rs]: whether each NLP solved gives a solution (153, 166); a further sub-MIP is solved while the
    limits allow (213-226, 211-216).  The search also ends for other reasons: [rs] ends. *)
Fixpoint rounds (i : nat) (rs : list bool) (g : gen) (l : list lev) : gen * list lev :=
  match rs with
  | [] => (g, l)
  | b :: rs =>
    let g := if b then mkGen (g_par g) (g_kind g) (g_leave g) (g_reassign g) (g_nLS g) (S (g_sols g)) (g_begin g) (g_cuts g) else g in
    if (g_nLS g <? p_maxLS (g_par g))%nat && (g_sols g <? p_maxSols (g_par g))%nat
    then rounds i rs (mkGen (g_par g) (g_kind g) (g_leave g) (g_reassign g) (S (g_nLS g)) (g_sols g) (g_begin g) (g_cuts g))
           (l ++ [Solved i])
    else (g, l)
  end.
(** The passes of the feasibility checker: kind of cut chosen by the count (BonOaFeasChecker.cpp 75-81), which then grows (86). *)
Fixpoint checks (i : nat) (cs : list nat) (g : gen) (l : list lev) : gen * list lev :=
  match cs with
  | [] => (g, l)
  | c :: cs =>
    match g_kind g with
    | KFeas _ oa m =>
      checks i cs (mkGen (g_par g) (g_kind g) (g_leave g) (g_reassign g) (g_nLS g) (g_sols g) (g_begin g) (g_cuts g + c))
        (l ++ [Cuts i ((g_cuts g <=? m)%nat && oa) c])
    | _ => (g, l)
    end
  end.
(** performOa. *)
Definition perform (i : nat) (rs : list bool) (cs : list nat) (g : gen) (l : list lev) : gen * list lev :=
  match g_kind g with
  | KOa _ | KPump _ _ =>
    rounds i rs (mkGen (g_par g) (g_kind g) (g_leave g) (g_reassign g) (S (g_nLS g)) (g_sols g) (g_begin g) (g_cuts g)) (l ++ [Solved i])
  | KFeas _ _ _ => checks i cs g l
  | KEcp _ _ _ _ => (g, l)
  end.

(** [Gen i n int rs cs]: generateCuts of the i-th generator with n solutions known, at an integer point or not. *)
Inductive ev := Tick (d : Q) | New (p : pars) (k : kind) (lv ra : bool) | Copy (i : nat)
  | Gen (i n : nat) (int : bool) (rs : list bool) (cs : list nat).
Fixpoint setnth {A} (i : nat) (a : A) (l : list A) : list A :=
  match l, i with [], _ => [] | _ :: l, O => a :: l | b :: l, S i => b :: setnth i a l end.
Definition step (e : ev) (w : world) : outcome world :=
  match e with
  | Tick d => Ok (mkWorld (w_now w + d) (w_gens w) (w_log w))
  | New p k lv ra => Ok (mkWorld (w_now w) (w_gens w ++ [gen_new (w_now w) p k lv ra]) (w_log w))
  | Copy i =>
    match nth_error (w_gens w) i with
    | Some g => Ok (mkWorld (w_now w) (w_gens w ++ [gen_copy (w_now w) g]) (w_log w))
    | None => Dangling
    end
  | Gen i n int rs cs =>
    match nth_error (w_gens w) i with
    | None => Dangling
    | Some g =>
      let g := mkGen (g_par g) (g_kind g) (g_leave g) (g_reassign g) (g_nLS g) n (g_begin g) (g_cuts g) in
      let a := ask (w_now w) g in
      let l := if int then w_log w else w_log w ++ [Asked (w_now w) i a] in
      let '(g, l) := if int || a then perform i rs cs g l else (g, l) in
      Ok (mkWorld (w_now w) (setnth i g (w_gens w)) l)
    end
  end.
Fixpoint run (h : list ev) (w : world) : outcome world :=
  match h with [] => Ok w | e :: h => do w <- step e w; run h w end.

(** ** Heuristics with a sub-MIP (HeuristicDiveMIP, MilpRounding) *)

(** [h_mip]: mip_, none if NULL. *)
Record heur := mkHeur { h_setup : nat; h_often : Z; h_mip : option nat }.
(** Objects (none once deleted) and sub-MIPs by address (none once released). *)
Record hworld := mkHw { hw_obj : list (option heur); hw_mem : list (option sub) }.
Definition hworld0 : hworld := mkHw [] [].
Section Heur.
(** The sub-MIP that the options of a setup describe; none: the constructor throws (BonSubMipSolver.cpp 76-92). *)
Variable of_setup : nat -> option sub.
(** howOften_ as constructed: 100 (BonHeuristicDiveMIP.cpp 44) or 20 (BonMilpRounding.cpp 34). *)
Variable often0 : Z.

Definition mem_get (m : list (option sub)) (p : nat) : outcome sub :=
  match nth_error m p with Some (Some s) => Ok s | _ => Dangling end.
(** delete. *)
Definition mem_del (m : list (option sub)) (q : option nat) : outcome (list (option sub)) :=
  match q with
  | None => Ok m
  | Some p => do _ <- mem_get m p; Ok (setnth p None m)
  end.
Definition obj_get (w : hworld) (i : nat) : outcome heur :=
  match nth_error (hw_obj w) i with Some (Some o) => Ok o | _ => Dangling end.

Inductive hev := HNew (s : nat) | HInit (i s : nat) | HOften (i : nat) (z : Z) | HCopy (i : nat) | HAssign (i j : nat) | HDel (i : nat).
(** An event; after an exception the program goes on with what was done so far. *)
Definition hstep (e : hev) (w : hworld) : outcome hworld :=
  match e with
  | HNew s =>
    match of_setup s with
    | Some b => Ok (mkHw (hw_obj w ++ [Some (mkHeur s often0 (Some (List.length (hw_mem w))))]) (hw_mem w ++ [Some b]))
    | None => Ok w
    end
  | HInit i s =>
    do o <- obj_get w i;
    do m <- mem_del (hw_mem w) (h_mip o);
    match of_setup s with
    | Some b => Ok (mkHw (setnth i (Some (mkHeur (h_setup o) (h_often o) (Some (List.length m)))) (hw_obj w)) (m ++ [Some b]))
    | None => Ok (mkHw (hw_obj w) m)
    end
  | HOften i z =>
    do o <- obj_get w i;
    Ok (mkHw (setnth i (Some (mkHeur (h_setup o) z (h_mip o))) (hw_obj w)) (hw_mem w))
  | HCopy i =>
    do o <- obj_get w i;
    match h_mip o with
    | None => NullDeref
    | Some p =>
      do b <- mem_get (hw_mem w) p;
      Ok (mkHw (hw_obj w ++ [Some (mkHeur (h_setup o) (h_often o) (Some (List.length (hw_mem w))))]) (hw_mem w ++ [Some (sub_copy b)]))
    end
  | HAssign i j =>
    do o <- obj_get w i;
    do r <- obj_get w j;
    if Nat.eqb i j then Ok w
    else
      do m <- mem_del (hw_mem w) (h_mip o);
      match h_mip r with
      | None => Ok (mkHw (setnth i (Some (mkHeur (h_setup r) (h_often r) (h_mip o))) (hw_obj w)) m)
      | Some p =>
        do b <- mem_get m p;
        Ok (mkHw (setnth i (Some (mkHeur (h_setup r) (h_often r) (Some (List.length m)))) (hw_obj w)) (m ++ [Some (sub_copy b)]))
      end
  | HDel i =>
    do o <- obj_get w i;
    do m <- mem_del (hw_mem w) (h_mip o);
    Ok (mkHw (setnth i None (hw_obj w)) m)
  end.
Fixpoint hrun (h : list hev) (w : hworld) : outcome hworld :=
  match h with [] => Ok w | e :: h => do w <- hstep e w; hrun h w end.
End Heur.

(** ** The branching rule (BonChooseVariable) *)

(** The options read by the constructor, 54-82, but for the time limit. *)
Record ropts := mkRo { r_loglev : Z; r_frac : Q; r_mm0 : Q; r_mm1 : Q; r_trust : bool; r_sort : Z; r_list : Z; r_root : Z;
  r_min : Z; r_look : Z; r_only : bool; r_strong : Z }.
(** [r_pc]: pseudo-costs. *)
Record rule := mkRule { r_opt : ropts; r_lim : Q; r_start : Q; r_pc : list Q }.
Record rworld := mkRw { rw_now : Q; rw_rules : list rule }.
Definition rworld0 : rworld := mkRw 0 [].
(** 87-111. *)
Definition ropts_copy (o : ropts) : ropts :=
  mkRo (r_loglev o) (r_frac o) (r_mm0 o) (r_mm1 o) (r_trust o) (r_sort o) (r_list o) (r_root o) (r_min o) (r_look o) (r_only o) (r_strong o).
Definition rule_copy (now : Q) (r : rule) : rule := mkRule (ropts_copy (r_opt r)) (r_lim r) now (r_pc r).
(** 113-139: neither time_limit_ nor start_time_. *)
Definition rule_assign (t r : rule) : rule := mkRule (ropts_copy (r_opt r)) (r_lim t) (r_start t) (r_pc r).
(** [RLearn]: pseudo-costs change. *)
Inductive rev := RTick (d : Q) | RNew (o : ropts) (lim : Q) (pc : list Q) | RCopy (i : nat) | RAssign (i j : nat) | RLearn (i : nat) (pc : list Q).
Definition rstep (e : rev) (w : rworld) : outcome rworld :=
  match e with
  | RTick d => Ok (mkRw (rw_now w + d) (rw_rules w))
  | RNew o lim pc => Ok (mkRw (rw_now w) (rw_rules w ++ [mkRule o lim (rw_now w) pc]))
  | RCopy i =>
    match nth_error (rw_rules w) i with
    | Some r => Ok (mkRw (rw_now w) (rw_rules w ++ [rule_copy (rw_now w) r]))
    | None => Dangling
    end
  | RAssign i j =>
    match nth_error (rw_rules w) i, nth_error (rw_rules w) j with
    | Some t, Some r => if Nat.eqb i j then Ok w else Ok (mkRw (rw_now w) (setnth i (rule_assign t r) (rw_rules w)))
    | _, _ => Dangling
    end
  | RLearn i pc =>
    match nth_error (rw_rules w) i with
    | Some r => Ok (mkRw (rw_now w) (setnth i (mkRule (r_opt r) (r_lim r) (r_start r) pc) (rw_rules w)))
    | None => Dangling
    end
  end.
Fixpoint rrun (h : list rev) (w : rworld) : outcome rworld :=
  match h with [] => Ok w | e :: h => do w <- rstep e w; rrun h w end.
(** Strong branching stops by the limit of the rule, 925. *)
Definition hit (now : Q) (r : rule) : bool := Qltb (r_lim r) (now - r_start r).
