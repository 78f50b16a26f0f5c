(** Setting up an algorithm from the options.
    src/Algorithms/BonBabSetupBase.cpp 26-54, 129-214, 349-401, 776-866;
    src/Algorithms/BonBonminSetup.cpp 64-103, 161-187, 267-395, 397-617, 618-917;
    constructors of src/Algorithms/OaGenerators/BonFpForMinlp.cpp 29-47 and BonOACutGenerator2.cpp 31-46;
    src/CbcBonmin/Heuristics/BonLocalSolverBasedHeuristic.cpp 49-121 and BonPumpForMinlp.cpp 20-23, 53-58;
    objects and parameters passed to Cbc, src/CbcBonmin/BonCbc.cpp 176-304, 306-312, 376-388.
    Simplifications.  Doubles are exact rationals or infinite.  Values of enumerated options are
    their rank; a value is assumed to be of the type and in the range under which the option is
    registered (Ipopt checks it).  Upper and lower case are distinguished in names.  Left out:
    messages, log levels of solvers, auxiliary information, the random seed, the curvature
    branching compiled in on demand only, the contents of cut generators and heuristics. *)
From Coq Require Import String.
From Verif Require Import Base Arr.
#[local] Open Scope Q_scope.
#[local] Open Scope string_scope.

(** * Ipopt's OptionsList (outside the repository) *)
(** A value and whether it may be overwritten.  ReadFromStream stores values that may not. *)
Record entry (A : Type) := mkE { e_val : A; e_clob : bool }.
Arguments mkE {A}. Arguments e_val {A}. Arguments e_clob {A}.
Section Store.
Context {A : Type}.
Fixpoint find (n : string) (m : list (string * entry A)) : option (entry A) :=
  match m with [] => None | (k, e) :: m => if String.eqb k n then Some e else find n m end.
(** SetValue(tag, v, allow_clobber, dont_print): refused, with a message only, when the stored
    value may not be overwritten. *)
Definition put (n : string) (v : A) (clob : bool) (m : list (string * entry A)) : list (string * entry A) :=
  match find n m with
  | Some e => if e_clob e then (n, mkE v clob) :: m else m
  | None => (n, mkE v clob) :: m
  end.
(** GetValue(tag, v, prefix): prefix+tag, then tag, then the registered default (false returned). *)
Definition look (p n : string) (m : list (string * entry A)) : option A :=
  match find (p ++ n) m with
  | Some e => Some (e_val e)
  | None => match find n m with Some e => Some (e_val e) | None => None end
  end.
End Store.
(** Integer and enumerated options; numeric options. *)
Record opts := mkOpts { o_int : list (string * entry Z); o_num : list (string * entry ext) }.
Definition assoc {A} (n : string) (d : A) (l : list (string * A)) : A :=
  match List.find (fun x => String.eqb (fst x) n) l with Some x => snd x | None => d end.
Definition int_max : Z := 2147483647.                                              (* COIN_INT_MAX *)
(** Registered defaults: BonBabSetupBase.cpp 417-628, BonBonminSetup.cpp 136-262, BonCbcNode.cpp 74-92,
    BonEcpCuts.cpp 149, BonOaNlpOptim.cpp 179, BonOACutGenerator2.cpp 291, BonFpForMinlp.cpp 253 and
    the registerOptions of the heuristics (all "no"). *)
Definition reg_int : list (string * Z) :=
  [("algorithm", 0%Z); ("bb_log_level", 1%Z); ("bb_log_interval", 100%Z); ("max_consecutive_failures", 10%Z);
   ("nlp_failure_behavior", 0%Z); ("max_consecutive_infeasible", 0%Z); ("number_strong_branch", 20%Z);
   ("number_before_trust", 8%Z); ("node_limit", int_max); ("solution_limit", int_max); ("iteration_limit", int_max);
   ("sos_constraints", 0%Z); ("num_cut_passes", 1%Z); ("num_cut_passes_at_root", 20%Z); ("nlp_log_at_root", 0%Z);
   ("node_comparison", 0%Z); ("tree_search_strategy", 2%Z); ("variable_selection", 1%Z);
   ("Gomory_cuts", (-5)%Z); ("mir_cuts", (-5)%Z); ("2mir_cuts", 0%Z); ("cover_cuts", 0%Z); ("clique_cuts", (-5)%Z);
   ("flow_cover_cuts", (-5)%Z); ("lift_and_project_cuts", 0%Z); ("reduce_and_split_cuts", 0%Z);
   ("nlp_solve_frequency", 10%Z); ("filmint_ecp_cuts", 0%Z); ("pump_for_minlp", 0%Z); ("oa_decomposition", 0%Z);
   ("fp_pass_infeasible", 0%Z); ("heuristic_dive_fractional", 0%Z); ("heuristic_dive_vectorLength", 0%Z);
   ("heuristic_dive_MIP_fractional", 0%Z); ("heuristic_dive_MIP_vectorLength", 0%Z);
   ("heuristic_feasibility_pump", 0%Z); ("fix_and_solve_heuristic", 0%Z); ("dummy_pump_heuristic", 0%Z);
   ("heuristic_RINS", 0%Z); ("heuristic_local_branching", 0%Z); ("MILP_rounding_heuristic", 0%Z)].
Definition ten (k : nat) : Q := inject_Z (10 ^ Z.of_nat k).
Definition reg_num : list (string * ext) :=
  [("cutoff_decr", Fin (1 # 100000)); ("cutoff", Fin (ten 100)); ("allowable_gap", Fin 0);
   ("allowable_fraction_gap", Fin 0); ("integer_tolerance", Fin (1 # 1000000)); ("time_limit", Fin (ten 10))].
(** GetIntegerValue and GetEnumValue: the value and the boolean returned. *)
Definition geti (p n : string) (o : opts) : Z * bool :=
  match look p n (o_int o) with Some v => (v, true) | None => (assoc n 0%Z reg_int, false) end.
Definition getn (p n : string) (o : opts) : ext * bool :=
  match look p n (o_num o) with Some v => (v, true) | None => (assoc n (Fin 0) reg_num, false) end.
(** SetIntegerValue, SetStringValue, SetNumericValue with allow_clobber: every call below. *)
Definition seti (n : string) (v : Z) (o : opts) : opts := mkOpts (put n v true (o_int o)) (o_num o).
Definition setn (n : string) (v : ext) (o : opts) : opts := mkOpts (o_int o) (put n v true (o_num o)).

(** * Branching objects *)
(** An integer column, with priority and preferred way; a special ordered set, by its rank. *)
Inductive obj := OInt (col : nat) (prio way : Z) | OSos (k : nat) (prio : Z).
Definition is_int (o : obj) : bool := match o with OInt _ _ _ => true | OSos _ _ => false end.
Definition has_col (j : nat) (o : obj) : bool := match o with OInt c _ _ => Nat.eqb c j | OSos _ _ => false end.
(** findIntegersAndSOS(false) (Osi, outside the repository): an object for each integer column, those
    already there are kept, then the other objects already there. *)
Definition find_integers (icols : list nat) (l : list obj) : list obj :=
  (map (fun j => match List.find (has_col j) l with Some o => o | None => OInt j 1000 (-1) end) icols
   ++ filter (fun o => negb (is_int o)) l)%list.
(** What the TMINLP gives: priorities, branching directions, pseudo-costs, and the priorities of its
    special ordered sets ([u_sos]: their number). *)
Record user := mkUser {
  u_prio : option (list Z); u_dir : option (list Z); u_up : option (list Q); u_down : option (list Q);
  u_sos : option nat; u_sosp : option (list Z) }.
(** setPriorities, BonBabSetupBase.cpp 786-811, for one object.  OsiSimpleInteger is an OsiObject2. *)
Definition set_prio1 (u : user) (o : obj) : outcome obj :=
  match o with
  | OSos _ _ => Thrown                                                              (* 789-792 *)
  | OInt j p w =>
      do p <- match u_prio u with Some l => rd j l | None => Ok p end;              (* 793-795 *)
      do w <- match u_dir u with Some l => rd j l | None => Ok w end;               (* 796-802 *)
      match u_up u with Some _ => Thrown | None => Ok (OInt j p w) end              (* 803-808 *)
  end.
Fixpoint mapo {A B} (f : A -> outcome B) (l : list A) : outcome (list B) :=
  match l with [] => Ok [] | a :: l => do b <- f a; do r <- mapo f l; Ok (b :: r) end.
Definition isnull {A} (x : option A) : bool := match x with None => true | Some _ => false end.
(** setPriorities, 776-812. *)
Definition set_priorities (u : user) (l : list obj) : outcome (list obj) :=
  if (isnull (u_prio u) && isnull (u_dir u) && negb (isnull (u_up u)))%bool then Ok l
  else mapo (set_prio1 u) l.
(** The scan for a non-zero among the first [k] entries, 832-838 and 842-848; an array may be NULL. *)
Fixpoint any_nz (i k : nat) (l : list Z) : outcome bool :=
  match k with
  | O => Ok false
  | S k => do v <- rd i l; if Z.eqb v 0 then any_nz (S i) k l else Ok true
  end.
Definition nz (k : nat) (a : option (list Z)) : outcome bool := match a with None => Ok false | Some l => any_nz 0 k l end.
(** The objects of the special ordered sets, 850-861, with priority 10 unless one is given. *)
Fixpoint sos_objs (k n : nat) (has : bool) (sp : option (list Z)) : outcome (list obj) :=
  match n with
  | O => Ok []
  | S n => do p <- match sp with
                   | Some l => if has then do v <- rd k l; Ok (if Z.eqb v 0 then 10%Z else v) else Ok 10%Z
                   | None => Ok 10%Z
                   end;
           do r <- sos_objs (S k) n has sp; Ok (OSos k p :: r)
  end.
(** addSos, 813-866, and the same code of BonCbc.cpp 216-276; [nobj]: number of objects so far. *)
Definition add_sos (disabled : bool) (u : user) (nobj : nat) : outcome (list obj) :=
  match u_sos u with
  | Some (S n) =>
      if disabled then Ok []
      else do a <- nz nobj (u_prio u); do b <- nz (S n) (u_sosp u); sos_objs 0 (S n) (a || b)%bool (u_sosp u)
  | _ => Ok []
  end.

(** * The set-up *)
Inductive ipar := BabLogLevel | BabLogInterval | MaxFailures | FailureBehavior | MaxInfeasible | NumberStrong
  | MinReliability | MaxNodes | MaxSolutions | MaxIterations | SpecialOption | DisableSos | NumCutPasses
  | NumCutPassesAtRoot | RootLogLevel.
Inductive dpar := CutoffDecr | Cutoff | AllowableGap | AllowableFractionGap | IntTol | MaxTime.
Definition ipar_dec (a b : ipar) : {a = b} + {a <> b}. Proof. decide equality. Defined.
Definition dpar_dec (a b : dpar) : {a = b} + {a <> b}. Proof. decide equality. Defined.
(** The option behind each parameter, gatherParametersValues, BonBabSetupBase.cpp 353-373. *)
Definition int_opt (p : ipar) : option string :=
  match p with
  | BabLogLevel => Some "bb_log_level" | BabLogInterval => Some "bb_log_interval"
  | MaxFailures => Some "max_consecutive_failures" | FailureBehavior => Some "nlp_failure_behavior"
  | MaxInfeasible => Some "max_consecutive_infeasible" | NumberStrong => Some "number_strong_branch"
  | MinReliability => Some "number_before_trust" | MaxNodes => Some "node_limit" | MaxSolutions => Some "solution_limit"
  | MaxIterations => Some "iteration_limit" | SpecialOption => None | DisableSos => Some "sos_constraints"
  | NumCutPasses => Some "num_cut_passes" | NumCutPassesAtRoot => Some "num_cut_passes_at_root"
  | RootLogLevel => Some "nlp_log_at_root"
  end.
Definition num_opt (p : dpar) : string :=
  match p with
  | CutoffDecr => "cutoff_decr" | Cutoff => "cutoff" | AllowableGap => "allowable_gap"
  | AllowableFractionGap => "allowable_fraction_gap" | IntTol => "integer_tolerance" | MaxTime => "time_limit"
  end.
(** Cut generators: kind, frequency, atSolution, normal, always, and for the decomposition ones the
    limits on time, solutions and whether the pump may claim convergence. *)
Inductive gkind := GNlp | GEcp | GMilp (k : nat) | GPump | GOa | GCheck (reassign : bool).
Record gen := mkGen { g_kind : gkind; g_freq : Z; g_atsol : bool; g_normal : bool; g_always : bool; g_lim : option (ext * Z * bool) }.
Inductive heu := HDiveFrac | HDiveVec | HDiveMipFrac | HDiveMipVec | HFPump | HFixSolve | HDummyPump | HRins
  | HLocalBranching | HPumpMinlp | HMilpRounding | HNlp.
(** BonChooseVariable (with its strong branching solver: 0 none, 1 QP, 2 LP), OsiChooseVariable,
    OsiChooseStrong, BonRandomChoice. *)
Inductive brm := BChoose (strong : nat) | BOsiSimple | BOsiStrong | BRandom.
Inductive cont := CNull | CNlp | CLp (l : list obj).          (* continuousSolver_: NULL, the NLP solver, an LP with its objects *)
Record setup := mkSetup {
  s_opt : opts; s_pfx : string; s_ip : ipar -> Z; s_dp : dpar -> ext; s_algo : option Z;     (* None: Dummy *)
  s_nobj : list obj; s_cont : cont; s_gens : list gen; s_heus : list heu; s_brm : option brm; s_cmp : Z; s_tree : Z }.
(** Problem data used in the set-up. *)
Record prob := mkProb { p_icols : list nat; p_user : user; p_genint : bool }.
Definition wopt (o : opts) (s : setup) := mkSetup o (s_pfx s) (s_ip s) (s_dp s) (s_algo s) (s_nobj s) (s_cont s) (s_gens s) (s_heus s) (s_brm s) (s_cmp s) (s_tree s).
Definition wip (p : ipar) (v : Z) (s : setup) := mkSetup (s_opt s) (s_pfx s) (fun q => if ipar_dec p q then v else s_ip s q) (s_dp s) (s_algo s) (s_nobj s) (s_cont s) (s_gens s) (s_heus s) (s_brm s) (s_cmp s) (s_tree s).
Definition wdp (p : dpar) (v : ext) (s : setup) := mkSetup (s_opt s) (s_pfx s) (s_ip s) (fun q => if dpar_dec p q then v else s_dp s q) (s_algo s) (s_nobj s) (s_cont s) (s_gens s) (s_heus s) (s_brm s) (s_cmp s) (s_tree s).
Definition walgo (a : option Z) (s : setup) := mkSetup (s_opt s) (s_pfx s) (s_ip s) (s_dp s) a (s_nobj s) (s_cont s) (s_gens s) (s_heus s) (s_brm s) (s_cmp s) (s_tree s).
Definition wnobj (l : list obj) (s : setup) := mkSetup (s_opt s) (s_pfx s) (s_ip s) (s_dp s) (s_algo s) l (s_cont s) (s_gens s) (s_heus s) (s_brm s) (s_cmp s) (s_tree s).
Definition wcont (c : cont) (s : setup) := mkSetup (s_opt s) (s_pfx s) (s_ip s) (s_dp s) (s_algo s) (s_nobj s) c (s_gens s) (s_heus s) (s_brm s) (s_cmp s) (s_tree s).
Definition wgen (g : gen) (s : setup) := mkSetup (s_opt s) (s_pfx s) (s_ip s) (s_dp s) (s_algo s) (s_nobj s) (s_cont s) (s_gens s ++ [g])%list (s_heus s) (s_brm s) (s_cmp s) (s_tree s).
Definition wheu (h : heu) (s : setup) := mkSetup (s_opt s) (s_pfx s) (s_ip s) (s_dp s) (s_algo s) (s_nobj s) (s_cont s) (s_gens s) (s_heus s ++ [h])%list (s_brm s) (s_cmp s) (s_tree s).
Definition wbrm (b : brm) (s : setup) := mkSetup (s_opt s) (s_pfx s) (s_ip s) (s_dp s) (s_algo s) (s_nobj s) (s_cont s) (s_gens s) (s_heus s) (Some b) (s_cmp s) (s_tree s).
Definition gi (n : string) (s : setup) : Z * bool := geti (s_pfx s) n (s_opt s).
Definition yes (n : string) (s : setup) : bool := negb (Z.eqb (fst (gi n s)) 0).

(** The default constructor, BonBabSetupBase.cpp 26-76 and BonBonminSetup.cpp 64-65. *)
Definition default_ip (p : ipar) : Z :=
  match p with
  | BabLogLevel => 1 | BabLogInterval => 100 | MaxFailures => 2 | FailureBehavior => 0 | MaxInfeasible => 0
  | NumberStrong => 5 | MinReliability => 2 | MaxNodes => int_max | MaxSolutions => int_max | MaxIterations => int_max
  | SpecialOption => 0 | DisableSos => 0 | NumCutPasses => 1 | NumCutPassesAtRoot => 20 | RootLogLevel => 0
  end%Z.
Definition default_dp (p : dpar) : ext :=
  match p with
  | CutoffDecr => Fin 0 | Cutoff => PInf | AllowableGap => Fin 0 | AllowableFractionGap => Fin 0
  | IntTol => Fin (1 # 1000000000) | MaxTime => PInf
  end.
Definition init (o : opts) : setup := mkSetup o "bonmin." default_ip default_dp None [] CNull [] [] None 0 0.

(** gatherParametersValues, 349-401.  Writes under "bonmin." whatever the prefix (394-399). *)
Definition gather (s : setup) : setup :=
  let o := s_opt s in let p := s_pfx s in
  let ip := fun q => match int_opt q with Some n => fst (geti p n o) | None => s_ip s q end in
  let dp := fun q => fst (getn p (num_opt q) o) in
  let s := mkSetup o p ip dp (s_algo s) (s_nobj s) (s_cont s) (s_gens s) (s_heus s) (s_brm s)
             (fst (geti p "node_comparison" o)) (fst (geti p "tree_search_strategy" o)) in
  let v := fst (geti p "variable_selection" o) in
  if Z.eqb v 0 then                                                                 (* most-fractional *)
    let s := wip MinReliability 0 (wip NumberStrong 0 s) in
    wopt (seti "bonmin.number_before_trust" 0 (seti "bonmin.number_strong_branch" 0 o)) s
  else if Z.eqb v 2 then                                                            (* reliability-branching *)
    wopt (seti "bonmin.number_before_trust" 10 o) (wip MinReliability 10 s)
  else s.

(** changeIfNotSet, BonLocalSolverBasedHeuristic.cpp 49-78. *)
Definition dfli (p n : string) (v : Z) (o : opts) : opts := if snd (geti p n o) then o else seti (p ++ n) v o.
Definition dfln (p n : string) (v : ext) (o : opts) : opts := if snd (getn p n o) then o else setn (p ++ n) v o.
(** setupDefaults, 80-88: the constructors of the heuristics with a second branch-and-bound. *)
Definition local_defaults (o : opts) : opts :=
  let p := "local_solver." in
  dfli p "solution_limit" 5 (dfli p "node_limit" 1000 (dfln p "time_limit" (Fin 60)
    (dfli p "variable_selection" 0 (dfli p "algorithm" 2 o)))).
(** BonPumpForMinlp.cpp 53-58. *)
Definition pump_defaults (o : opts) : opts :=
  let p := "pump_for_minlp." in dfln p "time_limit" (Fin 30) (dfli p "algorithm" 5 o).
Definition heu_opts (h : heu) (o : opts) : opts :=
  match h with
  | HFixSolve | HDummyPump | HRins | HLocalBranching => local_defaults o
  | HPumpMinlp => pump_defaults (local_defaults o)
  | _ => o
  end.
(** new Heuristic(this); heuristics_.push_back. *)
Definition add_heu (h : heu) (s : setup) : setup := wheu h (wopt (heu_opts h (s_opt s)) s).
Definition heu_if (n : string) (h : heu) (s : setup) : setup := if yes n s then add_heu h s else s.

(** findIntegersAndSOS; setPriorities; addSos: e.g. BonBonminSetup.cpp 432-434.  The integers are
    looked for in the continuous solver, the rest is done in the nonlinear one. *)
Definition prepare_objects (P : prob) (s : setup) : outcome setup :=
  do s <- match s_cont s with
          | CNull => NullDeref
          | CNlp => Ok (wnobj (find_integers (p_icols P) (s_nobj s)) s)
          | CLp l => Ok (wcont (CLp (find_integers (p_icols P) l)) s)
          end;
  do l <- set_priorities (p_user P) (s_nobj s);
  do k <- add_sos (negb (Z.eqb (s_ip s DisableSos) 0)) (p_user P) (List.length l);
  Ok (wnobj (l ++ k)%list s).

(** Options set only when not set, 406-424: the parameter takes the value found otherwise. *)
Definition par_default (q : ipar) (n : string) (v : Z) (s : setup) : setup :=
  if snd (gi n s) then wip q (fst (gi n s)) s
  else wopt (seti (s_pfx s ++ n) v (s_opt s)) (wip q v s).
(** initializeBBB, 397-616: parameters and branching rule, 399-493. *)
Definition bbb_branching (P : prob) (s : setup) : outcome setup :=
  let s := wip SpecialOption 16 (wcont CNlp s) in
  let s := par_default MinReliability "number_before_trust" 1 s in
  let s := par_default NumberStrong "number_strong_branch" 1000 s in
  let v := gi "variable_selection" s in
  let s := if snd v then s else wopt (seti (s_pfx s ++ "variable_selection") 5 (s_opt s)) s in
  let v := if snd v then fst v else 5%Z in
  match v with
  | 3%Z => do s <- prepare_objects P s; Ok (wbrm (BChoose 1) s)
  | 4%Z => do s <- prepare_objects P s; Ok (wbrm (BChoose 2) s)
  | 5%Z => do s <- prepare_objects P s; Ok (wbrm (BChoose 0) s)
  | 6%Z => do s <- prepare_objects P s; Ok (wbrm BOsiSimple s)
  | 7%Z => do s <- prepare_objects P s; Ok (wbrm BOsiStrong s)
  | 8%Z => do s <- prepare_objects P s; Ok (wbrm BRandom s)
  | _ => Ok s
  end.
(** The heuristics, 499-615. *)
Definition bbb_heuristics (P : prob) (s : setup) : setup :=
  let s := heu_if "heuristic_dive_fractional" HDiveFrac s in
  let s := heu_if "heuristic_dive_vectorLength" HDiveVec s in
  let s := if snd (gi "heuristic_dive_MIP_fractional" s) then heu_if "heuristic_dive_MIP_fractional" HDiveMipFrac s     (* 519-531 *)
           else add_heu HDiveMipFrac (wopt (seti (s_pfx s ++ "heuristic_dive_MIP_fractional") 1 (s_opt s)) s) in
  let s := heu_if "heuristic_dive_MIP_vectorLength" HDiveMipVec s in
  let s := if p_genint P then s                                                    (* 542-554: && is lazy *)
           else if snd (gi "heuristic_feasibility_pump" s) then heu_if "heuristic_feasibility_pump" HFPump s
           else add_heu HFPump (wopt (seti (s_pfx s ++ "heuristic_feasibility_pump") 1 (s_opt s)) s) in
  let s := heu_if "fix_and_solve_heuristic" HFixSolve s in
  let s := heu_if "dummy_pump_heuristic" HDummyPump s in
  let s := heu_if "heuristic_RINS" HRins s in
  let s := heu_if "heuristic_local_branching" HLocalBranching s in
  let s := heu_if "pump_for_minlp" HPumpMinlp s in
  heu_if "MILP_rounding_heuristic" HMilpRounding s.
Definition initializeBBB (P : prob) (s : setup) : outcome setup :=
  do s <- bbb_branching P s; Ok (bbb_heuristics P s).

(** The presets of the other algorithms, 643-700.  [p]: prefix_; [q]: "" for "bonmin.", prefix_ otherwise. *)
Definition presets (a : Z) (p q : string) (o : opts) : opts :=
  match a with
  | 3%Z => seti (q ++ "pump_for_minlp.solution_limit") 3 (setn (q ++ "pump_for_minlp.time_limit") (Fin 10)
             (seti (p ++ "pump_for_minlp") 1 (seti (p ++ "oa_decomposition") 0 o)))
  | 1%Z => seti (q ++ "bb_log_level") 0 (seti (q ++ "nlp_solve_frequency") 0 (seti (p ++ "pump_for_minlp") 0
             (setn (q ++ "oa_decomposition.time_limit") PInf (seti (p ++ "oa_decomposition") 1 o))))
  | 5%Z => seti (p ++ "fp_pass_infeasible") 1 (seti (p ++ "nlp_solve_frequency") 0 (setn (q ++ "pump_for_minlp.time_limit") PInf
             (seti (p ++ "pump_for_minlp") 1 (seti (p ++ "oa_decomposition") 0 o))))
  | 2%Z => seti (p ++ "nlp_solve_frequency") 0 (seti (p ++ "pump_for_minlp") 0 (seti (p ++ "oa_decomposition") 0 o))
  | 4%Z => seti (p ++ "filmint_ecp_cuts") 1 (seti (p ++ "nlp_solve_frequency") 0
             (seti (p ++ "pump_for_minlp") 0 (seti (p ++ "oa_decomposition") 0 o)))
  | _ => o
  end.
Definition sub_prefix (p : string) : string := if String.eqb p "bonmin." then "" else p.
(** addMilpCutGenerators, 267-395: options in the order of the code. *)
Definition milp_opts : list string :=
  ["Gomory_cuts"; "mir_cuts"; "2mir_cuts"; "cover_cuts"; "clique_cuts"; "flow_cover_cuts"; "lift_and_project_cuts"; "reduce_and_split_cuts"].
Definition plain_gen (k : gkind) (f : Z) : gen := mkGen k f false true false None.
Definition gen_if (n : string) (k : gkind) (s : setup) : setup :=
  let f := fst (gi n s) in if Z.eqb f 0 then s else wgen (plain_gen k f) s.
Fixpoint add_milp (k : nat) (l : list string) (s : setup) : setup :=
  match l with [] => s | n :: l => add_milp (S k) l (gen_if n (GMilp k) s) end.
Definition emin (a b : ext) : ext :=
  match a, b with
  | MInf, _ | _, MInf => MInf
  | PInf, x | x, PInf => x
  | Fin x, Fin y => if Qltb y x then Fin y else Fin x
  end.
(** Constructors of the decomposition generators: MinlpFeasPump 29-47 (with passBound_), OACutGenerator2 31-46. *)
Definition dec_limits (name : string) (s : setup) : ext * Z * bool :=
  let p := sub_prefix (s_pfx s) ++ name in
  (emin (s_dp s MaxTime) (fst (getn p "time_limit" (s_opt s))),
   Z.min (fst (geti p "solution_limit" (s_opt s))) (s_ip s MaxSolutions),
   negb (Z.eqb (fst (geti p "fp_pass_infeasible" (s_opt s))) 0)).
Definition dec_gen_if (n : string) (k : gkind) (sub : string) (s : setup) : setup :=
  if yes n s then wgen (mkGen k (-99) false true false (Some (dec_limits sub s))) s else s.
(** Cut generators, 738-815. *)
Definition hyb_gens (a : Z) (s : setup) : setup :=
  let s := gen_if "nlp_solve_frequency" GNlp s in
  let s := gen_if "filmint_ecp_cuts" GEcp s in
  let s := if (Z.eqb a 3 || Z.eqb a 4)%bool then add_milp 0 milp_opts s else s in
  let s := dec_gen_if "pump_for_minlp" GPump "pump_for_minlp." s in
  let s := dec_gen_if "oa_decomposition" GOa "oa_decomposition." s in
  let s := wgen (mkGen (GCheck false) 1 false true true None) s in
  wgen (mkGen (GCheck true) 1 true false false None) s.
(** Heuristics, 817-891. *)
Definition hyb_heuristics (s : setup) : setup :=
  let s := add_heu HNlp s in
  let s := heu_if "heuristic_RINS" HRins s in
  let s := heu_if "heuristic_local_branching" HLocalBranching s in
  let s := heu_if "heuristic_feasibility_pump" HFPump s in
  let s := heu_if "heuristic_dive_fractional" HDiveFrac s in
  let s := heu_if "heuristic_dive_vectorLength" HDiveVec s in
  let s := heu_if "heuristic_dive_MIP_fractional" HDiveMipFrac s in
  heu_if "heuristic_dive_MIP_vectorLength" HDiveMipVec s.
(** Branching rule, 709-736. *)
Definition hyb_branching (P : prob) (s : setup) : outcome setup :=
  match fst (gi "variable_selection" s) with
  | 6%Z => do s <- prepare_objects P s; Ok (wbrm BOsiSimple s)
  | 7%Z => do s <- prepare_objects P s; Ok (wbrm BOsiStrong s)
  | _ => Ok s
  end.
Definition eminus (a : ext) (d : Q) : ext := match a with Fin x => Fin (x - d) | e => e end.
(** getAlgorithm, 907-917 (options_ is valid). *)
Definition getAlgorithm (s : setup) : Z := match s_algo s with Some a => a | None => fst (gi "algorithm" s) end.
(** initializeBHyb, 618-904; [create]: createContinuousSolver; [dt]: time of the set-up. *)
Definition initializeBHyb (P : prob) (create : bool) (dt : Q) (s : setup) : outcome setup :=
  let s := if create then wcont (CLp []) s else s in
  let a := getAlgorithm s in
  let s := wopt (presets a (s_pfx s) (sub_prefix (s_pfx s)) (s_opt s)) s in
  let s := if Z.eqb a 5 then wip BabLogLevel 0 s else s in                         (* 680 *)
  do s <- hyb_branching P s;
  let s := hyb_heuristics (hyb_gens a s) in
  Ok (wdp MaxTime (eminus (s_dp s MaxTime) dt) s).

(** initialize(tminlp), 161-172: [nobj] is empty, the interface being new. *)
Definition initialize (P : prob) (create : bool) (dt : Q) (s : setup) : outcome setup :=
  let s := gather (wnobj [] s) in
  let a := getAlgorithm s in
  let s := walgo (Some a) s in
  if Z.eqb a 0 then initializeBBB P s else initializeBHyb P create dt s.
(** initialize(nlpSi), 175-187: the interface is cloned with its objects [l]; algo_ is left alone. *)
Definition initialize_nlp (P : prob) (l : list obj) (create : bool) (dt : Q) (s : setup) : outcome setup :=
  let s := gather (wnobj l s) in
  if Z.eqb (getAlgorithm s) 0 then initializeBBB P s else initializeBHyb P create dt s.
(** Copy with another NLP (objects [l]), BonBabSetupBase.cpp 129-178 and BonBonminSetup.cpp 71-91: the
    heuristics are lost (164); the message handler is ignored here (area Loc). *)
Definition copy_nlp (l : list obj) (s : setup) : outcome setup :=
  let c := match s_cont s with CNlp => CNlp | _ => CNull end in
  let r := mkSetup (s_opt s) (s_pfx s) (s_ip s) (s_dp s) (s_algo s) l c (s_gens s) [] (s_brm s) (s_cmp s) (s_tree s) in
  match s_algo s with
  | Some 0%Z => Ok r
  | _ => match c with CNull => Ok (wcont (CLp []) r) | _ => AssertFail end         (* 77 *)
  end.
(** Copy with another NLP and prefix, 180-214 and 92-103. *)
Definition copy_prefix (P : prob) (l : list obj) (p : string) (dt : Q) (s : setup) : outcome setup :=
  let s := gather (mkSetup (s_opt s) p default_ip default_dp None l CNull [] [] None 0 0) in
  let a := getAlgorithm s in
  let s := walgo (Some a) s in
  if Z.eqb a 0 then initializeBBB P s else initializeBHyb P true dt s.
(** The set-up of a second branch-and-bound, doLocalSearch, BonLocalSolverBasedHeuristic.cpp 95-98; the
    interface is a clone of the main one, objects included. *)
Definition local_setup (P : prob) (p : string) (cutoff : ext) (dt : Q) (s : setup) : outcome setup :=
  do t <- copy_prefix P (s_nobj s) p dt s; Ok (wip NumberStrong 0 (wdp Cutoff cutoff t)).

(** * What branch-and-bound gets, BonCbc.cpp 176-304 *)
(** An integer column with priority, preferred way and pseudo-costs (up, down); a special ordered set. *)
Inductive cobj := CInt (col : nat) (prio way : Z) (psc : option (Q * Q)) | CSos (k : nat) (prio : Z).
Definition to_cobj (o : obj) : cobj := match o with OInt j p w => CInt j p w None | OSos k p => CSos k p end.
(** Lines 184-212 for one column (default priority 1000 and way 0 of CbcObject). *)
Definition cbc_int (u : user) (j : nat) : outcome cobj :=
  do p <- match u_prio u with Some l => rd j l | None => Ok 1000%Z end;
  do w <- match u_dir u with Some l => rd j l | None => Ok 0%Z end;
  do c <- match u_up u with
          | Some l => match u_down u with
                      | Some d => do a <- rd j l; do b <- rd j d; Ok (Some (a, b))
                      | None => NullDeref
                      end
          | None => Ok None
          end;
  Ok (CInt j p w c).
(** The objects and the branching method given to Cbc; extra objects of the set-up left out. *)
Definition cbc_objects (P : prob) (s : setup) : outcome (list cobj * option brm) :=
  do l <- match s_cont s with CNull => NullDeref | CNlp => Ok (s_nobj s) | CLp l => Ok l end;
  match l with
  | [] => do a <- mapo (cbc_int (p_user P)) (p_icols P);
          do k <- add_sos (negb (Z.eqb (s_ip s DisableSos) 0)) (p_user P) (List.length a);
          Ok ((a ++ map to_cobj k)%list, None)
  | _ => match s_brm s with
         | None => AssertFail                                                       (* 292 *)
         | Some b => Ok (map to_cobj l, Some b)
         end
  end.

(** * The prefix of the second branch-and-bound *)
(** BonHeuristicRINS.cpp 103, BonPumpForMinlp.cpp 48; the default argument of doLocalSearch,
    BonLocalSolverBasedHeuristic.hpp 58-61, elsewhere (BonHeuristicLocalBranching.cpp 111,
    BonFixAndSolveHeuristic.cpp 69, BonDummyPump.cpp 58). *)
Definition heu_prefix (h : heu) : option string :=
  match h with
  | HRins => Some "rins."
  | HPumpMinlp => Some "pump_for_minlp."
  | HLocalBranching | HFixSolve | HDummyPump => Some "local_solver."
  | _ => None
  end.
