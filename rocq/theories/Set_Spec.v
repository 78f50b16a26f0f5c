(** What a user may expect from setting up an algorithm. *)
From Coq Require Import String.
From Verif Require Import Base Arr Set_Model.
#[local] Open Scope Q_scope.
#[local] Open Scope string_scope.

(** The value of an option of the main algorithm and whether it was given, under its full name or
    without the prefix. *)
Definition value (n : string) (o : opts) : Z := fst (geti "bonmin." n o).
Definition given (n : string) (o : opts) : bool := snd (geti "bonmin." n o).
Definition nvalue (n : string) (o : opts) : ext := fst (getn "bonmin." n o).
Definition asked (n : string) (o : opts) : bool := negb (Z.eqb (value n o) 0).
Definition options : list string := map fst reg_int.
(** In an options file: the value may not be overwritten. *)
Definition in_file (n : string) (v : Z) (o : opts) : Prop := find n (o_int o) = Some (mkE v false).

(** ** C119: what is in the options file is what is used *)
Definition C119_full : Prop := forall P create dt o s n v,
  In n options ->
  (in_file ("bonmin." ++ n) v o \/ find ("bonmin." ++ n) (o_int o) = None /\ in_file n v o) ->
  initialize P create dt (init o) = Ok s ->
  value n (s_opt s) = v.
(** Options the set-up writes although they are given without prefix. *)
Definition forced (a vs : Z) : list string :=
  ((if Z.eqb vs 0 then ["number_strong_branch"; "number_before_trust"]
    else if Z.eqb vs 2 then ["number_before_trust"] else [])
   ++ match a with
      | 1 => ["oa_decomposition"; "pump_for_minlp"]
      | 2 => ["oa_decomposition"; "pump_for_minlp"; "nlp_solve_frequency"]
      | 3 => ["oa_decomposition"; "pump_for_minlp"]
      | 4 => ["oa_decomposition"; "pump_for_minlp"; "nlp_solve_frequency"; "filmint_ecp_cuts"]
      | 5 => ["oa_decomposition"; "pump_for_minlp"; "nlp_solve_frequency"; "fp_pass_infeasible"]
      | _ => []
      end%Z)%list.

(** ** C120: parameters *)
(** The option documented for each parameter (doc/options_list_bonmin_content.tex). *)
Definition doc_int (p : ipar) : option string :=
  match p with
  | MaxNodes => Some "node_limit" | MaxSolutions => Some "solution_limit" | MaxIterations => Some "iteration_limit"
  | NumberStrong => Some "number_strong_branch" | MinReliability => Some "number_before_trust"
  | MaxFailures => Some "max_consecutive_failures" | MaxInfeasible => Some "max_consecutive_infeasible"
  | FailureBehavior => Some "nlp_failure_behavior" | DisableSos => Some "sos_constraints"
  | NumCutPasses => Some "num_cut_passes" | NumCutPassesAtRoot => Some "num_cut_passes_at_root"
  | BabLogLevel => Some "bb_log_level" | BabLogInterval => Some "bb_log_interval" | RootLogLevel => Some "nlp_log_at_root"
  | SpecialOption => None
  end.
Definition doc_num (p : dpar) : string :=
  match p with
  | MaxTime => "time_limit" | AllowableGap => "allowable_gap" | AllowableFractionGap => "allowable_fraction_gap"
  | Cutoff => "cutoff" | CutoffDecr => "cutoff_decr" | IntTol => "integer_tolerance"
  end.
Definition C120_full : Prop := forall P create dt o s q n,
  doc_int q = Some n -> given n o = true ->
  initialize P create dt (init o) = Ok s -> s_ip s q = value n o.
(** Exactly what they are. *)
Definition par_value (o : opts) (q : ipar) : Z :=
  let a := value "algorithm" o in
  let vs := value "variable_selection" o in
  match q with
  | SpecialOption => if Z.eqb a 0 then 16%Z else 0%Z
  | BabLogLevel => if Z.eqb a 5 then 0%Z else value "bb_log_level" o
  | NumberStrong =>
      if Z.eqb a 0 then
        (* the first step stores 0 under the full name, unless the file forbids it *)
        if Z.eqb vs 0 then match find "bonmin.number_strong_branch" (o_int o) with
                           | Some e => if e_clob e then 0%Z else e_val e
                           | None => 0%Z
                           end
        else if given "number_strong_branch" o then value "number_strong_branch" o else 1000%Z
      else if Z.eqb vs 0 then 0%Z else value "number_strong_branch" o
  | MinReliability =>
      let w := if Z.eqb vs 0 then Some 0%Z else if Z.eqb vs 2 then Some 10%Z else None in
      match w with
      | Some w => if Z.eqb a 0 then match find "bonmin.number_before_trust" (o_int o) with
                                    | Some e => if e_clob e then w else e_val e
                                    | None => w
                                    end
                  else w
      | None => if (Z.eqb a 0 && negb (given "number_before_trust" o))%bool then 1%Z else value "number_before_trust" o
      end
  | q => match doc_int q with Some n => value n o | None => 0%Z end
  end.
Definition num_value (o : opts) (dt : Q) (q : dpar) : ext :=
  match q with
  | MaxTime => let t := nvalue "time_limit" o in
               if Z.eqb (value "algorithm" o) 0 then t else match t with Fin x => Fin (x - dt) | e => e end
  | q => nvalue (doc_num q) o
  end.

(** ** C121: the presets of the algorithms, when the user says nothing *)
Definition preset_table (a : Z) : list (string * Z) :=
  match a with
  | 1 => [("oa_decomposition", 1); ("pump_for_minlp", 0); ("nlp_solve_frequency", 0)]
  | 2 => [("oa_decomposition", 0); ("pump_for_minlp", 0); ("nlp_solve_frequency", 0)]
  | 3 => [("oa_decomposition", 0); ("pump_for_minlp", 1)]
  | 4 => [("oa_decomposition", 0); ("pump_for_minlp", 0); ("nlp_solve_frequency", 0); ("filmint_ecp_cuts", 1)]
  | 5 => [("oa_decomposition", 0); ("pump_for_minlp", 1); ("nlp_solve_frequency", 0)]
  | _ => []
  end%Z.

(** ** C122: the iterated feasibility pump is allowed to claim convergence *)
Definition pump_passes (s : setup) : Prop :=
  exists g t k, In g (s_gens s) /\ g_kind g = GPump /\ g_lim g = Some (t, k, true).
Definition C122_full : Prop := forall P dt o s,
  value "algorithm" o = 5%Z -> given "fp_pass_infeasible" o = false -> look "pump_for_minlp." "fp_pass_infeasible" (o_int o) = None ->
  initialize P true dt (init o) = Ok s -> pump_passes s.

(** ** C123: integer points are checked *)
Definition check_all : gen := mkGen (GCheck false) 1 false true true None.     (* every node, called again *)
Definition check_sol : gen := mkGen (GCheck true) 1 true false false None.     (* at solutions *)
Definition is_check (g : gen) : bool := match g_kind g with GCheck _ => true | _ => false end.

(** ** C124: MILP cut generators *)
Definition is_milp (k : nat) (g : gen) : bool := match g_kind g with GMilp j => Nat.eqb j k | _ => false end.
Definition C124_full : Prop := forall P create dt o s k n,
  nth_error milp_opts k = Some n -> (value n o = 0 \/ value n o = 100)%Z ->
  initialize P create dt (init o) = Ok s -> filter (is_milp k) (s_gens s) = [].

(** ** C125: heuristics *)
(** The option of each heuristic in the simple branch-and-bound. *)
Definition heu_option (h : heu) : option string :=
  match h with
  | HDiveFrac => Some "heuristic_dive_fractional" | HDiveVec => Some "heuristic_dive_vectorLength"
  | HDiveMipFrac => Some "heuristic_dive_MIP_fractional" | HDiveMipVec => Some "heuristic_dive_MIP_vectorLength"
  | HFPump => Some "heuristic_feasibility_pump" | HFixSolve => Some "fix_and_solve_heuristic"
  | HDummyPump => Some "dummy_pump_heuristic" | HRins => Some "heuristic_RINS"
  | HLocalBranching => Some "heuristic_local_branching" | HPumpMinlp => Some "pump_for_minlp"
  | HMilpRounding => Some "MILP_rounding_heuristic" | HNlp => None
  end.
Definition C125_full : Prop := forall P create dt o s h n,
  value "algorithm" o = 0%Z -> heu_option h = Some n -> given n o = true ->
  initialize P create dt (init o) = Ok s -> (In h (s_heus s) <-> asked n o = true).
(** Exactly which run. *)
Definition runs_bbb (genint : bool) (o : opts) (h : heu) : bool :=
  match h with
  | HDiveMipFrac => negb (given "heuristic_dive_MIP_fractional" o) || asked "heuristic_dive_MIP_fractional" o
  | HFPump => negb genint && (negb (given "heuristic_feasibility_pump" o) || asked "heuristic_feasibility_pump" o)
  | HNlp => false
  | h => match heu_option h with Some n => asked n o | None => false end
  end%bool.
Definition order_bbb : list heu :=
  [HDiveFrac; HDiveVec; HDiveMipFrac; HDiveMipVec; HFPump; HFixSolve; HDummyPump; HRins; HLocalBranching; HPumpMinlp; HMilpRounding].
Definition order_hyb : list heu :=
  [HNlp; HRins; HLocalBranching; HFPump; HDiveFrac; HDiveVec; HDiveMipFrac; HDiveMipVec].
Definition runs_hyb (o : opts) (h : heu) : bool := match heu_option h with Some n => asked n o | None => true end.

(** ** C126: priorities, directions and special ordered sets reach the tree search *)
Definition prio_of (u : user) (j : nat) : Z := match u_prio u with Some l => nth j l 0%Z | None => 1000%Z end.
Definition way_of (d : Z) (u : user) (j : nat) : Z := match u_dir u with Some l => nth j l 0%Z | None => d end.
Definition psc_of (u : user) (j : nat) : option (Q * Q) :=
  match u_up u, u_down u with Some a, Some b => Some (nth j a 0, nth j b 0) | _, _ => None end.
Definition sosprio_of (u : user) (k : nat) : Z :=
  match u_sosp u with Some l => if Z.eqb (nth k l 0%Z) 0 then 10%Z else nth k l 0%Z | None => 10%Z end.
Definition sos_wanted (disabled : bool) (u : user) : list cobj :=
  if disabled then [] else map (fun k => CSos k (sosprio_of u k)) (seq 0 (match u_sos u with Some n => n | None => 0 end)).
Definition sos_off (o : opts) : bool := asked "sos_constraints" o.
(** Arrays have the length the problem says: [n] variables. *)
Definition len_ok {A} (n : nat) (l : option (list A)) : Prop := match l with Some l => List.length l = n | None => True end.
Record wf (n : nat) (P : prob) : Prop := {
  wf_cols : Forall (fun j => (j < n)%nat) (p_icols P);
  wf_num : (List.length (p_icols P) <= n)%nat;
  wf_prio : len_ok n (u_prio (p_user P));
  wf_dir : len_ok n (u_dir (p_user P));
  wf_up : len_ok n (u_up (p_user P));
  wf_down : len_ok n (u_down (p_user P));
  wf_psc : isnull (u_up (p_user P)) = isnull (u_down (p_user P));
  wf_sosp : len_ok (match u_sos (p_user P) with Some k => k | None => 0 end) (u_sosp (p_user P)) }.
(** Every integer column has its object with its priority, every special ordered set its own. *)
Definition reaches (P : prob) (disabled : bool) (l : list cobj) : Prop :=
  (forall j, In j (p_icols P) -> exists w c, In (CInt j (prio_of (p_user P) j) w c) l) /\
  (forall x, In x (sos_wanted disabled (p_user P)) -> In x l).
Definition C126_full : Prop := forall n P dt o s l b,
  wf n P -> initialize P true dt (init o) = Ok s -> cbc_objects P s = Ok (l, b) -> reaches P (sos_off o) l.
(** Does the set-up hand its own branching objects to the tree search? *)
Definition osi_rule (o : opts) : bool :=
  let v := value "variable_selection" o in
  if Z.eqb (value "algorithm" o) 0
  then negb (given "variable_selection" o) || (Z.leb 3 v && Z.leb v 8)
  else (Z.eqb v 6 || Z.eqb v 7)%bool.
(** The objects of Cbc's rules; those of Bonmin's and Osi's in the simple branch-and-bound; and those of
    Osi's rules in the other algorithms. *)
Definition cbc_list (P : prob) (off : bool) : list cobj :=
  let u := p_user P in
  (map (fun j => CInt j (prio_of u j) (way_of 0 u j) (psc_of u j)) (p_icols P) ++ sos_wanted off u)%list.
Definition osi_list (P : prob) (off : bool) : list cobj :=
  let u := p_user P in
  (map (fun j => CInt j (prio_of u j) (way_of (-1) u j) None) (p_icols P) ++ sos_wanted off u)%list.
Definition lp_list (P : prob) (off : bool) : list cobj :=
  match p_icols P with
  | [] => sos_wanted off (p_user P)
  | l => map (fun j => CInt j 1000 (-1) None) l
  end.
(** User pseudo-costs are used or refused, never dropped. *)
Definition C127_full : Prop := forall n P dt o s l b,
  wf n P -> u_up (p_user P) <> None -> initialize P true dt (init o) = Ok s -> cbc_objects P s = Ok (l, b) ->
  forall j, In j (p_icols P) -> exists p w, In (CInt j p w (psc_of (p_user P) j)) l.

(** ** C128: a second branch-and-bound can be set up whenever the first one could *)
Definition C128_full : Prop := forall n P dt o s h p cutoff,
  wf n P -> initialize P true dt (init o) = Ok s -> In h (s_heus s) -> heu_prefix h = Some p ->
  exists t l b, local_setup P p cutoff dt s = Ok t /\ cbc_objects P t = Ok (l, b).

(** ** C129: limits of sub-algorithms never exceed the limits of the whole run *)
Definition ele (a b : ext) : Prop :=
  match a, b with MInf, _ | _, PInf => True | Fin x, Fin y => x <= y | _, _ => False end.
Definition C129_full : Prop := forall n P dt o s h p cutoff t,
  wf n P -> 0 <= dt -> initialize P true dt (init o) = Ok s -> In h (s_heus s) -> heu_prefix h = Some p ->
  local_setup P p cutoff dt s = Ok t ->
  ele (s_dp t MaxTime) (s_dp s MaxTime) /\ (s_ip t MaxSolutions <= s_ip s MaxSolutions)%Z.

(** ** C130: options of the sub-algorithms under the documented prefixes (doc/options_set.tex 104-110) *)
Definition doc_prefix (h : heu) : option string :=
  match h with HRins => Some "rins." | HLocalBranching => Some "local_branch." | HPumpMinlp => Some "pump_for_minlp." | _ => None end.
Definition C130_full : Prop := forall n P dt o s h p cutoff t v,
  wf n P -> initialize P true dt (init o) = Ok s -> In h (s_heus s) -> doc_prefix h = Some p ->
  in_file (p ++ "node_limit") v o ->
  forall q, heu_prefix h = Some q -> local_setup P q cutoff dt s = Ok t -> s_ip t MaxNodes = v.

(** ** C131: a set-up can be copied onto another NLP *)
Definition C131_full : Prop := forall n P l dt o s,
  wf n P -> initialize_nlp P l true dt (init o) = Ok s -> exists r, copy_nlp (s_nobj s) s = Ok r.

(** ** C132: initialising again starts afresh *)
Definition C132_full : Prop := forall n P dt o o2 s s2,
  wf n P -> initialize P true dt (init o) = Ok s -> initialize P true dt (wopt o2 s) = Ok s2 ->
  s_algo s2 = Some (value "algorithm" o2) /\
  (value "algorithm" o2 <> 0%Z -> List.length (filter is_check (s_gens s2)) = 2%nat).

(** ** Set-ups of second searches *)
Definition sub_prefixes : list string := ["rins."; "local_solver."; "pump_for_minlp."].
(** Algorithm and branching rule of a second search, as found in the options of the main one. *)
Definition sub_algo (p : string) (s : setup) : Z := fst (geti p "algorithm" (s_opt s)).
Definition sub_rule (p : string) (s : setup) : Z := fst (geti p "variable_selection" (s_opt s)).
Definition sub_osi (p : string) (s : setup) : bool :=
  let v := geti p "variable_selection" (s_opt s) in negb (snd v) || (Z.leb 3 (fst v) && Z.leb (fst v) 8)%bool.

(** ** C143: second searches are limited by default *)
(** The user's value, looked up under the prefix and then without, or else [v]. *)
Definition own (p n : string) (v : Z) (o : opts) : Z := if snd (geti p n o) then fst (geti p n o) else v.
Definition ownn (p n : string) (v : ext) (o : opts) : ext := if snd (getn p n o) then fst (getn p n o) else v.
Definition C143_full : Prop := forall n P dt o s h p cutoff t,
  wf n P -> 0 <= dt -> initialize P true dt (init o) = Ok s -> In h (s_heus s) -> heu_prefix h = Some p ->
  snd (geti p "node_limit" o) = false -> snd (geti p "solution_limit" o) = false -> snd (getn p "time_limit" o) = false ->
  local_setup P p cutoff dt s = Ok t ->
  (s_ip t MaxNodes <= 1000)%Z /\ (s_ip t MaxSolutions <= 5)%Z /\ ele (s_dp t MaxTime) (Fin 60).
