{
 "claims": [
  {
   "property": "C01",
   "status": "proved",
   "theorems": [
    "C01_diver_conserves_nodes",
    "C01_diver_null_means_exhausted",
    "C01_diver_pop_removes_top"
   ],
   "note": "Heap order is an arbitrary oracle; histories are arbitrary; runs stopping on the assertion of push are excluded as the statement says."
  },
  {
   "property": "C02",
   "status": "proved",
   "theorems": [
    "C02_diver_bound",
    "C02_probed_bound",
    "C02_dfs_bound",
    "C02_diver_bound_any_state",
    "C02_probed_bound_any_state",
    "C02_dfs_bound_any_state"
   ],
   "note": "any_state versions hold for every state; the history versions tie the nodes held to the nodes pushed."
  },
  {
   "property": "C03",
   "status": "partial",
   "theorems": [
    "C03_probed_conserves_nodes_partial",
    "C03_probed_no_crash_partial",
    "C03_refuted",
    "C03_lost_node_refuted",
    "C03_probed_pop_removes_top"
   ],
   "note": "Full statement is false of the code: null pushed on the heap with stop_diving_on_cutoff, parent lost with three-way branching. Proved for all two-way branching histories."
  },
  {
   "property": "C04",
   "status": "partial",
   "theorems": [
    "C04_dfs_conserves_nodes_partial",
    "C04_refuted",
    "C04_late_modes_lose",
    "C04_dfs_pop_removes_top"
   ],
   "note": "Full statement is false of the code: BonDiver.cpp:602 discards the node it removes in the late modes. Proved for the other two modes."
  },
  {
   "property": "C05",
   "status": "partial",
   "theorems": [
    "C05_dfs_no_assert_partial",
    "C05_refuted",
    "C05_dive_limits"
   ],
   "note": "Full statement is false of the code for max_backtracks_in_dive=0, small max_dive_depth, and an exhausted heap."
  },
  {
   "property": "C06",
   "status": "proved",
   "theorems": [
    "C06_row_value"
   ],
   "note": "std::sort and std::multimap orders are oracles constrained only to sort. Any evaluation history before the query."
  },
  {
   "property": "C07",
   "status": "proved",
   "theorems": [
    "C07_row_gradient",
    "C07_duplicate_linear_refuted"
   ],
   "note": "Proved for linear parts with distinct indices; without that the gradient is wrong, shown by the refutation."
  },
  {
   "property": "C08",
   "status": "proved",
   "theorems": [
    "C08_hessian_any_history",
    "C08_values_before_structure_refuted"
   ],
   "note": "The Hessian values are asked after the structure, as the NLP solver interface requires; without the structure call the positions collide after a removal."
  },
  {
   "property": "C09",
   "status": "partial",
   "theorems": [
    "C09_assignment_partial",
    "C09_constructor_partial",
    "C09_refuted",
    "C09_assign_stale_refuted"
   ],
   "note": "Full statement is false: the constructor drops the constant; assigning a purely linear cut over a quadratic row leaves stale positions."
  },
  {
   "property": "C10",
   "status": "partial",
   "theorems": [
    "C10_triangles_partial",
    "C10_triangles_terminate_partial",
    "C10_full_never_terminates",
    "C10_refuted",
    "C10_merge_always_shrinks",
    "C10_merge_partial",
    "C10_merge_sorted_partial",
    "C10_merge_refuted"
   ],
   "note": "Full statement is false for full storage (endless loop) and for merging duplicates (last group lost)."
  },
  {
   "property": "C100",
   "status": "proved",
   "theorems": [
    "C100_rounds",
    "C100_skipping"
   ],
   "note": ""
  },
  {
   "property": "C101",
   "status": "partial",
   "theorems": [
    "C101_exact_partial",
    "C101_refuted"
   ],
   "note": "False of the code: lp_ is set before generateCuts, which asserts it is NULL as soon as an LP is needed; otherwise objValue_ is left over from an earlier call or never set. C101_exact_partial gives the exact behaviour."
  },
  {
   "property": "C102",
   "status": "partial",
   "theorems": [
    "C102_partial",
    "C102_refuted"
   ],
   "note": "False of the code from the second round on: the filter uses the point of the first LP. C102_partial: the cuts added are those violated at that first point."
  },
  {
   "property": "C103",
   "status": "partial",
   "theorems": [
    "C103_restored_partial",
    "C103_refuted"
   ],
   "note": "False of the code when the NLP is abandoned or hits its iteration limit: the exception leaves before the bounds are restored. Proved otherwise, with the bounds used during the solve."
  },
  {
   "property": "C104",
   "status": "proved",
   "theorems": [
    "C104_reported"
   ],
   "note": ""
  },
  {
   "property": "C105",
   "status": "proved",
   "theorems": [
    "C105_rule"
   ],
   "note": "For a generator built from the options; the other constructor leaves solves_per_level_ without a value (example)."
  },
  {
   "property": "C106",
   "status": "partial",
   "theorems": [
    "C106_exact_partial",
    "C106_empty_partial",
    "C106_no_cut_partial",
    "C106_refuted"
   ],
   "note": "False of the code when the collection is not empty on entry: positions are counted from its front, so other cuts are erased. Proved for an empty collection, exact effect in general; a round without cuts takes the address of the first element of an empty vector."
  },
  {
   "property": "C107",
   "status": "partial",
   "theorems": [
    "C107_fix_and_solve",
    "C107_dummy_pump",
    "C107_rins_partial",
    "C107_others_partial",
    "C107_refuted"
   ],
   "note": "False of the code: fix-and-solve and the dummy pump delete the solver their set-up already deleted, always when they search; RINS keeps its clone when too few variables agree. Exact storage effect of all five for a set-up without branching objects (C108_objects has the case with objects)."
  },
  {
   "property": "C108",
   "status": "partial",
   "theorems": [
    "C108_nlp_copy",
    "C108_nlp_copy_bb",
    "C108_copy_partial",
    "C108_objects",
    "C108_refuted"
   ],
   "note": "False of the code: copies have no heuristics, the copy with another NLP dereferences null or asserts, branching objects are shared and deleted twice."
  },
  {
   "property": "C109",
   "status": "proved",
   "theorems": [
    "C109_frequency",
    "C109_window",
    "C109_rule"
   ],
   "note": ""
  },
  {
   "property": "C11",
   "status": "proved",
   "theorems": [
    "C11_equivalent_problem",
    "C11_same_infimum",
    "C11_jacobian",
    "C11_hessian",
    "C11_rows_share_one_order"
   ],
   "note": "User callbacks are arbitrary functions obeying the array-length contract nlp_ok and succeeding."
  },
  {
   "property": "C110",
   "status": "proved",
   "theorems": [
    "C110",
    "C110_agrees",
    "C110_used"
   ],
   "note": ""
  },
  {
   "property": "C111",
   "status": "partial",
   "theorems": [
    "C111_partial",
    "C111_once",
    "C111_refuted"
   ],
   "note": "False of the code: after a success one solution too many is recorded, so the next solution found elsewhere is skipped. Exact rule proved, and never twice at the same count."
  },
  {
   "property": "C112",
   "status": "partial",
   "theorems": [
    "C112_partial",
    "C112_refuted"
   ],
   "note": "False of the code: the test of when() is commented out. C112_partial: exactly what validation finds and setModel records."
  },
  {
   "property": "C113",
   "status": "proved",
   "theorems": [
    "C113",
    "C113_pump_when"
   ],
   "note": "For set-ups without branching objects; the inner branch-and-bound is any function that is right about the problem it is given."
  },
  {
   "property": "C114",
   "status": "partial",
   "theorems": [
    "C114_partial",
    "C114_refuted"
   ],
   "note": "False of the code: the local search is always followed by a second release of its solver. C114_partial: exactly when; a call that returns reports nothing."
  },
  {
   "property": "C115",
   "status": "partial",
   "theorems": [
    "C115_partial",
    "C115_no_row_partial",
    "C115_abort",
    "C115_refuted"
   ],
   "note": "False of the code: a variable of a row sum = 1 that is fixed at 0 can be set to 1, and the assertion on the selected column fails with negative values. Proved when the integer variables of such rows have lower bound 0 and upper bound at least 1, or without such rows."
  },
  {
   "property": "C116",
   "status": "proved",
   "theorems": [
    "C116",
    "C116_stops"
   ],
   "note": "Relative to points on which rounding works (C115_partial gives sufficient conditions)."
  },
  {
   "property": "C117",
   "status": "partial",
   "theorems": [
    "C117_partial",
    "C117_refuted"
   ],
   "note": "False of the code: the perturbation starts again from the previous target and may leave it unchanged. C117_partial: how each kind of target is related to the earlier ones."
  },
  {
   "property": "C118",
   "status": "proved",
   "theorems": [
    "C118",
    "C118_exits"
   ],
   "note": ""
  },
  {
   "property": "C119",
   "status": "partial",
   "theorems": [
    "C119_partial",
    "C119_bare_partial",
    "C119_kept_partial",
    "C119_refuted"
   ],
   "note": "False of the code: nlp_solve_frequency given without prefix is overridden by the preset of B-QG. C119_partial: under the full name always used; C119_bare_partial: without prefix used unless in the listed forced options; C119_kept_partial: nothing in the file is ever overwritten, sub-set-ups included."
  },
  {
   "property": "C12",
   "status": "partial",
   "theorems": [
    "C12_cutoff_strictly_below",
    "C12_rows_partial",
    "C12_linearity_partial",
    "C12_refuted",
    "C12_local_branching_is_distance"
   ],
   "note": "Linearity flags of the two extra rows are exchanged when both are present; everything else proved."
  },
  {
   "property": "C120",
   "status": "partial",
   "theorems": [
    "C120_partial",
    "C120_value_partial",
    "C120_refuted"
   ],
   "note": "False of the code: number_strong_branch is replaced by 0 with most-fractional branching. C120_partial: the exact value of every parameter for every algorithm."
  },
  {
   "property": "C121",
   "status": "proved",
   "theorems": [
    "C121_presets",
    "C121_bare"
   ],
   "note": "C121_bare: presets win over values given without prefix."
  },
  {
   "property": "C122",
   "status": "partial",
   "theorems": [
    "C122_partial",
    "C122_refuted"
   ],
   "note": "False of the code: the permission is stored under bonmin.fp_pass_infeasible and read under pump_for_minlp.fp_pass_infeasible. C122_partial: exact condition."
  },
  {
   "property": "C123",
   "status": "proved",
   "theorems": [
    "C123_checked"
   ],
   "note": ""
  },
  {
   "property": "C124",
   "status": "partial",
   "theorems": [
    "C124_partial",
    "C124_refuted"
   ],
   "note": "False of the code for frequency 100, which installs a generator. C124_partial: exactly which generators are installed, and with which frequency."
  },
  {
   "property": "C125",
   "status": "partial",
   "theorems": [
    "C125_partial",
    "C125_given_partial",
    "C125_refuted"
   ],
   "note": "False of the code: the feasibility pump asked for is silently left out when the problem has general integer variables. C125_partial: the exact list for every algorithm."
  },
  {
   "property": "C126",
   "status": "partial",
   "theorems": [
    "C126_partial",
    "C126_reaches_partial",
    "C126_runs_partial",
    "C126_refuted"
   ],
   "note": "False of the code: with Osi's branching rules in an LP based algorithm priorities become 1000 and special ordered sets are lost. C126_partial: the exact list in every case; C126_reaches_partial: the property in all other cases; C126_runs_partial: exactly when set-up and hand-over succeed."
  },
  {
   "property": "C127",
   "status": "partial",
   "theorems": [
    "C127_partial",
    "C127_refused_partial",
    "C127_refuted"
   ],
   "note": "False of the code: the rules of Bonmin and Osi ignore them silently. C127_partial: used exactly with Cbc's rules; C127_refused_partial: with priorities or directions the simple branch-and-bound throws."
  },
  {
   "property": "C128",
   "status": "partial",
   "theorems": [
    "C128_partial",
    "C128_bbb_partial",
    "C128_refuted"
   ],
   "note": "False of the code: with a special ordered set and the default options RINS throws inside the search. The partial theorems give the two families of options for which it succeeds."
  },
  {
   "property": "C129",
   "status": "partial",
   "theorems": [
    "C129_partial",
    "C129_sub_partial",
    "C129_refuted"
   ],
   "note": "False of the code for heuristics, whose limits are not compared with those of the run. C129_partial: true of decomposition cut generators; C129_sub_partial: the exact limits of second searches."
  },
  {
   "property": "C13",
   "status": "partial",
   "theorems": [
    "C13_objective_and_gradient",
    "C13_hessian_partial",
    "C13_hessian_refuted",
    "C13_hessian_exact_value"
   ],
   "note": "Value and gradient proved for all cases. Hessian wrong when the distance objective is off (objective scaled by (1-lambda)sigma) or combined with a cutoff row."
  },
  {
   "property": "C130",
   "status": "partial",
   "theorems": [
    "C130_partial",
    "C130_prefix_partial",
    "C130_refuted"
   ],
   "note": "False of the code: the documented prefix local_branch. is never read. C130_partial: options under the prefix that is used do reach the second search; C130_prefix_partial: it is the documented one for the others."
  },
  {
   "property": "C131",
   "status": "partial",
   "theorems": [
    "C131_partial",
    "C131_refuted"
   ],
   "note": "False of the code for set-ups made from an interface, whose algorithm stays undefined. C131_partial: true after initialize from a problem; the heuristics are lost in the copy."
  },
  {
   "property": "C132",
   "status": "partial",
   "theorems": [
    "C132_partial",
    "C132_refuted"
   ],
   "note": "False of the code. C132_partial: the algorithm stays that of the first time and the checkers are there twice."
  },
  {
   "property": "C133",
   "status": "proved",
   "theorems": [
    "C133"
   ],
   "note": "With DC_None; the bounding solver is an oracle that either fails or answers the extreme value."
  },
  {
   "property": "C134",
   "status": "proved",
   "theorems": [
    "C134_milp"
   ],
   "note": "For a Jacobian listed by columns; with another order the coefficients are wrong, see C42_refuted."
  },
  {
   "property": "C135",
   "status": "partial",
   "theorems": [
    "C135_partial",
    "C135_refuted"
   ],
   "note": "False of the code for worst-ps-cost: the largest ones are kept and only their order is reversed. C135_partial: exactly what both criteria do."
  },
  {
   "property": "C136",
   "status": "partial",
   "theorems": [
    "C136_partial",
    "C136_refuted"
   ],
   "note": "False of the code: when all candidates are trusted the first of the list is taken with the direction computed for the object of largest estimate. C136_partial: object and direction in all other cases, and exactly what happens in this one."
  },
  {
   "property": "C137",
   "status": "proved",
   "theorems": [
    "C137"
   ],
   "note": ""
  },
  {
   "property": "C138",
   "status": "partial",
   "theorems": [
    "C138_partial",
    "C138_exact_partial",
    "C138_refuted"
   ],
   "note": "False of the code: the sanity check compares the signed entry of largest absolute value with 1e-6, so large negative residuals pass. C138_partial: what holds for every solver. C138_exact_partial: full statement if the linear systems are solved, and the direction is exactly the nearest one to the step that leaves alone the fixed and pushed variables and rows. Both for problems with a constraint."
  },
  {
   "property": "C139",
   "status": "partial",
   "theorems": [
    "C139_partial",
    "C139_refuted"
   ],
   "note": "False of the code for problems without constraints: the largest residual is read at index -1. C139_partial: all other histories."
  },
  {
   "property": "C14",
   "status": "partial",
   "theorems": [
    "C14_jacobian_partial",
    "C14_both_rows_out_of_bounds",
    "C14_refuted"
   ],
   "note": "Holds unless both extra rows are present; then the pointers are advanced twice."
  },
  {
   "property": "C140",
   "status": "partial",
   "theorems": [
    "C140_partial",
    "C140_refuted"
   ],
   "note": "False of the code for user functions that look at the new_lambda flag: eval_h is always called with new_lambda = false. C140_partial: user functions that use their arguments."
  },
  {
   "property": "C141",
   "status": "proved",
   "theorems": [
    "C141"
   ],
   "note": ""
  },
  {
   "property": "C142",
   "status": "partial",
   "theorems": [
    "C142_partial",
    "C142_refuted"
   ],
   "note": "False of the code: the objective value stays that of the last trial. C142_partial: status, solution and multipliers, and the value if nothing was tried."
  },
  {
   "property": "C143",
   "status": "partial",
   "theorems": [
    "C143_partial",
    "C143_pump_partial",
    "C143_refuted"
   ],
   "note": "False of the code for RINS, whose second search reads the prefix rins. while the defaults are written under local_solver. only, and for the nodes and solutions of the pump. C143_partial, C143_pump_partial: the limits of the other heuristics, exactly."
  },
  {
   "property": "C144",
   "status": "partial",
   "theorems": [
    "C144_partial",
    "C144_refuted"
   ],
   "note": "False of the code: a linearizer is not copied. C144_partial: the exact outcome, bounds and point always, the problem posed if use and assignment were not called in feasibility mode, everything if in addition there is no linearizer."
  },
  {
   "property": "C145",
   "status": "partial",
   "theorems": [
    "C145_partial",
    "C145_trial_partial",
    "C145_refuted"
   ],
   "note": "False of the code: the strong-branching solver is shared by copies. C145_partial: everything else, over histories of any length, and the trials unless the shared solver is marked or unmarked."
  },
  {
   "property": "C146",
   "status": "partial",
   "theorems": [
    "C146_partial",
    "C146_refuted"
   ],
   "note": "False of the code: bounds, point, mode and linearizer are not assigned, and assigning from a copy of an interface that has made cuts throws. C146_partial: exact outcome."
  },
  {
   "property": "C147",
   "status": "partial",
   "theorems": [
    "C147_partial",
    "C147_refuted"
   ],
   "note": "False of the code: Jacobian arrays, linearizer and the solved flag stay. C147_partial: what is posed, bounds, point and cuts exactly."
  },
  {
   "property": "C148",
   "status": "partial",
   "theorems": [
    "C148_partial",
    "C148_refuted"
   ],
   "note": "False of the code in feasibility mode after an error when further solvers are set up. C148_partial: exactly when the status is that of the problem posed, and which point is reported."
  },
  {
   "property": "C149",
   "status": "partial",
   "theorems": [
    "C149_partial",
    "C149_refuted"
   ],
   "note": "False of the code: solveFeasibilityProblem changes the parameters of the problem switched to. C149_partial: histories without it."
  },
  {
   "property": "C15",
   "status": "partial",
   "theorems": [
    "C15_exact_partial",
    "C15_both_set_partial",
    "C15_primal_partial",
    "C15_has_start_partial",
    "C15_refuted",
    "C15_zero_start_refuted",
    "C15_added_rows_refuted"
   ],
   "note": "Exact answer proved for every history. The full claim is false: reset keeps the multiplier pointer (assertion failure), multipliers without a primal point or added rows replace the user's start by zeros."
  },
  {
   "property": "C150",
   "status": "partial",
   "theorems": [
    "C150_partial",
    "C150_refuted"
   ],
   "note": "False of the code: out-of-bounds accesses with added rows and after the problem was replaced. C150_partial: exact outcome for all histories in which problems are replaced only before cuts are made."
  },
  {
   "property": "C151",
   "status": "partial",
   "theorems": [
    "C151_partial",
    "C151_refuted"
   ],
   "note": "False of the code: an assert fails when the problem posed has added rows. C151_partial: exact outcome for all reachable states."
  },
  {
   "property": "C152",
   "status": "partial",
   "theorems": [
    "C152_partial",
    "C152_refuted"
   ],
   "note": "False of the code: the quadratic model is made of the original problem in feasibility mode, and the solver is shared by copies. C152_partial: the exact problem of the trials."
  },
  {
   "property": "C153",
   "status": "partial",
   "theorems": [
    "C153_partial",
    "C153_refuted"
   ],
   "note": "False of the code: after a limit the pump keeps the optimality flag of the last MILP that did find a solution and concludes. C153_partial: cuts are valid, and a conclusion is right unless the loop was ended by a limit."
  },
  {
   "property": "C154",
   "status": "partial",
   "theorems": [
    "C154_partial",
    "C154_refuted"
   ],
   "note": "False of the code: a variable at exactly 1 gets coefficient +1. C154_partial: in the unit box the objective ranks by distance exactly if no integer variable is at 1."
  },
  {
   "property": "C155",
   "status": "partial",
   "theorems": [
    "C155_partial",
    "C155_refuted"
   ],
   "note": "False of the code: a solution of value 0 fails assert(cutoff < ub). C155_partial: solutions improve, were proven optimal with integers fixed, and no assertion fails if no optimal value is 0."
  },
  {
   "property": "C156",
   "status": "partial",
   "theorems": [
    "C156_partial",
    "C156_refuted"
   ],
   "note": "False of the code: an exception in fixIntegers leaves variables fixed. C156_partial: the pump ends within its limit of sub-MIPs and restores the bounds on a normal exit; the frame restores them unless an exception is thrown."
  },
  {
   "property": "C157",
   "status": "partial",
   "theorems": [
    "C157_partial",
    "C157_refuted"
   ],
   "note": "False of the code: the feasibility checker hands over solutions without counting them, so the count is lowered by one. C157_partial: holds for all sequences of calls of methods that count."
  },
  {
   "property": "C158",
   "status": "proved",
   "theorems": [
    "C158_saved_cuts"
   ],
   "note": ""
  },
  {
   "property": "C159",
   "status": "partial",
   "theorems": [
    "C159_refuted",
    "C159_exact_partial",
    "C159_partial"
   ],
   "note": "Refuted: a second search on the same set-up reports the first search's solution. Proved: what is reported is exactly the first best point of the solvers sharing the storage; it is of this search if the continuous solver had no storage before."
  },
  {
   "property": "C16",
   "status": "proved",
   "theorems": [
    "C16_rows",
    "C16_all",
    "C16_single"
   ],
   "note": "Validity up to coefficients below veryTiny times the distance moved; curvature is a hypothesis on the problem. No cut strengthener, no external linearizer. A Jacobian with a repeated entry makes the packed-vector insert throw."
  },
  {
   "property": "C160",
   "status": "partial",
   "theorems": [
    "C160_refuted",
    "C160_partial"
   ],
   "note": "Refuted for algorithms whose continuous solver is an LP solver. Proved for all solvers sharing the storage of the reporting one."
  },
  {
   "property": "C161",
   "status": "partial",
   "theorems": [
    "C161_refuted",
    "C161_partial"
   ],
   "note": "Refuted when another problem is put into a solver (fallback of enable_dynamic_nlp). Proved when none is."
  },
  {
   "property": "C162",
   "status": "partial",
   "theorems": [
    "C162_refuted",
    "C162_partial",
    "C162_aborts_partial"
   ],
   "note": "Refuted: copying after storing only empty solutions fails an assertion. Proved: otherwise never aborts and gives back what was stored last."
  },
  {
   "property": "C163",
   "status": "partial",
   "theorems": [
    "C163_refuted",
    "C163_partial"
   ],
   "note": "Refuted: linear objective and infeasible root. Proved: the exact table of outcomes."
  },
  {
   "property": "C164",
   "status": "partial",
   "theorems": [
    "C164_refuted",
    "C164_exact_partial",
    "C164_partial"
   ],
   "note": "Refuted: when members are skipped, the branch of the last member branched on is replaced by that of the skipped ones. Proved: exactly which points are kept; all are down to the depth where only fractional members are branched on."
  },
  {
   "property": "C165",
   "status": "partial",
   "theorems": [
    "C165_refuted",
    "C165_partial"
   ],
   "note": "Refuted: the last two branches overlap when members are skipped. Proved for every other pair."
  },
  {
   "property": "C166",
   "status": "partial",
   "theorems": [
    "C166_refuted",
    "C166_partial"
   ],
   "note": "Refuted: the value returned is a signed sum. Proved: all the rest, and the value is at most the distance."
  },
  {
   "property": "C167",
   "status": "partial",
   "theorems": [
    "C167_refuted",
    "C167_partial"
   ],
   "note": "Refuted: a set not tested at the root has all members fixed once the cutoff improves. Proved for the fixings at the root, and later for the sets tested there by solves that were optimal or infeasible."
  },
  {
   "property": "C168",
   "status": "partial",
   "theorems": [
    "C168_refuted",
    "C168_exact_partial",
    "C168_partial"
   ],
   "note": "Refuted: the weights of the first constraint are used for all. Proved: exactly what is done; right when all constraints have the same weights."
  },
  {
   "property": "C169",
   "status": "partial",
   "theorems": [
    "C169_refuted",
    "C169_assign_refuted",
    "C169_partial"
   ],
   "note": "Refuted: bounds are not copied; assignment may read past the old consequences. Proved when no bound closes a member."
  },
  {
   "property": "C17",
   "status": "partial",
   "theorems": [
    "C17_objective_partial",
    "C17_refuted"
   ],
   "note": "Small gradient coefficients are moved to a bound, so the cut is weaker at x* and only valid in the box; exact otherwise."
  },
  {
   "property": "C170",
   "status": "partial",
   "theorems": [
    "C170_refuted",
    "C170_partial",
    "C170_none_partial"
   ],
   "note": "Refuted when no strong branching is allowed. Proved if at least one set is tested and its priority is not negative."
  },
  {
   "property": "C171",
   "status": "partial",
   "theorems": [
    "C171_refuted",
    "C171_partial"
   ],
   "note": "Refuted: arrays are sized by the number of sets. Proved if the set has no more members than there are sets and none is skipped."
  },
  {
   "property": "C172",
   "status": "partial",
   "theorems": [
    "C172_refuted",
    "C172_exact_partial",
    "C172_partial"
   ],
   "note": "Refuted: the direction used is the opposite of the move, so rows that hold the move back are released and others held. Proved: exactly that; and the full statement when no inequality or bound has a multiplier above the tolerance."
  },
  {
   "property": "C173",
   "status": "proved",
   "theorems": [
    "C173"
   ],
   "note": "All reachable states; both error outcomes included."
  },
  {
   "property": "C174",
   "status": "proved",
   "theorems": [
    "C174"
   ],
   "note": "By an invariant on the solvers held by interfaces."
  },
  {
   "property": "C175",
   "status": "proved",
   "theorems": [
    "C175"
   ],
   "note": "All sizes of the nine groups. The order of the groups in a .nl file is ASL's and assumed."
  },
  {
   "property": "C176",
   "status": "partial",
   "theorems": [
    "C176_refuted",
    "C176_exact_partial",
    "C176_partial"
   ],
   "note": "Refuted: the second range set to 0 starts at nlvb+nlvc and has nlvo entries although the counts include each other, so linear coefficients are lost or the array is overrun. Proved: exactly which entries are set and when the array is overrun; the full statement if the objective is linear in all variables that are in constraints nonlinearly and one of the two groups is empty."
  },
  {
   "property": "C177",
   "status": "proved",
   "theorems": [
    "C177"
   ],
   "note": "For suffix tables of the size ASL gives them."
  },
  {
   "property": "C178",
   "status": "partial",
   "theorems": [
    "C178_refuted",
    "C178_exact_partial",
    "C178_partial"
   ],
   "note": "Refuted: the suffix is declared as a number and read as an integer. Proved: exactly which variable's direction every variable gets; right if all are 0."
  },
  {
   "property": "C179",
   "status": "proved",
   "theorems": [
    "C179"
   ],
   "note": "Non-empty sets."
  },
  {
   "property": "C18",
   "status": "partial",
   "theorems": [
    "C18_same_partial",
    "C18_sub_partial",
    "C18_refuted"
   ],
   "note": "The violation filter is only active at a positive log level."
  },
  {
   "property": "C180",
   "status": "proved",
   "theorems": [
    "C180"
   ],
   "note": "At most one mark; with two marks see the example."
  },
  {
   "property": "C181",
   "status": "partial",
   "theorems": [
    "C181_refuted",
    "C181_exact_partial",
    "C181_partial"
   ],
   "note": "Refuted: an identifier no variable carries stands for variable 0. Proved exactly so, and the full statement if all identifiers used are carried by variables."
  },
  {
   "property": "C182",
   "status": "proved",
   "theorems": [
    "C182"
   ],
   "note": ""
  },
  {
   "property": "C183",
   "status": "partial",
   "theorems": [
    "C183_refuted",
    "C183_exact_partial",
    "C183_partial"
   ],
   "note": "Refuted: with the own file and no solution a null pointer is read. Proved: only then."
  },
  {
   "property": "C184",
   "status": "partial",
   "theorems": [
    "C184_refuted",
    "C184_exact_partial",
    "C184_partial"
   ],
   "note": "Refuted: files of runs that were not optimal are read wrongly. Proved: right for optimal runs, exactly what is read for all others."
  },
  {
   "property": "C185",
   "status": "partial",
   "theorems": [
    "C185_refuted",
    "C185_exact_partial",
    "C185_partial"
   ],
   "note": "Refuted: the keys of the map point into string objects that move when the vector grows. Proved for names longer than those kept inside the object, and that any file with a short first name and a second name is read wrongly."
  },
  {
   "property": "C186",
   "status": "partial",
   "theorems": [
    "C186_refuted",
    "C186_exact_partial"
   ],
   "note": "Refuted: the copy goes the wrong way, which is proved for all readers and vectors."
  },
  {
   "property": "C187",
   "status": "partial",
   "theorems": [
    "C187_refuted",
    "C187_partial",
    "C187_other_partial"
   ],
   "note": "Refuted for stubs of one character, proved for all others and for names without .nl."
  },
  {
   "property": "C188",
   "status": "partial",
   "theorems": [
    "C188_refuted",
    "C188_exact_partial",
    "C188_partial"
   ],
   "note": "Refuted: taking radii back leaves a deleted pointer. Proved as long as no radii are taken back, and that the pointer can neither be read nor set afterwards."
  },
  {
   "property": "C189",
   "status": "proved",
   "theorems": [
    "C189"
   ],
   "note": ""
  },
  {
   "property": "C19",
   "status": "partial",
   "theorems": [
    "C19_interface_partial",
    "C19_shift_partial",
    "C19_nonlinear_rows",
    "C19_refuted"
   ],
   "note": "The quadratic code's removal compensates with the wrong bound; only linear rows are affected."
  },
  {
   "property": "C190",
   "status": "proved",
   "theorems": [
    "C190"
   ],
   "note": ""
  },
  {
   "property": "C191",
   "status": "proved",
   "theorems": [
    "C191_start",
    "C191_round_trip",
    "C191_solution"
   ],
   "note": "for a problem with at least one variable"
  },
  {
   "property": "C192",
   "status": "partial",
   "theorems": [
    "C192_refuted",
    "C192_partial",
    "C192_lost_partial"
   ],
   "note": "False: a point given without multipliers is lost.  Proved: with multipliers both are restored; without, what the next start is instead."
  },
  {
   "property": "C193",
   "status": "partial",
   "theorems": [
    "C193_refuted",
    "C193_partial",
    "C193_last_partial"
   ],
   "note": "False for a point without multipliers; restored with multipliers; otherwise the last random point is next."
  },
  {
   "property": "C194",
   "status": "partial",
   "theorems": [
    "C194_refuted",
    "C194_partial",
    "C194_refused_partial"
   ],
   "note": "False with warm starts not exposed: after a rescued solve all later ones are first refused a start.  Proved for optimum and interior point, if no search for better points is asked to keep a start that was reset before."
  },
  {
   "property": "C195",
   "status": "partial",
   "theorems": [
    "C195_refuted",
    "C195_partial"
   ],
   "note": "False: it aborts exactly if the sizes do not fit (C191, C194 for fitting ones)."
  },
  {
   "property": "C196",
   "status": "partial",
   "theorems": [
    "C196_refuted",
    "C196_partial"
   ],
   "note": "False for an empty and a filled one; exact condition proved."
  },
  {
   "property": "C197",
   "status": "partial",
   "theorems": [
    "C197_refuted",
    "C197_partial",
    "C197_values_partial"
   ],
   "note": "False if a variable that is fixed had an infinite bound.  Proved if those fixed had two finite bounds and no finite bound appears; the values of variables are right in all cases where the copy ends."
  },
  {
   "property": "C198",
   "status": "proved",
   "theorems": [
    "C198_iterate"
   ],
   "note": ""
  },
  {
   "property": "C199",
   "status": "partial",
   "theorems": [
    "C199_refuted",
    "C199_partial"
   ],
   "note": "False for a flushed one; exact for flushed and unflushed ones."
  },
  {
   "property": "C20",
   "status": "partial",
   "theorems": [
    "C20_rows_partial",
    "C20_objective_partial",
    "C20_refuted"
   ],
   "note": "The right-hand side accumulated from the rows is overwritten when the objective is added."
  },
  {
   "property": "C200",
   "status": "partial",
   "theorems": [
    "C200_refuted",
    "C200_partial"
   ],
   "note": "False in full: when a small coefficient of a tangent is removed, the side is moved with the wrong bound of the variable, so that the tangent can be violated by every point. Without small coefficients a row gives exactly one tangent and it is kept by all points that satisfy the row."
  },
  {
   "property": "C201",
   "status": "proved",
   "theorems": [
    "C201_tangents",
    "C201_exact",
    "C201_big"
   ],
   "note": "One tangent for each nonlinear row, kept by all points of the row up to the sum of the entries below the second threshold; exact without small coefficients; no tangents at all if one coefficient is above 1e15."
  },
  {
   "property": "C202",
   "status": "partial",
   "theorems": [
    "C202_refuted",
    "C202_partial",
    "C202_all_partial",
    "C202_thrown_partial"
   ],
   "note": "False in full: the first variable is not recognised as a switch. For any other switch outside a row with one side the linked tangent is kept by all points of the switched row; with two sides an exception is thrown."
  },
  {
   "property": "C203",
   "status": "partial",
   "theorems": [
    "C203_refuted",
    "C203_values_refuted",
    "C203_partial",
    "C203_points_partial"
   ],
   "note": "False in full for both descriptions: integer variables are not moved and a row may become flat. It ends if the row keeps moving; when it ends the number and the places of the points are given."
  },
  {
   "property": "C204",
   "status": "partial",
   "theorems": [
    "C204_refuted",
    "C204_partial",
    "C204_grid_partial"
   ],
   "note": "False in full: variables that occur linearly are put to 0 whatever their bounds are. Within the bounds where clipping does no harm and the sampling takes no more steps than lead to the upper end; the refined points are an even grid."
  },
  {
   "property": "C205",
   "status": "partial",
   "theorems": [
    "C205_refuted",
    "C205_partial"
   ],
   "note": "False in full: sides are moved for small coefficients that stay in the matrix. Proved without small coefficients and without switches."
  },
  {
   "property": "C206",
   "status": "partial",
   "theorems": [
    "C206_refuted",
    "C206_partial"
   ],
   "note": "False in full: copies have no Jacobian storage, row types, relaxation and infinity. A copy works after the tolerances and the problem are set again."
  },
  {
   "property": "C207",
   "status": "partial",
   "theorems": [
    "C207_refuted",
    "C207_partial"
   ],
   "note": "False in full: the distance to a side is taken whatever the direction, so tangents that the point satisfies are added too. Exact condition; violated tangents are always added."
  },
  {
   "property": "C208",
   "status": "partial",
   "theorems": [
    "C208_refuted",
    "C208_partial"
   ],
   "note": "False in full: with two sides and multiplier 0 the tangent has no side. Exact condition without small coefficients."
  },
  {
   "property": "C209",
   "status": "partial",
   "theorems": [
    "C209_refuted",
    "C209_side_refuted",
    "C209_fixed_refuted",
    "C209_partial"
   ],
   "note": "False in full: the range is clipped to [-1000, 100], the right side of the row is taken to be 0, and with one point rows of fixed variables are left out. Proved within the range for right sides of at least 0."
  },
  {
   "property": "C21",
   "status": "partial",
   "theorems": [
    "C21_rows_partial",
    "C21_refuted"
   ],
   "note": "Bounds are not compacted after rows were deleted."
  },
  {
   "property": "C210",
   "status": "partial",
   "theorems": [
    "C210_refuted",
    "C210_partial"
   ],
   "note": "False in full for the same reason; the check of the solution is compiled out. Proved for nonlinear variables with different bounds within [-1000, 100]."
  },
  {
   "property": "C211",
   "status": "partial",
   "theorems": [
    "C211_refuted",
    "C211_partial",
    "C211_exit_partial"
   ],
   "note": "False in full: a fixed nonlinear variable ends the process. Both directions of the exact condition, and the number of cuts."
  },
  {
   "property": "C212",
   "status": "partial",
   "theorems": [
    "C212_refuted",
    "C212_partial"
   ],
   "note": "False in full for variable 0 as a switch; proved for the others."
  },
  {
   "property": "C213",
   "status": "proved",
   "theorems": [
    "C213_only_better",
    "C213_root",
    "C213_returned"
   ],
   "note": "For every MIP solver."
  },
  {
   "property": "C214",
   "status": "partial",
   "theorems": [
    "C214_refuted",
    "C214_partial",
    "C214_value_partial"
   ],
   "note": "False in full: without a branching method a null pointer is used. With one: bound and exact value."
  },
  {
   "property": "C215",
   "status": "partial",
   "theorems": [
    "C215_refuted",
    "C215_par",
    "C215_partial",
    "C215_registered_partial"
   ],
   "note": "False in full: Cbc_Par always throws because probing_cuts is read but not registered. The other values work; all would with the option registered."
  },
  {
   "property": "C216",
   "status": "partial",
   "theorems": [
    "C216_refuted",
    "C216_partial"
   ],
   "note": "False in full: an option that is not set counts as -99, not as its default. Exact rule."
  },
  {
   "property": "C217",
   "status": "proved",
   "theorems": [
    "C217_generators",
    "C217_idempotent"
   ],
   "note": "Exact set of generators added."
  },
  {
   "property": "C218",
   "status": "partial",
   "theorems": [
    "C218_refuted",
    "C218_lists",
    "C218_partial",
    "C218_feasible_partial",
    "C218_disregarded_partial"
   ],
   "note": "False in full: a feasible candidate that is first in its level joins two levels of infeasible ones, and the feasible list ignores priorities. The contents of the lists in full; the order when no level is entered by a feasible candidate."
  },
  {
   "property": "C219",
   "status": "proved",
   "theorems": [
    "C219_branches",
    "C219_filled"
   ],
   "note": "Objects are simple integers."
  },
  {
   "property": "C22",
   "status": "partial",
   "theorems": [
    "C22_refuted",
    "C22_cutoff_partial",
    "C22_run_partial"
   ],
   "note": "False when the upper bound is zero: the cutoff equals it and the assertion fails. Exact characterisation of when the cutoff is below the upper bound; no assertion fails in a run when the decrement is positive, each point yields a cut and no value is zero."
  },
  {
   "property": "C220",
   "status": "proved",
   "theorems": [
    "C220_solved"
   ],
   "note": ""
  },
  {
   "property": "C221",
   "status": "partial",
   "theorems": [
    "C221_refuted",
    "C221_partial",
    "C221_table_partial",
    "C221_shares_partial"
   ],
   "note": "False in full: with assertions on, the evaluation fails whenever others help and there are as many branches as processes. Exact case distinction; otherwise the table is that of one process for every order of replies."
  },
  {
   "property": "C222",
   "status": "partial",
   "theorems": [
    "C222_refuted",
    "C222_partial"
   ],
   "note": "False in full: processes without a share reply too, and these replies may be left. Nothing is left with a branch for each process."
  },
  {
   "property": "C223",
   "status": "partial",
   "theorems": [
    "C223_refuted",
    "C223_partial"
   ],
   "note": "False in full without assertions: with an odd number of branches the missing side of a candidate is taken from an earlier node. Holds with assertions, or when no candidate is evaluated on one side only."
  },
  {
   "property": "C224",
   "status": "partial",
   "theorems": [
    "C224_refuted",
    "C224_partial"
   ],
   "note": "False in full: an odd number of branches ends in a failed assertion."
  },
  {
   "property": "C225",
   "status": "partial",
   "theorems": [
    "C225_refuted",
    "C225_missing_partial",
    "C225_no_branching_partial",
    "C225_partial"
   ],
   "note": "False in full: three parameters have neither keyword nor default, and no node with a fractional variable can be branched on with the parameters of any file. The other four hold."
  },
  {
   "property": "C226",
   "status": "proved",
   "theorems": [
    "C226_decision"
   ],
   "note": "Assumes that a candidate list is there; the outcome Ok is the subject of C224."
  },
  {
   "property": "C227",
   "status": "partial",
   "theorems": [
    "C227_refuted",
    "C227_partial"
   ],
   "note": "False in full: with abandoned evaluations a candidate that was not evaluated is chosen, with the values of an earlier node. Holds when no evaluation is abandoned."
  },
  {
   "property": "C228",
   "status": "proved",
   "theorems": [
    "C228_failures"
   ],
   "note": "For a positive number allowed."
  },
  {
   "property": "C229",
   "status": "partial",
   "theorems": [
    "C229_refuted",
    "C229_partial"
   ],
   "note": "False in full: a side at which the solver stopped without any status counts as infeasible. Holds when each evaluated side is solved, refuted or abandoned."
  },
  {
   "property": "C23",
   "status": "partial",
   "theorems": [
    "C23_objective",
    "C23_derivatives",
    "C23_constraints",
    "C23_solution_partial",
    "C23_refuted",
    "C23_needs_solution"
   ],
   "note": "Objective, derivatives, constraints and the reported point are right. The reported objective lacks f(x0) when the QP ends locally infeasible."
  },
  {
   "property": "C230",
   "status": "proved",
   "theorems": [
    "C230_node_data",
    "C230_no_chooser"
   ],
   "note": "Pseudo-costs on both sides of the same size; with another chooser than Bonmin's a null pointer is used."
  },
  {
   "property": "C231",
   "status": "partial",
   "theorems": [
    "C231_refuted",
    "C231_partial"
   ],
   "note": "False in full: negative values are dropped. Holds for values above minus the tolerance."
  },
  {
   "property": "C232",
   "status": "partial",
   "theorems": [
    "C232_refuted",
    "C232_partial"
   ],
   "note": "False in full: not transitive within the gap. Irreflexive, asymmetric, better by more than the gap goes first, transitive on one depth."
  },
  {
   "property": "C233",
   "status": "partial",
   "theorems": [
    "C233_refuted",
    "C233_partial"
   ],
   "note": "False in full: in the hybrid mode the result is not initialised."
  },
  {
   "property": "C234",
   "status": "proved",
   "theorems": [
    "C234_smaller"
   ],
   "note": ""
  },
  {
   "property": "C235",
   "status": "partial",
   "theorems": [
    "C235_refuted",
    "C235_partial"
   ],
   "note": "False in full: a copy shares the LP given to the original. True if no LP is deleted that solver() of some object returns."
  },
  {
   "property": "C236",
   "status": "proved",
   "theorems": [
    "C236_owned",
    "C236_no_leak",
    "C236_clients"
   ],
   "note": ""
  },
  {
   "property": "C237",
   "status": "partial",
   "theorems": [
    "C237_refuted",
    "C237_partial"
   ],
   "note": "False in full: the array is not made larger when columns are added. True if no LP gets columns while a solution is kept."
  },
  {
   "property": "C238",
   "status": "partial",
   "theorems": [
    "C238_refuted",
    "C238_partial",
    "C238_stale"
   ],
   "note": "False in full: after an unbounded end of CPLEX the array is not written. True with Cbc and for all other ends."
  },
  {
   "property": "C239",
   "status": "partial",
   "theorems": [
    "C239_refuted",
    "C239_partial"
   ],
   "note": "False in full: 'infeasible or unbounded' counts as optimal. True for problems that are not unbounded."
  },
  {
   "property": "C24",
   "status": "partial",
   "theorems": [
    "C24_refuted",
    "C24_start_in_bounds_partial",
    "C24_throws_iff"
   ],
   "note": "False for negative radii of the suffix; holds for all other inputs."
  },
  {
   "property": "C240",
   "status": "proved",
   "theorems": [
    "C240_bound"
   ],
   "note": "For correct MILP solvers."
  },
  {
   "property": "C241",
   "status": "proved",
   "theorems": [
    "C241_ends",
    "C241_exit"
   ],
   "note": "The clock is assumed to move by at least some fixed amount with every run."
  },
  {
   "property": "C242",
   "status": "partial",
   "theorems": [
    "C242_refuted",
    "C242_partial"
   ],
   "note": "False in full: doubled by find_good_sol with CPLEX. The theorem says exactly what is reported."
  },
  {
   "property": "C243",
   "status": "partial",
   "theorems": [
    "C243_refuted",
    "C243_partial",
    "C243_lost"
   ],
   "note": "False in full: the lower side of a two-sided cut is lost. True for cuts with one side."
  },
  {
   "property": "C244",
   "status": "partial",
   "theorems": [
    "C244_refuted",
    "C244_partial"
   ],
   "note": "False in full: limits set by find_good_sol stay for optimize with CPLEX. True for find_good_sol, for Cbc, and if only solve() is used."
  },
  {
   "property": "C245",
   "status": "proved",
   "theorems": [
    "C245_set",
    "C245_frame"
   ],
   "note": ""
  },
  {
   "property": "C246",
   "status": "proved",
   "theorems": [
    "C246"
   ],
   "note": ""
  },
  {
   "property": "C247",
   "status": "proved",
   "theorems": [
    "C247"
   ],
   "note": "Sizes that do not fit an int are an exception in the model."
  },
  {
   "property": "C248",
   "status": "partial",
   "theorems": [
    "C248_refuted",
    "C248_refuted_freq",
    "C248_partial",
    "C248_order"
   ],
   "note": "False in full: not after lost factors or lack of space, not with a restart frequency, not if the QP of the mark took no pivot. True otherwise, with independence of the order."
  },
  {
   "property": "C249",
   "status": "proved",
   "theorems": [
    "C249"
   ],
   "note": ""
  },
  {
   "property": "C25",
   "status": "partial",
   "theorems": [
    "C25_refuted",
    "C25_relax_refuted",
    "C25_fix_partial",
    "C25_relax_partial",
    "C25_objects_partial",
    "C25_objects_sos",
    "C25_differ",
    "C25_differ_objects",
    "C25_integer_feasible"
   ],
   "note": "False: relaxing widens by the tolerance instead of restoring, re-fixing widens again, and an exception leaves the earlier columns fixed. Each operation is characterised exactly."
  },
  {
   "property": "C250",
   "status": "partial",
   "theorems": [
    "C250_refuted",
    "C250_partial"
   ],
   "note": "False in full: other QP solvers write to the same common blocks. True if none is at work between a mark and its unmark."
  },
  {
   "property": "C251",
   "status": "partial",
   "theorems": [
    "C251_refuted",
    "C251_partial"
   ],
   "note": "False in full: the workspace does not grow if gradient and Jacobian are zero. True otherwise."
  },
  {
   "property": "C252",
   "status": "partial",
   "theorems": [
    "C252_refuted",
    "C252_partial"
   ],
   "note": "False in full: point, multipliers and objective value are those of the last trial. True of bounds and status."
  },
  {
   "property": "C253",
   "status": "partial",
   "theorems": [
    "C253_refuted",
    "C253_partial"
   ],
   "note": "False in full: the flag of the warm start stays on after a restart. True if no solve lost its factors."
  },
  {
   "property": "C254",
   "status": "proved",
   "theorems": [
    "C254"
   ],
   "note": ""
  },
  {
   "property": "C255",
   "status": "proved",
   "theorems": [
    "C255"
   ],
   "note": ""
  },
  {
   "property": "C256",
   "status": "proved",
   "theorems": [
    "C256",
    "C256_scratch"
   ],
   "note": ""
  },
  {
   "property": "C257",
   "status": "partial",
   "theorems": [
    "C257_refuted",
    "C257_partial"
   ],
   "note": "False in full: the options are static members. True if no solver with other options is made between a mark and its unmark."
  },
  {
   "property": "C258",
   "status": "partial",
   "theorems": [
    "C258_refuted",
    "C258_partial",
    "C258_static"
   ],
   "note": "False under dfs-dive-dynamic: pruning in the breadth-first phase with two or more open nodes throws. The partial theorem says that this is the only case; true under dfs-dive."
  },
  {
   "property": "C259",
   "status": "proved",
   "theorems": [
    "C259"
   ],
   "note": ""
  },
  {
   "property": "C26",
   "status": "partial",
   "theorems": [
    "C26_refuted",
    "C26_restore_partial"
   ],
   "note": "False for an infinite cutoff, which is not restored; rows, bounds, warm start and finite cutoffs are restored after any sequence of changes."
  },
  {
   "property": "C260",
   "status": "partial",
   "theorems": [
    "C260_refuted",
    "C260_partial"
   ],
   "note": "False: the best node is taken off the heap and lost, the second best is handed out (exact characterisation)."
  },
  {
   "property": "C261",
   "status": "proved",
   "theorems": [
    "C261"
   ],
   "note": ""
  },
  {
   "property": "C262",
   "status": "proved",
   "theorems": [
    "C262",
    "C262_static"
   ],
   "note": ""
  },
  {
   "property": "C263",
   "status": "partial",
   "theorems": [
    "C263_refuted",
    "C263_partial"
   ],
   "note": "False under dfs-dive-dynamic, where the copied comparison reads the mode of the original tree. True under dfs-dive, and after the breadth-first phase while no phase changes."
  },
  {
   "property": "C264",
   "status": "partial",
   "theorems": [
    "C264_refuted",
    "C264_partial"
   ],
   "note": "False: max_dive_depth is not assigned. The partial theorem says when the result equals the source."
  },
  {
   "property": "C265",
   "status": "partial",
   "theorems": [
    "C265_refuted",
    "C265_partial",
    "C265_crash_partial"
   ],
   "note": "False: up pseudo-costs without down ones dereference NULL. Proved whenever down pseudo-costs come with the up ones."
  },
  {
   "property": "C266",
   "status": "proved",
   "theorems": [
    "C266"
   ],
   "note": ""
  },
  {
   "property": "C267",
   "status": "partial",
   "theorems": [
    "C267_refuted",
    "C267_partial",
    "C267_crash_partial"
   ],
   "note": "False: generators, heuristics, special ordered sets and extra objects of all runs accumulate (exact characterisation), and priorities after a run with other objects are read at index -1."
  },
  {
   "property": "C268",
   "status": "partial",
   "theorems": [
    "C268_refuted",
    "C268_partial"
   ],
   "note": "False for the special option, the failure strategy and the tree, which are those of the last run that set them (exact); true for the comparison and the limits."
  },
  {
   "property": "C269",
   "status": "proved",
   "theorems": [
    "C269"
   ],
   "note": ""
  },
  {
   "property": "C27",
   "status": "partial",
   "theorems": [
    "C27_refuted",
    "C27_interrupt_refuted",
    "C27_first_run_partial",
    "C27_last_found_partial",
    "C27_second_partial"
   ],
   "note": "False for a second run on the same object (stale solution) and for an interrupt without integer objects. Sound for a run on an object without a stored solution."
  },
  {
   "property": "C270",
   "status": "partial",
   "theorems": [
    "C270_refuted",
    "C270_partial"
   ],
   "note": "False: generators of earlier runs keep the deleted solver; exact characterisation."
  },
  {
   "property": "C271",
   "status": "partial",
   "theorems": [
    "C271_refuted",
    "C271_partial",
    "C271_safe_partial"
   ],
   "note": "False after the exception for an unsupported object; exact characterisation, and true without extra objects."
  },
  {
   "property": "C272",
   "status": "partial",
   "theorems": [
    "C272_refuted",
    "C272_partial"
   ],
   "note": "False: linear objective and unsolved root dereference NULL, no linear cuts index an empty vector; these are the only cases."
  },
  {
   "property": "C273",
   "status": "proved",
   "theorems": [
    "C273"
   ],
   "note": ""
  },
  {
   "property": "C274",
   "status": "partial",
   "theorems": [
    "C274_refuted",
    "C274_partial"
   ],
   "note": "False: the static pointer is never reset; exact condition."
  },
  {
   "property": "C275",
   "status": "partial",
   "theorems": [
    "C275_refuted",
    "C275_partial"
   ],
   "note": "False: the static flag is never reset; a run searches exactly if no interruption happened in the process before."
  },
  {
   "property": "C276",
   "status": "proved",
   "theorems": [
    "C276"
   ],
   "note": ""
  },
  {
   "property": "C277",
   "status": "proved",
   "theorems": [
    "C277"
   ],
   "note": ""
  },
  {
   "property": "C278",
   "status": "partial",
   "theorems": [
    "C278_refuted",
    "C278_partial"
   ],
   "note": "True for Ipopt. For filterSQP the count is unset memory from the set-up of a warm start (a new cache) to the next solve; exact otherwise."
  },
  {
   "property": "C279",
   "status": "partial",
   "theorems": [
    "C279_refuted",
    "C279_partial"
   ],
   "note": "False: once the flag is set every solve is reported infeasible; without it the report is right."
  },
  {
   "property": "C28",
   "status": "partial",
   "theorems": [
    "C28_refuted",
    "C28_failures_refuted",
    "C28_counters",
    "C28_rule_partial",
    "C28_failure_rule_idle"
   ],
   "note": "Counters are exact on every path. The rule is not applied to children of the root and tolerates one failure more than documented."
  },
  {
   "property": "C280",
   "status": "partial",
   "theorems": [
    "C280_refuted",
    "C280_partial"
   ],
   "note": "False: with warm starts enabled a problem other than that of the last run makes Ipopt throw; exact condition given for solves and re-solves."
  },
  {
   "property": "C281",
   "status": "partial",
   "theorems": [
    "C281_refuted",
    "C281_partial",
    "C281_unknown"
   ],
   "note": "Wrong name for Feasible_Point_Found, exception for Maximum_CpuTime_Exceeded and for unknown negative codes; right for all others, in particular those that are thrown."
  },
  {
   "property": "C282",
   "status": "proved",
   "theorems": [
    "C282"
   ],
   "note": ""
  },
  {
   "property": "C283",
   "status": "partial",
   "theorems": [
    "C283_refuted",
    "C283_partial"
   ],
   "note": "True for Ipopt unless the user protected print_level. For filterSQP a solve ignores the forced level; a copy restores an unset level."
  },
  {
   "property": "C284",
   "status": "proved",
   "theorems": [
    "C284"
   ],
   "note": ""
  },
  {
   "property": "C285",
   "status": "partial",
   "theorems": [
    "C285_refuted",
    "C285_partial",
    "C285_maker"
   ],
   "note": "A solve does; a re-solve runs with the tolerances of whichever object made a cache last."
  },
  {
   "property": "C286",
   "status": "partial",
   "theorems": [
    "C286_refuted",
    "C286_partial"
   ],
   "note": "False: the radius is 10 in every run."
  },
  {
   "property": "C287",
   "status": "partial",
   "theorems": [
    "C287_refuted",
    "C287_partial"
   ],
   "note": "False: a file that cannot be opened is skipped without a word; existing files are read exactly, errors in them are reported."
  },
  {
   "property": "C288",
   "status": "partial",
   "theorems": [
    "C288_refuted",
    "C288_partial",
    "C288_missing_partial"
   ],
   "note": "True when all files named exist; after a file that is missing was named the default file is never read."
  },
  {
   "property": "C289",
   "status": "partial",
   "theorems": [
    "C289_refuted",
    "C289_partial",
    "C289_replace_partial"
   ],
   "note": "Holds for a problem given directly; a problem given as an interface brings its own options and all earlier ones are dropped."
  },
  {
   "property": "C29",
   "status": "partial",
   "theorems": [
    "C29_refuted",
    "C29_stalled_refuted",
    "C29_return_partial",
    "C29_stop_option_partial",
    "C29_sticky"
   ],
   "note": "False: a pretended success stays for ever and a stalled solve is never reported. The exact behaviour is proved for all histories."
  },
  {
   "property": "C290",
   "status": "partial",
   "theorems": [
    "C290_refuted",
    "C290_partial"
   ],
   "note": "False: printed with every source, twice by the AMPL set-up."
  },
  {
   "property": "C291",
   "status": "partial",
   "theorems": [
    "C291_refuted",
    "C291_partial",
    "C291_objects_partial"
   ],
   "note": "Holds as long as no set-up with objects is copied; a set-up with objects and its copy can never both be destroyed."
  },
  {
   "property": "C292",
   "status": "partial",
   "theorems": [
    "C292_refuted",
    "C292_partial"
   ],
   "note": "All but the heuristics, which are lost."
  },
  {
   "property": "C293",
   "status": "partial",
   "theorems": [
    "C293_refuted",
    "C293_partial"
   ],
   "note": "False for plain copies, true for copies onto another NLP."
  },
  {
   "property": "C294",
   "status": "partial",
   "theorems": [
    "C294_refuted",
    "C294_partial"
   ],
   "note": "Exact conditions: a handler without continuous solver, and onto another NLP any algorithm with an LP solver."
  },
  {
   "property": "C295",
   "status": "partial",
   "theorems": [
    "C295_refuted",
    "C295_partial"
   ],
   "note": "Exactly for set-ups that are not copies or were given a problem after being copied."
  },
  {
   "property": "C296",
   "status": "proved",
   "theorems": [
    "C296"
   ],
   "note": ""
  },
  {
   "property": "C297",
   "status": "proved",
   "theorems": [
    "C297_dive_search_right"
   ],
   "note": ""
  },
  {
   "property": "C298",
   "status": "partial",
   "theorems": [
    "C298_refuted",
    "C298_probed_search_right_partial"
   ],
   "note": "With stop_diving_on_cutoff the search can end in a null access; right when it is off."
  },
  {
   "property": "C299",
   "status": "partial",
   "theorems": [
    "C299_refuted",
    "C299_dfs_search_right_partial"
   ],
   "note": "dfs-dive-dynamic can report a solution that is not optimal as the end of the search; right for dfs-dive with one backtrack and a dive depth no less than the tree's."
  },
  {
   "property": "C30",
   "status": "partial",
   "theorems": [
    "C30_refuted",
    "C30_throw_refuted",
    "C30_best_partial",
    "C30_returns_partial",
    "C30_decrement_partial"
   ],
   "note": "The best solution is kept; the statistics divide by zero when no restart succeeds and an unrecoverable error in a restart throws."
  },
  {
   "property": "C300",
   "status": "proved",
   "theorems": [
    "C300_strategies_agree"
   ],
   "note": ""
  },
  {
   "property": "C301",
   "status": "partial",
   "theorems": [
    "C301_refuted",
    "C301_bound_when_stopped_partial"
   ],
   "note": "Wrong for dfs-dive-dynamic after a node is lost; right for the others."
  },
  {
   "property": "C302",
   "status": "proved",
   "theorems": [
    "C302_solutions_improve"
   ],
   "note": ""
  },
  {
   "property": "C303",
   "status": "partial",
   "theorems": [
    "C303_refuted",
    "C303_list_partial",
    "C303_exact",
    "C303_access"
   ],
   "note": "False for a collection with quadratic cuts inserted into itself, which does not end; proved for all other sequences of calls, and nothing else comes to its end."
  },
  {
   "property": "C304",
   "status": "proved",
   "theorems": [
    "C304_frame"
   ],
   "note": ""
  },
  {
   "property": "C305",
   "status": "proved",
   "theorems": [
    "C305_held_once",
    "C305_no_leak"
   ],
   "note": ""
  },
  {
   "property": "C306",
   "status": "partial",
   "theorems": [
    "C306_refuted",
    "C306_copies_partial"
   ],
   "note": "A null pointer can be inserted (the variable handed over before is one); a copy is then a null dereference. Copies work exactly when there is none."
  },
  {
   "property": "C307",
   "status": "partial",
   "theorems": [
    "C307_refuted",
    "C307_partial",
    "C307_never_read"
   ],
   "note": "Four documented options (dynamic_def_cutoff_decr, coeff_var_threshold, first_perc_for_cutoff_decr, second_perc_for_cutoff_decr) are never read; proved for the seventeen others."
  },
  {
   "property": "C308",
   "status": "partial",
   "theorems": [
    "C308_refuted",
    "C308_partial",
    "C308_init_partial"
   ],
   "note": "A setting made after reading is not seen; proved from a call of readOptionFile, or of initialize on an interface without a solver, until somebody touches the options."
  },
  {
   "property": "C309",
   "status": "partial",
   "theorems": [
    "C309_refuted",
    "C309_partial",
    "C309_prefixed_partial"
   ],
   "note": "With FilterSQP reading writes resolve_on_small_infeasibility into the list with the prefix, which hides a later setting without it; proved for the other options, for builds without FilterSQP, and for settings with the prefix."
  },
  {
   "property": "C31",
   "status": "partial",
   "theorems": [
    "C31_refuted",
    "C31_partial",
    "C31_aborts"
   ],
   "note": "False: copying moves the uninitialised cells of the copy into the original. Only the empty description is copied; otherwise all data of both are lost."
  },
  {
   "property": "C310",
   "status": "partial",
   "theorems": [
    "C310_refuted",
    "C310_partial",
    "C310_ignored"
   ],
   "note": "An interface that has a solver ignores the options given to initialize; proved if it has none."
  },
  {
   "property": "C311",
   "status": "partial",
   "theorems": [
    "C311_refuted",
    "C311_partial"
   ],
   "note": "If the solver's Initialize returned false the solver stays and the next initialize accepts it; the theorem says exactly when."
  },
  {
   "property": "C312",
   "status": "partial",
   "theorems": [
    "C312_refuted",
    "C312_partial",
    "C312_stays"
   ],
   "note": "Turning the option off has no effect; exact otherwise."
  },
  {
   "property": "C313",
   "status": "proved",
   "theorems": [
    "C313_read",
    "C313_init"
   ],
   "note": ""
  },
  {
   "property": "C314",
   "status": "partial",
   "theorems": [
    "C314_refuted",
    "C314_partial"
   ],
   "note": "Reading options after set_linearizer leaves the linearizer's values; proved until options are read."
  },
  {
   "property": "C315",
   "status": "partial",
   "theorems": [
    "C315_refuted",
    "C315_strengthening_refuted",
    "C315_partial",
    "C315_needs"
   ],
   "note": "full statement refuted: with the objective moved to the constraints, and in strengthening problems, a new point used first for the objective never reaches the user's problem; proved for all other stacks of wrappers"
  },
  {
   "property": "C316",
   "status": "proved",
   "theorems": [
    "C316_always_new"
   ],
   "note": ""
  },
  {
   "property": "C317",
   "status": "proved",
   "theorems": [
    "C317_exact",
    "C317_shown_first"
   ],
   "note": "exact point of every evaluation, and a sufficient condition on every stack"
  },
  {
   "property": "C318",
   "status": "partial",
   "theorems": [
    "C318_refuted",
    "C318_partial"
   ],
   "note": "full statement refuted: single quadratic rows do not announce the point; proved when only the user's rows are asked for singly"
  },
  {
   "property": "C319",
   "status": "partial",
   "theorems": [
    "C319_refuted",
    "C319_partial"
   ],
   "note": "full statement refuted with the objective moved to the constraints; proved for the other stacks"
  },
  {
   "property": "C32",
   "status": "partial",
   "theorems": [
    "C32_refuted",
    "C32_strict_refuted",
    "C32_partial",
    "C32_precision",
    "C32_no_final_newline"
   ],
   "note": "False: every file written ends with an end of line, after which the reader uses variables never set; a file without differences ends the program. Holds up to printing precision if the loop variables keep their storage."
  },
  {
   "property": "C320",
   "status": "partial",
   "theorems": [
    "C320_refuted",
    "C320_partial"
   ],
   "note": "full statement refuted (new_x never set); proved exactly when it holds, for problems without and with the objective moved"
  },
  {
   "property": "C321",
   "status": "partial",
   "theorems": [
    "C321_refuted",
    "C321_partial"
   ],
   "note": "full statement refuted by the cutoff constraint; proved for stacks without it"
  },
  {
   "property": "C322",
   "status": "proved",
   "theorems": [
    "C322_check"
   ],
   "note": ""
  },
  {
   "property": "C323",
   "status": "partial",
   "theorems": [
    "C323_refuted",
    "C323_partial",
    "C323_off",
    "C323_range"
   ],
   "note": "a search in every window refuted; an attempt in every window proved"
  },
  {
   "property": "C324",
   "status": "partial",
   "theorems": [
    "C324_refuted",
    "C324_partial"
   ],
   "note": "refuted after ten failures and nine successes; proved without a success or with fewer than ten failures"
  },
  {
   "property": "C325",
   "status": "proved",
   "theorems": [
    "C325_exact"
   ],
   "note": ""
  },
  {
   "property": "C326",
   "status": "partial",
   "theorems": [
    "C326_refuted",
    "C326_partial"
   ],
   "note": "refuted if a returned solution is not kept; proved otherwise"
  },
  {
   "property": "C327",
   "status": "proved",
   "theorems": [
    "C327_exact",
    "C327_window"
   ],
   "note": ""
  },
  {
   "property": "C328",
   "status": "proved",
   "theorems": [
    "C328_list"
   ],
   "note": ""
  },
  {
   "property": "C329",
   "status": "partial",
   "theorems": [
    "C329_refuted",
    "C329_partial",
    "C329_root_partial"
   ],
   "note": "refuted by negative usefulness; proved at the root and for usefulness at least 0"
  },
  {
   "property": "C33",
   "status": "partial",
   "theorems": [
    "C33_refuted",
    "C33_partial",
    "C33_failed_evaluation_refuted"
   ],
   "note": "False with crossed bounds (declared solved); exact characterisation and the claim for consistent bounds proved; failed evaluations are not noticed."
  },
  {
   "property": "C330",
   "status": "partial",
   "theorems": [
    "C330_refuted",
    "C330_partial",
    "C330_sum_partial",
    "C330_blind"
   ],
   "note": "refuted for negative cutoffs; proved when the multiplied cutoff is at least the node's objective; what is left otherwise is C330_blind"
  },
  {
   "property": "C331",
   "status": "partial",
   "theorems": [
    "C331_refuted",
    "C331_partial",
    "C331_stuck"
   ],
   "note": "refuted for geometrical means and sets not tried at the root; proved otherwise"
  },
  {
   "property": "C332",
   "status": "proved",
   "theorems": [
    "C332_readback"
   ],
   "note": ""
  },
  {
   "property": "C333",
   "status": "partial",
   "theorems": [
    "C333_refuted",
    "C333_partial"
   ],
   "note": "refuted for the smallest int; proved for all others"
  },
  {
   "property": "C334",
   "status": "partial",
   "theorems": [
    "C334_refuted",
    "C334_partial"
   ],
   "note": "refuted for names with a hyphen; exactly the hyphens are lost"
  },
  {
   "property": "C335",
   "status": "partial",
   "theorems": [
    "C335_refuted",
    "C335_partial"
   ],
   "note": "links are the anchors; anchors distinct only for categories differing in more than blanks and underscores"
  },
  {
   "property": "C336",
   "status": "partial",
   "theorems": [
    "C336_refuted",
    "C336_partial"
   ],
   "note": "refuted for every list; the flaw is one closing tag"
  },
  {
   "property": "C337",
   "status": "proved",
   "theorems": [
    "C337_rows"
   ],
   "note": ""
  },
  {
   "property": "C338",
   "status": "partial",
   "theorems": [
    "C338_refuted",
    "C338_partial"
   ],
   "note": "status 0 also after the expected kinds of errors; only the error stream tells"
  },
  {
   "property": "C339",
   "status": "partial",
   "theorems": [
    "C339_refuted",
    "C339_partial"
   ],
   "note": "refuted without arguments; safe with at least one"
  },
  {
   "property": "C34",
   "status": "proved",
   "theorems": [
    "C34_packed_matrix"
   ],
   "note": "For any sort meeting the contract of std::sort."
  },
  {
   "property": "C340",
   "status": "partial",
   "theorems": [
    "C340_refuted",
    "C340_partial"
   ],
   "note": "every solve leaves its local arrays; nothing else left, nothing released twice"
  },
  {
   "property": "C341",
   "status": "partial",
   "theorems": [
    "C341_refuted",
    "C341_partial"
   ],
   "note": "contents are cut at the first zero byte"
  },
  {
   "property": "C342",
   "status": "proved",
   "theorems": [
    "C342_node"
   ],
   "note": "the list of objects after addObjects is taken to be the one given to it"
  },
  {
   "property": "C343",
   "status": "partial",
   "theorems": [
    "C343_refuted",
    "C343_partial"
   ],
   "note": "positive: every node; negative: never"
  },
  {
   "property": "C344",
   "status": "partial",
   "theorems": [
    "C344_refuted",
    "C344_partial",
    "C344_rows"
   ],
   "note": "exactly the row cuts not discarded by an expansion"
  },
  {
   "property": "C345",
   "status": "proved",
   "theorems": [
    "C345_travel",
    "C345_kind"
   ],
   "note": "bounds kept by BCP are not sent; whether BCP restores them is outside"
  },
  {
   "property": "C346",
   "status": "partial",
   "theorems": [
    "C346_refuted",
    "C346_partial"
   ],
   "note": "all but the Hessian values depends on the last call only; the Hessian too unless the last call is local branching, whose objective Hessian has the weight of an earlier call"
  },
  {
   "property": "C347",
   "status": "proved",
   "theorems": [
    "C347_settings",
    "C347_checker",
    "C347_kinds"
   ],
   "note": "pointers to NLP and setup, shared by all copies, are left out"
  },
  {
   "property": "C348",
   "status": "partial",
   "theorems": [
    "C348_refuted",
    "C348_partial",
    "C348_limits"
   ],
   "note": "each copy counts time and sub-MIPs from its own making; exact condition proved"
  },
  {
   "property": "C349",
   "status": "partial",
   "theorems": [
    "C349_refuted",
    "C349_partial"
   ],
   "note": "safe unless initialising an existing heuristic throws, after which its sub-MIP pointer dangles"
  },
  {
   "property": "C35",
   "status": "partial",
   "theorems": [
    "C35_refuted",
    "C35_partial"
   ],
   "note": "False for code 1 (missing break: unbounded reported infeasible); every other code proved."
  },
  {
   "property": "C350",
   "status": "partial",
   "theorems": [
    "C350_refuted",
    "C350_partial",
    "C350_copy"
   ],
   "note": "assignment leaves time limit and starting time"
  },
  {
   "property": "C351",
   "status": "partial",
   "theorems": [
    "C351_refuted",
    "C351_partial"
   ],
   "note": "BM.hpp defines BM_DISREGARD_SOS: the objects are the integer variables and nothing else"
  },
  {
   "property": "C352",
   "status": "partial",
   "theorems": [
    "C352_refuted",
    "C352_partial"
   ],
   "note": "binary columns are declared integer, since the test for integer follows and overwrites; all else proved; the matrix is left out"
  },
  {
   "property": "C353",
   "status": "proved",
   "theorems": [
    "C353_places"
   ],
   "note": "none"
  },
  {
   "property": "C36",
   "status": "partial",
   "theorems": [
    "C36_refuted",
    "C36_order_refuted",
    "C36_partial",
    "C36_failures"
   ],
   "note": "False with the pseudo-cost criteria and a fraction of most fractional candidates: an object can be listed twice and another lost. Proved: no failure, exact infeasibility report, all cells unsatisfied objects, candidates of the best priority, permutation in the other cases."
  },
  {
   "property": "C37",
   "status": "partial",
   "theorems": [
    "C37_refuted",
    "C37_partial"
   ],
   "note": "False: the best priority is overwritten by the last one seen. Proved: the choice is from the final non-improving run; the claim when priorities never get worse and no object is beyond repair."
  },
  {
   "property": "C38",
   "status": "partial",
   "theorems": [
    "C38_refuted",
    "C38_partial"
   ],
   "note": "False: a later one-sided result overwrites the code. Proved: bounds restored, statuses sound, and the code is decided by the last tried object with an infeasible child, 3 when out of time."
  },
  {
   "property": "C39",
   "status": "partial",
   "theorems": [
    "C39_refuted",
    "C39_partial"
   ],
   "note": "False for a changed upper bound different from the lower bound (upper bound set to the child's lower bound). Proved: restoration, and an exact condition for the LP to see the child's bounds."
  },
  {
   "property": "C40",
   "status": "partial",
   "theorems": [
    "C40_refuted",
    "C40_partial"
   ],
   "note": "False for general integer variables: a value beyond the two integers next to the fractional one can be cut off. Proved for points within these two integers (all points for binary variables)."
  },
  {
   "property": "C41",
   "status": "partial",
   "theorems": [
    "C41_refuted",
    "C41_partial"
   ],
   "note": "False for NLP answers outside the bounds given to the solver (C41_refuted, with the shipped fractional rule). C41_partial: integrality, constraints, objective and unchanged output on failure hold for every solver and rule; bounds hold for every solver that stays inside the bounds it is given."
  },
  {
   "property": "C42",
   "status": "partial",
   "theorems": [
    "C42_refuted",
    "C42_partial"
   ],
   "note": "False of the code: value[nnz] = jac_g[i] uses the unsorted position, so coefficients are wrong for a Jacobian not listed by columns; the no-good cut of an all-zero rounding removes every point, and a cut removes every 0-1 assignment that is 1 wherever the rounding is 1. Proved: coefficients right when the Jacobian is listed by columns; a cut removes the current rounding, and the exact set it removes among 0-1 assignments."
  },
  {
   "property": "C43",
   "status": "partial",
   "theorems": [
    "C43_refuted",
    "C43_partial",
    "C43_independent"
   ],
   "note": "False for the first declaration about an option: it makes the option invalid for all other algorithms. Exact characterisation of validity after any history."
  },
  {
   "property": "C44",
   "status": "partial",
   "theorems": [
    "C44_refuted",
    "C44_outputs_refuted",
    "C44_partial",
    "C44_scaling"
   ],
   "note": "False: outputs are never written, SOS and branching information are never stored and two fields are read uninitialised. The other data are forwarded."
  },
  {
   "property": "C45",
   "status": "partial",
   "theorems": [
    "C45_refuted",
    "C45_partial"
   ],
   "note": "False: moves below 1e-6 are not counted and signs are kept. Proved: exact totals and counts over the counted observations."
  },
  {
   "property": "C46",
   "status": "proved",
   "theorems": [
    "C46_rows_any_history",
    "C46_jacobian_any_history"
   ],
   "note": ""
  },
  {
   "property": "C47",
   "status": "partial",
   "theorems": [
    "C47_single_row_value_partial",
    "C47_refuted"
   ],
   "note": "False of the code: eval_gi returns false for every added row. The value part is proved."
  },
  {
   "property": "C48",
   "status": "partial",
   "theorems": [
    "C48_refuted"
   ],
   "note": "False of the code: get_scaling_parameters calls itself."
  },
  {
   "property": "C49",
   "status": "partial",
   "theorems": [
    "C49_start_partial",
    "C49_gradient_values_partial",
    "C49_scaling_refuted",
    "C49_gradient_structure_refuted"
   ],
   "note": "False of the code: scaling of the new variable and row is only written if the output flags were already set on entry; gradient structure of the new row dereferences a null values array; bound multipliers of the new variable are not written."
  },
  {
   "property": "C50",
   "status": "partial",
   "theorems": [
    "C50_cutoff_row_partial",
    "C50_refuted"
   ],
   "note": "False when the distance objective is on, the combination used by solveFeasibilityProblem with a cutoff."
  },
  {
   "property": "C51",
   "status": "proved",
   "theorems": [
    "C51_bounds_follow_history"
   ],
   "note": ""
  },
  {
   "property": "C52",
   "status": "partial",
   "theorems": [
    "C52_solution_of_last_solve_partial",
    "C52_refuted"
   ],
   "note": "False only when the rows drop to zero between two solves: row activities are then stale."
  },
  {
   "property": "C53",
   "status": "proved",
   "theorems": [
    "C53_check_solution",
    "C53_check_solution_total"
   ],
   "note": "Row bounds that are crossed infinite (lower +inf, upper -inf) give an infinite result and are outside the second theorem."
  },
  {
   "property": "C54",
   "status": "partial",
   "theorems": [
    "C54_force_fractional_partial",
    "C54_refuted"
   ],
   "note": "The fixed-variable test is always true, so fixed integer variables are moved outside their bounds."
  },
  {
   "property": "C55",
   "status": "partial",
   "theorems": [
    "C55_copy_partial",
    "C55_refuted"
   ],
   "note": "Copying after rows were added since the last solve reads past the end of the row activities."
  },
  {
   "property": "C56",
   "status": "partial",
   "theorems": [
    "C56_assign_partial",
    "C56_refuted"
   ],
   "note": "Assignment of an unsolved problem keeps the target's old solution."
  },
  {
   "property": "C57",
   "status": "partial",
   "theorems": [
    "C57_global_partial",
    "C57_root_partial",
    "C57_refuted"
   ],
   "note": "Small coefficients are removed with the node's bounds although the cut is flagged global."
  },
  {
   "property": "C58",
   "status": "partial",
   "theorems": [
    "C58_contains_partial",
    "C58_refuted"
   ],
   "note": "False when a row is skipped; small coefficients stay in the matrix, harmless when 0 is in the box."
  },
  {
   "property": "C59",
   "status": "proved",
   "theorems": [
    "C59_fathom",
    "C59_no_null",
    "C59_idle"
   ],
   "note": "Relative to sub-solver answers that are valid for the problem (record sound)."
  },
  {
   "property": "C60",
   "status": "partial",
   "theorems": [
    "C60_refuted",
    "C60_ends_partial",
    "C60_checker",
    "C60_checker_moves"
   ],
   "note": "False when a limit on solutions or local searches is reached: the same point is solved for ever. Holds with room left in the limits, and always for the feasibility check."
  },
  {
   "property": "C61",
   "status": "partial",
   "theorems": [
    "C61_refuted",
    "C61_partial"
   ],
   "note": "False: the values reported are those of the displacement; they are right up to g(x0)."
  },
  {
   "property": "C62",
   "status": "partial",
   "theorems": [
    "C62_refuted",
    "C62_status_partial"
   ],
   "note": "False on copies: the status is not copied. Exact characterisation proved."
  },
  {
   "property": "C63",
   "status": "partial",
   "theorems": [
    "C63_refuted",
    "C63_classified_partial"
   ],
   "note": "False for the stalled and time-limit codes; exact for all codes."
  },
  {
   "property": "C64",
   "status": "partial",
   "theorems": [
    "C64_refuted",
    "C64_agree_partial"
   ],
   "note": "False after an error: the object keeps its old (initially optimal) status."
  },
  {
   "property": "C65",
   "status": "proved",
   "theorems": [
    "C65_sqp_multipliers"
   ],
   "note": ""
  },
  {
   "property": "C66",
   "status": "proved",
   "theorems": [
    "C66_sqp_first_derivatives",
    "C66_sqp_hessian",
    "C66_qp_data"
   ],
   "note": ""
  },
  {
   "property": "C67",
   "status": "partial",
   "theorems": [
    "C67_refuted",
    "C67_partial",
    "C67_chain"
   ],
   "note": "False when the integer arrays differ in length; exact characterisation proved."
  },
  {
   "property": "C68",
   "status": "partial",
   "theorems": [
    "C68_refuted",
    "C68_empty_refuted",
    "C68_partial"
   ],
   "note": "False for the solver's own empty warm start; proved for full warm starts."
  },
  {
   "property": "C69",
   "status": "partial",
   "theorems": [
    "C69_refuted",
    "C69_partial"
   ],
   "note": "False: the copy constructor deletes pointers of the object under construction."
  },
  {
   "property": "C70",
   "status": "partial",
   "theorems": [
    "C70_refuted",
    "C70_partial"
   ],
   "note": "False after NULL is given: the released array stays referenced. Exact condition given."
  },
  {
   "property": "C71",
   "status": "partial",
   "theorems": [
    "C71_refuted",
    "C71_partial"
   ],
   "note": "False for variables fixed at 0 or 1, which count as general. No general integer variable is missed; exact for integer bounds."
  },
  {
   "property": "C72",
   "status": "partial",
   "theorems": [
    "C72_refuted",
    "C72_partial"
   ],
   "note": "False when no multipliers are written: the header still announces them. Exact round trip with multipliers."
  },
  {
   "property": "C73",
   "status": "proved",
   "theorems": [
    "C73"
   ],
   "note": "For sequences of calls that follow the new_x protocol, with a Hessian function whenever the Hessian is asked for."
  },
  {
   "property": "C74",
   "status": "partial",
   "theorems": [
    "C74_refuted",
    "C74_partial"
   ],
   "note": "False without constraints: one array is never released. Nothing is released twice."
  },
  {
   "property": "C75",
   "status": "proved",
   "theorems": [
    "C75"
   ],
   "note": "std::list::sort through its contract."
  },
  {
   "property": "C76",
   "status": "partial",
   "theorems": [
    "C76_refuted",
    "C76_partial"
   ],
   "note": "False for 'least fractional', which keeps the most fractional objects and reverses their order. Proved for both criteria what is kept and in which order."
  },
  {
   "property": "C77",
   "status": "partial",
   "theorems": [
    "C77_refuted",
    "C77_partial"
   ],
   "note": "False with a clone (the parent's solution is returned) and with cut rounds (null pointer). Proved without cut rounds: status, objective, and the solution with basis warm start."
  },
  {
   "property": "C78",
   "status": "proved",
   "theorems": [
    "C78"
   ],
   "note": "At the root or with the look-ahead limit off."
  },
  {
   "property": "C79",
   "status": "proved",
   "theorems": [
    "C79"
   ],
   "note": "For every normal return."
  },
  {
   "property": "C80",
   "status": "partial",
   "theorems": [
    "C80_refuted",
    "C80_partial"
   ],
   "note": "False for a child that is neither optimal, infeasible nor stopped by a limit: booked as infeasible. Proved for limits, and that only the tried side of the object changes."
  },
  {
   "property": "C81",
   "status": "partial",
   "theorems": [
    "C81_refuted",
    "C81_partial"
   ],
   "note": "False: an assertion requires both children solved to optimality. Proved: exactly that assertion can fail, and what is returned otherwise."
  },
  {
   "property": "C82",
   "status": "proved",
   "theorems": [
    "C82"
   ],
   "note": "For cuts valid in the box, exact solver."
  },
  {
   "property": "C83",
   "status": "proved",
   "theorems": [
    "C83"
   ],
   "note": "Binary discrete variables, exact solver."
  },
  {
   "property": "C84",
   "status": "partial",
   "theorems": [
    "C84_refuted",
    "C84_partial"
   ],
   "note": "False: exit when a derivative of the objective vanishes at the bound of the branching variable. Proved for constraints, and for objectives whose derivatives in the cut do not vanish."
  },
  {
   "property": "C85",
   "status": "partial",
   "theorems": [
    "C85_refuted",
    "C85_partial"
   ],
   "note": "False with an integer variable that has an infinite bound. C85_partial: with finite bounds on the integer variables every dive ends, in as many rounds as the bounds are wide."
  },
  {
   "property": "C86",
   "status": "proved",
   "theorems": [
    "C86_fractional_rule"
   ],
   "note": ""
  },
  {
   "property": "C87",
   "status": "partial",
   "theorems": [
    "C87_refuted",
    "C87_partial"
   ],
   "note": "False for Jacobian entries that are not grouped by column. C87_partial: true when grouped, when every integer variable occurs in a constraint and when integer variables have integer bounds; examples show both other conditions are needed."
  },
  {
   "property": "C88",
   "status": "proved",
   "theorems": [
    "C88_new_assignments",
    "C88_runs"
   ],
   "note": "MILP solver assumed to respect bounds and cuts; n*tol<1."
  },
  {
   "property": "C89",
   "status": "proved",
   "theorems": [
    "C89_reported"
   ],
   "note": "Constraints are not checked by the heuristic: they hold as far as the NLP solver's success says so."
  },
  {
   "property": "C90",
   "status": "partial",
   "theorems": [
    "C90_refuted",
    "C90_partial"
   ],
   "note": "False when a Jacobian entry of a linear column is listed twice (CoinPackedVector::insert throws). Proved without duplicates."
  },
  {
   "property": "C91",
   "status": "proved",
   "theorems": [
    "C91_dive_mip"
   ],
   "note": "Duplicates excluded as in C90; constraints hold as far as the NLP solver's success says so."
  },
  {
   "property": "C92",
   "status": "partial",
   "theorems": [
    "C92_rows_partial",
    "C92_refuted"
   ],
   "note": "False of the code after use(): exchanging the problem object leaves the cached row arrays of the previous one. Proved for all other histories (rows without a lower bound of +infinity or an upper bound of -infinity)."
  },
  {
   "property": "C93",
   "status": "partial",
   "theorems": [
    "C93_shown_partial",
    "C93_point_partial",
    "C93_refuted"
   ],
   "note": "False of the code: any change of a bound, a type or the multipliers after a solve makes getColSolution return the starting point instead. C93_shown_partial says exactly what is returned; C93_point_partial gives the histories for which the statement holds."
  },
  {
   "property": "C94",
   "status": "partial",
   "theorems": [
    "C94_last_partial",
    "C94_together_partial",
    "C94_refuted"
   ],
   "note": "False of the code after setColSolution or a bound change: activities, objective and gradient stay those of the last solve. Proved: they always are those of the last solve, and belong to the reported point when nothing was changed since."
  },
  {
   "property": "C95",
   "status": "partial",
   "theorems": [
    "C95_exists_partial",
    "C95_status_partial",
    "C95_refuted"
   ],
   "note": "False of the code: rows at their upper bound are marked atLowerBound. Proved: the exact statuses, and that the call reads past the activities exactly when a row has none."
  },
  {
   "property": "C96",
   "status": "partial",
   "theorems": [
    "C96_parameters_partial",
    "C96_refuted"
   ],
   "note": "False of the code for the primal tolerance (missing break: accepted, stored in the base class, never returned). Proved for the other keys."
  },
  {
   "property": "C97",
   "status": "partial",
   "theorems": [
    "C97_violation_partial",
    "C97_added_rows_partial",
    "C97_nonlinearities_partial",
    "C97_refuted"
   ],
   "note": "False of the code: rows marked linear are skipped once the constraint types are known; with rows added the call reads uninitialised activities or past the types. Proved: largest violation over the other rows when no row was added, the exact failure when some were, and the exact value or assertion of getNonLinearitiesViolation."
  },
  {
   "property": "C98",
   "status": "partial",
   "theorems": [
    "C98_optimum_partial",
    "C98_ignored_partial",
    "C98_refuted"
   ],
   "note": "False of the code: below mode Optimum everything is accepted and ignored; a refused warm start drops the previous one. Proved: exact behaviour in each mode."
  },
  {
   "property": "C99",
   "status": "proved",
   "theorems": [
    "C99_cuts_valid",
    "C99_bound_valid"
   ],
   "note": "Validity of the outer approximation's cuts and exactness of the LP solver are hypotheses."
  }
 ]
}