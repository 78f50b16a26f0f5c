{"id": "C01", "title": "Diving tree never loses or duplicates an open node", "statement": "With the `dive` tree search, after any sequence of push / pop / bestNode / cleanTree / mode-independent queries that does not stop on an assertion, every node ever pushed is in exactly one of four places: handed back by bestNode (once), removed by pop, still in the tree (and counted by size and empty), or dropped by a heap scan because its objective was at or above the cutoff given to that call.", "quantifier": "all finite histories of tree operations, all node sets, all cutoffs, both values of stop_diving_on_cutoff, every heap ordering", "why_tests_cant": "A branch-and-bound run makes millions of tree calls in data dependent order; losing one node silently turns an exact search into a heuristic and only shows on the instance where that node held the optimum.", "anchors": ["src/CbcBonmin/BonDiver.cpp:63-151 CbcDiver::top push pop bestNode empty cleanTree", "src/CbcBonmin/BonDiver.hpp:60-87"]}
{"id": "C02", "title": "The tree's best possible objective is a valid and attained lower bound", "statement": "For each of the three diving trees, getBestPossibleObjective() is never larger than the objective of any open node, and when it is not the empty-tree default it is the objective of some open node, so the bound and gap reported to the user never exclude an open node.", "quantifier": "all reachable tree states of CbcDiver, CbcProbedDiver and CbcDfsDiver", "why_tests_cant": "The bound is an aggregate over heap, dive list and the one or two side slots; tests only sample a few shapes and a missing slot only matters when the best node sits in it.", "anchors": ["src/CbcBonmin/BonDiver.cpp:154-166 CbcDiver::getBestPossibleObjective", "src/CbcBonmin/BonDiver.cpp:423-436 CbcProbedDiver::getBestPossibleObjective", "src/CbcBonmin/BonDiver.cpp:710-725 CbcDfsDiver::getBestPossibleObjective"]}
{"id": "C03", "title": "Probed-diving tree never loses an open node", "statement": "With the `probed-dive` tree search, every node pushed is in exactly one of: returned by bestNode, removed by pop, still in the tree, or dropped by a heap scan at or above the cutoff; and no null node is ever put in the heap.", "quantifier": "all finite histories of push / pop / bestNode / cleanTree, all cutoffs, both values of stop_diving_on_cutoff, every node comparison", "why_tests_cant": "The loss needs a particular order of three pushes or a particular relation between guess, cutoff and an empty slot, which depends on the instance.", "anchors": ["src/CbcBonmin/BonDiver.cpp:254-419 CbcProbedDiver::push pop bestNode cleanTree"]}
{"id": "C04", "title": "Depth-first diving tree never loses an open node in any of its modes", "statement": "With the `dfs-dive` family of tree searches, in every mode (enlarge, find solutions, close bound, limit tree size) and across mode switches, every node pushed is in exactly one of: returned by bestNode, removed by pop, still in the tree, or dropped by a heap scan at or above the cutoff.", "quantifier": "all finite histories of push / pop / bestNode / cleanTree / setComparisonMode, all parameter values, every heap ordering", "why_tests_cant": "The close-bound and limit-tree-size modes are only entered after several incumbents or a million nodes, which no unit test reaches.", "anchors": ["src/CbcBonmin/BonDiver.cpp:526-786 CbcDfsDiver::push pop bestNode pushDiveOntoHeap cleanTree setComparisonMode"]}
{"id": "C05", "title": "Depth-first diving honours its limits instead of aborting", "statement": "For every admissible value of max_backtracks_in_dive (>= 0) and max_dive_depth (>= 0), bestNode on a nonempty dfs-dive tree never fails an internal assertion; a dive in progress has always used strictly fewer backtracks than the limit, and nodes beyond the depth limit are moved to the heap.", "quantifier": "all option values in the registered ranges and all histories of tree operations", "why_tests_cant": "The limits interact with the history (board depth, backtrack counter, mode switches); tests use the defaults.", "anchors": ["src/CbcBonmin/BonDiver.cpp:567-672 CbcDfsDiver::bestNode", "src/CbcBonmin/BonDiver.cpp:728-754 registerOptions initialize", "src/CbcBonmin/BonDiver.cpp:758-786 setComparisonMode"]}
{"id": "C06", "title": "Quadratic row evaluates to its mathematical value", "statement": "The value returned by a quadratic row at x is c + sum a_i x_i + sum over the symmetric quadratic matrix q_ij x_i x_j, where each stored upper triangular off-diagonal entry counts for both (i,j) and (j,i).", "quantifier": "all sparse rows (any number of linear and quadratic terms, duplicates included) and all points x", "why_tests_cant": "Sparse index handling over unbounded patterns; a numerical test checks one pattern at one point.", "anchors": ["src/Algorithms/QuadCuts/BonQuadRow.cpp:159-180 QuadRow::eval_f", "src/Algorithms/QuadCuts/BonQuadRow.cpp:102-142 initialize"]}
{"id": "C07", "title": "Quadratic row gradient is the exact derivative on the announced pattern", "statement": "The gradient entries a quadratic row returns, placed at the indices its gradient structure announces, give at every point the exact derivative of the row value: f(x+h) - f(x) - grad.h is the quadratic form of h alone.", "quantifier": "all sparse rows whose linear part lists each variable at most once, all points x and all displacements h", "why_tests_cant": "Finite-difference tests cannot separate a wrong sparse entry from rounding and only visit one sparsity pattern; NLP solver convergence depends on all of them.", "anchors": ["src/Algorithms/QuadCuts/BonQuadRow.cpp:183-259 nnz_grad gradiant_struct eval_grad internal_eval_grad"]}
{"id": "C08", "title": "Quadratic row Hessian contributions survive any history of adding and removing cuts", "statement": "After any sequence of quadratic cuts being added to and removed from the NLP, the Lagrangian Hessian it returns equals, entry by entry, the original Hessian plus the sum over present cuts of multiplier times the cut's second derivatives, and all structure positions are distinct and within the announced number of nonzeros.", "quantifier": "all finite add/remove histories, all sparsity overlaps between cuts and the original Hessian, all multipliers", "why_tests_cant": "Wrong positions need an add-remove-add history with partially overlapping patterns.", "anchors": ["src/Algorithms/QuadCuts/BonQuadRow.cpp:261-307 add_to_hessian remove_from_hessian eval_hessian", "src/Algorithms/QuadCuts/BonTMINLP2Quad.cpp:290-483 eval_h addCuts removeCuts"]}
{"id": "C09", "title": "A quadratic cut means the same constraint once it becomes a row", "statement": "Turning a quadratic cut l <= c + a.x + x'Qx <= u into a row of the NLP, by construction or by assignment, gives a constraint with the same bounds and the same value at every x.", "quantifier": "all cuts (all constants, linear parts and quadratic parts) and all x", "why_tests_cant": "The two conversion paths differ only on the constant term; tests with zero constant cannot see it.", "anchors": ["src/Algorithms/QuadCuts/BonQuadRow.cpp:54-76 QuadRow::QuadRow(const QuadCut&) operator=", "src/Algorithms/QuadCuts/BonQuadCut.hpp"]}
{"id": "C10", "title": "Normalising a triplet matrix preserves the quadratic form", "statement": "Reordering, making upper triangular, and merging duplicates in a triplet matrix never changes the quadratic form x'Qx it stands for, and always terminates.", "quantifier": "all triplet matrices (any order, duplicates, lower and upper entries) and all x", "why_tests_cant": "Triplet data have unboundedly many orders and duplicate patterns.", "anchors": ["src/Algorithms/QuadCuts/BonTMatrix.cpp:138-213 removeDuplicates make_upper_triangular make_lower_to_be_upper make_full_upper_triangular"]}
{"id": "C11", "title": "Linear-objective reformulation is equivalent to the original problem", "statement": "Replacing the objective by an extra variable and an extra constraint f(x) - eta <= 0 gives a problem whose feasible points project exactly onto the original feasible points with eta >= f(x), with the same infimum; constraint values, bounds, linearity flags, Jacobian entries and Hessian multipliers of all rows refer to the same row ordering.", "quantifier": "all problems (any n, m, sparsity pattern), all x, eta, multipliers", "why_tests_cant": "An index shift by one between values, bounds and derivatives can cancel on small symmetric tests.", "anchors": ["src/Algorithms/QuadCuts/BonTMINLPLinObj.cpp:31-208"]}
{"id": "C12", "title": "Feasibility-pump cutoff row is strictly improving and consistently ordered", "statement": "When the feasibility NLP carries a cutoff row and/or a local branching row, all of bounds, values, linearity flags and multiplier starting values use the same row order, and the cutoff used is strictly below the given incumbent value for every sign of the incumbent.", "quantifier": "all problems, all incumbents (negative, zero, positive), all four combinations of the two extra rows", "why_tests_cant": "The both-rows combination is rarely configured and a swapped row only shows when the multipliers matter.", "anchors": ["src/Interfaces/BonTNLP2FPNLP.cpp:53-155 set_cutoff get_nlp_info get_bounds_info", "src/Interfaces/BonTNLP2FPNLP.cpp:200-246 eval_g", "src/Interfaces/BonTNLP2FPNLP.hpp:102-178 get_starting_point get_constraints_linearity"]}
{"id": "C13", "title": "Feasibility-pump objective and its gradient and Hessian agree", "statement": "With the distance objective on, the gradient returned is the exact derivative of the objective (scaled distance plus weighted original objective) and the Hessian is the derivative of the gradient; with it off, value, gradient and Hessian are those of the original problem.", "quantifier": "all target points, all subsets of integer variables, both norms, all weights, all x", "why_tests_cant": "Derivative mistakes do not fail a functional test; they only make the NLP solver slow or wrong on some instances.", "anchors": ["src/Interfaces/BonTNLP2FPNLP.cpp:66-96 set_dist_to_point_obj dist_to_point", "src/Interfaces/BonTNLP2FPNLP.cpp:158-197 eval_f eval_grad_f", "src/Interfaces/BonTNLP2FPNLP.cpp:376-440 eval_h"]}
{"id": "C14", "title": "Feasibility-pump Jacobian writes stay inside the announced arrays", "statement": "For every combination of extra rows, filling the Jacobian structure and values of the feasibility NLP touches only positions below the announced number of nonzeros and fills each exactly once.", "quantifier": "all problem sizes and sparsity patterns, all four combinations of the two extra rows", "why_tests_cant": "Out-of-bounds writes of a few words are usually silent in tests.", "anchors": ["src/Interfaces/BonTNLP2FPNLP.cpp:99-126 get_nlp_info", "src/Interfaces/BonTNLP2FPNLP.cpp:249-373 eval_jac_g"]}
{"id": "C15", "title": "Warm-start data handed to the NLP solver are never stale", "statement": "After any sequence of setting primal starting values, setting dual starting values and resetting the starting point, the starting point handed to the NLP solver is the last one set since the last reset, and no access to released storage happens.", "quantifier": "all finite histories of setxInit / setDualsInit / resetStartingPoint / solver queries", "why_tests_cant": "Dangling access depends on the history and on the allocator and is invisible in most runs.", "anchors": ["src/Interfaces/BonTMINLP2TNLP.cpp:280-303 resetStartingPoint setxInit setDualsInit", "src/Interfaces/BonTMINLP2TNLP.cpp:360-397 get_starting_point"]}
{"id": "C16", "title": "Outer-approximation cuts are valid for convex constraints", "statement": "For a convex constraint g_i(x) <= u_i (or concave with >= l_i), the linear cut generated at any linearisation point is satisfied by every point of the variable box satisfying the constraint, up to exactly the total of the coefficients declared negligible times the box width; removal of small coefficients with compensation never cuts off a feasible point.", "quantifier": "all convex constraints, all linearisation points in the box, all boxes (with infinite sides), all small-coefficient thresholds", "why_tests_cant": "Validity is a statement about every feasible point of a continuous set.", "anchors": ["src/Interfaces/BonOsiTMINLPInterface.cpp:1882-1919 cleanNnz", "src/Interfaces/BonOsiTMINLPInterface.cpp:1924-2107 getOuterApproximation"]}
{"id": "C17", "title": "Objective outer-approximation cut is a valid underestimator", "statement": "For convex f, the objective cut generated at x* holds for every x and every value alpha >= f(x), and at x = x* it forces alpha >= f(x*).", "quantifier": "all convex objectives, all linearisation points, all x, alpha", "why_tests_cant": "Quantifies over a continuum of points and objectives.", "anchors": ["src/Interfaces/BonOsiTMINLPInterface.cpp:2053-2106 getOuterApproximation objective part"]}
{"id": "C18", "title": "Generated cuts do not depend on the log level", "statement": "The set of outer-approximation cuts generated for given data, point and options is the same at every verbosity level.", "quantifier": "all problems, points and log levels", "why_tests_cant": "Tests run at one log level.", "anchors": ["src/Interfaces/BonOsiTMINLPInterface.cpp:2010-2025 getOuterApproximation violation filter"]}
{"id": "C19", "title": "Small-coefficient removal in the quadratic outer approximation keeps validity", "statement": "Removing a small coefficient of a linearised row and adjusting one side of the row never makes a point of the variable box that satisfied the original row violate the cleaned one.", "quantifier": "all coefficients, bounds, thresholds and box points", "why_tests_cant": "The sign case analysis has eight cases, each a statement about all box points.", "anchors": ["src/Algorithms/QuadCuts/BonOuterApprox.hpp:78-119 cleanNnz"]}
{"id": "C20", "title": "Benders cut is valid for convex problems", "statement": "The aggregated (Benders) cut built from the multipliers of an NLP solve is satisfied by every point (x, alpha) with x feasible and alpha >= f(x), for convex problems and nonnegative multipliers.", "quantifier": "all convex problems, multipliers, linearisation points", "why_tests_cant": "Validity ranges over all feasible points and all multipliers.", "anchors": ["src/Interfaces/BonOsiTMINLPInterface.cpp:2111-2202 getBendersCut"]}
{"id": "C21", "title": "Linear relaxation keeps every row attached to its own bounds", "statement": "The LP relaxation extracted at a point contains, for each constraint kept, the linearisation of that very constraint with that constraint's own bounds, whatever subset of rows is skipped.", "quantifier": "all problems, all subsets of rows dropped as nonconvex or equality or unbounded, all points", "why_tests_cant": "Misalignment only appears when a skipped row precedes a kept one.", "anchors": ["src/Interfaces/BonOsiTMINLPInterface.cpp:2378-2537 extractLinearRelaxation"]}
{"id": "C22", "title": "Improving cutoff in outer-approximation decomposition is always strictly below the incumbent", "statement": "At each round of OA decomposition the cutoff given to the MILP solver is strictly smaller than the current upper bound, for positive, zero and negative upper bounds and every admissible decrement, so rounds cannot cycle on equal-value solutions and no assertion fails.", "quantifier": "all finite upper bounds and all decrements in the option range", "why_tests_cant": "The failing value is a measure-zero case (incumbent exactly 0).", "anchors": ["src/Algorithms/OaGenerators/BonOACutGenerator2.cpp:62-284 performOa"]}
{"id": "C23", "title": "Branching QP is the second-order model of the NLP at the node and maps solutions back", "statement": "The QP used for strong branching has, for every displacement d, objective grad.d + 1/2 d'Hd and constraints g(x0)+J d within the original bounds; its gradient and Hessian are exact derivatives of its objective; the solution reported is x0 + d with the corresponding objective.", "quantifier": "all sparsity patterns, all base points and displacements, all index styles", "why_tests_cant": "Statement over all displacements; finite tests cannot distinguish a wrong off-diagonal factor on untested patterns.", "anchors": ["src/Interfaces/BonBranchingTQP.cpp:110-333"]}
{"id": "C24", "title": "Random starting points lie inside the variable bounds", "statement": "Every random starting point generated for a re-solve, by any of the three methods, has each coordinate within that variable's bounds, for finite, half-infinite and infinite bounds, whatever the random draws.", "quantifier": "all bounds with l <= u, all current points within them, all random values in [0,1], all three methods, all radii", "why_tests_cant": "Depends on every random draw.", "anchors": ["src/Interfaces/BonOsiTMINLPInterface.cpp:1749-1795 randomStartingPoint"]}
{"id": "C25", "title": "Fixing integers fixes exactly the integer variables, and undoing restores the bounds", "statement": "Fixing the integer variables at a solution gives each the same lower and upper bound equal to the nearest integer and leaves other variables alone; relaxing restores the saved bounds exactly; re-fixing after relaxing gives fixed variables again; a call that reports failure leaves no variable fixed.", "quantifier": "all variable sets, bounds, solutions and objects; all sequences fix / relax / refix", "why_tests_cant": "History property over arbitrary bound vectors; partial fixing before an exception is only visible on failing inputs.", "anchors": ["src/Algorithms/BonSolverHelp.cpp:49-145 fixIntegers relaxIntegers refixIntegers"]}
{"id": "C26", "title": "OA LP manipulation is undone on restore", "statement": "After the LP used inside OA has had cuts installed, bounds fixed and a cutoff set, restoring brings back the original column bounds, number of rows and cutoff.", "quantifier": "all LPs, all sequences of bound changes and cut installations between save and restore", "why_tests_cant": "History property.", "anchors": ["src/Algorithms/OaGenerators/BonOaDecBase.cpp:132-224 solverManip"]}
{"id": "C27", "title": "Reported solve status is sound", "statement": "The MINLP status and solution reported after branch-and-bound correspond to this run: success only with a solution of this run, infeasible only if none was found and the tree is exhausted, limit and interrupt statuses when a limit or abort stopped the search.", "quantifier": "all final states of the underlying tree search and all sequences of consecutive solves on one object", "why_tests_cant": "Ranges over all termination reasons in combination with the previous run's state.", "anchors": ["src/CbcBonmin/BonCbc.cpp:593-699 Bab::branchAndBound status mapping"]}
{"id": "C28", "title": "Consecutive-failure rules cut a branch exactly when the configured limits are exceeded", "statement": "A node is declared infeasible or failed only when the number of consecutive infeasible (unsolved) ancestors on its path reaches the configured limit; the counters along a path equal the length of the current run of infeasible (failed) nodes.", "quantifier": "all root-to-node paths (any depth and outcome sequence) and all limits", "why_tests_cant": "Path history of unbounded length.", "anchors": ["src/CbcBonmin/BonCbcNlpStrategy.cpp:80-155 CbcNlpStrategy::status", "src/CbcBonmin/BonCbcNode.cpp:106-141"]}
{"id": "C29", "title": "Abandoned solves are reported as abandoned", "statement": "Unless the most recent NLP solve was explicitly replaced by a pretended success, an NLP solve that ended in an error is reported as abandoned; in particular a pretended success affects only the solve it was declared for.", "quantifier": "all finite sequences of solves, failures and status queries", "why_tests_cant": "Needs a history: a failure after an earlier tolerated failure.", "anchors": ["src/Interfaces/BonOsiTMINLPInterface.cpp:989-1093 resolveForRobustness", "src/Interfaces/BonOsiTMINLPInterface.cpp:2907-2920 isAbandoned"]}
{"id": "C30", "title": "Multi-start solve keeps the best solution found", "statement": "Solving with several random starting points ends with the point, duals, objective and status of a solve having the smallest objective among the successful ones; if none succeeds the problem is reported infeasible or failed and no exception such as a division by zero can occur.", "quantifier": "all numbers of retries and all outcomes (status, objective) of each solve", "why_tests_cant": "Ranges over all outcome sequences, including all-failed.", "anchors": ["src/Interfaces/BonOsiTMINLPInterface.cpp:836-986 resolveForCost"]}
{"id": "C31", "title": "SOS data survive being copied", "statement": "Copying a problem's SOS description yields an equal and independent description and leaves the original unchanged.", "quantifier": "all SOS descriptions (any number of sets and members, with or without weights)", "why_tests_cant": "The original being overwritten by uninitialised memory may accidentally look right in a test.", "anchors": ["src/Interfaces/BonTMINLP.cpp:28-67 SosInfo::SosInfo(const SosInfo&)"]}
{"id": "C32", "title": "Bound-change files read back exactly what was written", "statement": "Applying a bounds file written by the diagnostic writer to the original problem gives exactly the bounds of the problem that was being solved.", "quantifier": "all original bounds and all modified bounds, any number of differences including none", "why_tests_cant": "The failing cases are the file ends and the empty difference, for all contents.", "anchors": ["src/Interfaces/BonBoundsReader.cpp:55-120", "src/Interfaces/BonTNLPSolver.cpp:170-248 writeDiffFiles"]}
{"id": "C33", "title": "Problems with all variables fixed are classified correctly", "statement": "When no variable can move, the short-cut declares the problem solved exactly if bounds are consistent and all constraints hold within tolerance at the fixed point, infeasible otherwise, and is not taken when some variable can move.", "quantifier": "all problems and all bounds including crossed ones", "why_tests_cant": "Quantifies over all bound vectors; crossed bounds come from branching histories.", "anchors": ["src/Interfaces/BonTNLPSolver.cpp:77-161 zeroDimension"]}
{"id": "C34", "title": "Triplet to packed conversion for the SQP solver preserves the matrix", "statement": "The row-packed matrix passed to the SQP solver represents exactly the given triplet matrix: row pointers are monotone, one per row plus one, every stored entry appears once in its row with its column index, and the permutation used for values maps each packed position to its own triplet.", "quantifier": "all triplet matrices (any order, empty rows, both index offsets, symmetric or not)", "why_tests_cant": "Empty rows at the start, middle or end and arbitrary orders are unbounded in number.", "anchors": ["src/Interfaces/Filter/BonFilterSolver.cpp:173-240 TMat2RowPMat"]}
{"id": "C35", "title": "SQP solver outcomes map to the right status", "statement": "Each termination code of the SQP solver is reported as the corresponding status; in particular an unbounded problem is not reported infeasible.", "quantifier": "all termination codes", "why_tests_cant": "Unbounded relaxations are not part of the test sets.", "anchors": ["src/Interfaces/Filter/BonFilterSolver.cpp:574-644 callOptimizer"]}
{"id": "C36", "title": "Branching candidate list is a permutation with the right priority split", "statement": "After the candidate list for strong branching is built, it contains every unsatisfied object exactly once, best-priority candidates first, satisfied objects never, and reports infeasibility exactly when some object is infeasible beyond repair.", "quantifier": "all object sets, priorities, infeasibility values, all option values for the list size", "why_tests_cant": "List surgery with two fill fronts, sizes unbounded.", "anchors": ["src/Algorithms/Branching/BonChooseVariable.cpp:307-584 setupList"]}
{"id": "C37", "title": "Random branching respects priorities", "statement": "The random chooser only selects among unsatisfied objects of the best priority level.", "quantifier": "all object sets, orders and priorities, all random draws", "why_tests_cant": "Depends on the order of objects and the draw.", "anchors": ["src/Algorithms/Branching/BonRandomChoice.cpp:13-56 setupList"]}
{"id": "C38", "title": "Strong branching leaves the node problem unchanged and reports infeasibility", "statement": "After strong branching returns, for any outcomes of the child solves, all variable bounds are those before the call, and the return code tells infeasible exactly when both children of some tried object were infeasible.", "quantifier": "all candidate lists, all child outcomes, all time-out points", "why_tests_cant": "All combinations of outcomes over an unbounded list.", "anchors": ["src/Algorithms/Branching/BonChooseVariable.cpp:787-957 doStrongBranching"]}
{"id": "C39", "title": "Strong-branching LP sees the child's bounds", "statement": "When a child node is evaluated with the linearised problem, the bounds of each variable in that linearised problem are the child's bounds, and the parent's after the evaluation.", "quantifier": "all bound vectors of parent and child, both warm-start modes", "why_tests_cant": "Only visible on nodes with upper bounds differing from lower bounds in clone mode.", "anchors": ["src/Algorithms/Branching/BonLpBranchingSolver.cpp:106-197 solveFromHotStart"]}
{"id": "C40", "title": "Disjunctive strengthening of a cut keeps all integer points", "statement": "The strengthened cut derived from the two sides of an integer disjunction is satisfied by every point with integral branching variable that satisfies the two side bounds.", "quantifier": "all cuts, all disjunction values, all points", "why_tests_cant": "Validity over all integer points of both sides.", "anchors": ["src/Interfaces/BonCutStrengthener.cpp:38-134 HandleOneCut"]}
{"id": "C41", "title": "Diving heuristics only return better feasible solutions", "statement": "When a diving heuristic reports success, the solution returned is within the original bounds, integral on the integer variables, satisfies every constraint within the tolerance, and has an objective strictly below the given incumbent value; whatever the NLP solver answered on the way, bounds used during the dive never leave the original box.", "quantifier": "all problems, all NLP answers, all selection rules", "why_tests_cant": "Adversarial NLP answers and unbounded dive length.", "anchors": ["src/CbcBonmin/Heuristics/BonHeuristicDive.cpp:90-302 solution"]}
{"id": "C42", "title": "Rounding in the MILP-rounding heuristic keeps coefficients with their variables", "statement": "The MILP built by the rounding heuristic has, for each linear constraint and variable, the coefficient of the problem's Jacobian, whatever the order in which the Jacobian nonzeros are given; each no-good cut added removes the current rounding and no other binary assignment.", "quantifier": "all Jacobian orders, all roundings", "why_tests_cant": "Tests use column ordered Jacobians.", "anchors": ["src/CbcBonmin/Heuristics/BonMilpRounding.cpp:85-351 solution"]}
{"id": "C43", "title": "Option validity flags are independent per algorithm", "statement": "Declaring an option valid for an algorithm makes it valid for that algorithm and does not change its validity for any other, in any order of declarations; an option never declared is valid for all.", "quantifier": "all sequences of declarations over all options and algorithms", "why_tests_cant": "Histories of bit-set updates.", "anchors": ["src/Interfaces/BonRegisteredOptions.hpp", "src/Interfaces/BonRegisteredOptions.cpp"]}
{"id": "C44", "title": "C interface delivers the solution and forwards the problem data", "statement": "After a C API solve the caller's solution arrays contain the solution, constraint values and objective found, and SOS constraints and branching priorities given at creation are those the solver uses.", "quantifier": "all problems created through the C API", "why_tests_cant": "Uninitialised memory and skipped outputs depend on the allocator and caller.", "anchors": ["src/Interfaces/BonStdCInterface.cpp:87-454", "src/Interfaces/BonStdInterfaceTMINLP.cpp", "src/Interfaces/BonStdInterfaceTMINLP.hpp"]}
{"id": "C45", "title": "Pseudo-cost bookkeeping equals the averages of observed degradations", "statement": "After any sequence of branching observations the per-object pseudo-costs are the averages of the observed objective change per unit of change in the variable, counts equal the number of observations, and no pseudo-cost is negative.", "quantifier": "all finite sequences of observations over all objects", "why_tests_cant": "History property.", "anchors": ["src/Algorithms/Branching/BonChooseVariable.cpp:981-1082 updateInformation"]}
{"id": "C46", "title": "Rows, bounds and Jacobian of added cuts stay aligned over any history", "statement": "After any sequence of adding quadratic and linear cuts, removing any of them and copying the problem, the extra rows are exactly the cuts still present in order: each row has its own cut's bounds and value at every point, and the Jacobian entries announced for that row are the derivatives of that cut, with the announced number of nonzeros.", "quantifier": "all finite add/remove/copy histories, all cuts, all points", "why_tests_cant": "History property over unbounded sequences of cut additions and removals.", "anchors": ["src/Algorithms/QuadCuts/BonTMINLP2Quad.cpp addCuts removeCuts eval_g eval_jac_g", "src/Algorithms/QuadCuts/BonQuadRow.cpp"]}
{"id": "C47", "title": "Evaluating a single added row succeeds and agrees with evaluating all rows", "statement": "Asking the NLP with quadratic cuts for one constraint value returns success and the same value as evaluating all the constraints.", "quantifier": "all problems with added rows, all row indices, all points", "why_tests_cant": "Only solvers using the single-row interface would notice, and only when cuts are present.", "anchors": ["src/Algorithms/QuadCuts/BonTMINLP2Quad.cpp eval_gi eval_grad_gi"]}
{"id": "C48", "title": "Scaling parameters can be asked from the NLP with quadratic cuts", "statement": "Asking the NLP with quadratic cuts for its scaling parameters returns after finitely many steps.", "quantifier": "all problems, all numbers of cuts", "why_tests_cant": "Non-termination.", "anchors": ["src/Algorithms/QuadCuts/BonTMINLP2Quad.cpp get_scaling_parameters"]}
{"id": "C49", "title": "The problem with objective moved to a constraint answers every query completely", "statement": "For the reformulated problem the scaling factors, the starting values and the gradient structure of every row, including the new variable and the new row, are all filled in when asked for.", "quantifier": "all problems, all flags with which the query is made", "why_tests_cant": "Uninitialised entries and null-pointer writes depend on which optional queries the solver makes.", "anchors": ["src/Algorithms/QuadCuts/BonTMINLPLinObj.cpp:58-123 get_scaling_parameters get_starting_point", "src/Algorithms/QuadCuts/BonTMINLPLinObj.cpp:191-208 eval_grad_gi"]}
{"id": "C50", "title": "The cutoff row of the feasibility NLP bounds the original objective", "statement": "When a cutoff is imposed on the feasibility NLP, the extra row is the objective of the original problem, so any point satisfying it improves on the incumbent, whichever objective the feasibility NLP minimises.", "quantifier": "all problems, all points, with the distance objective on or off", "why_tests_cant": "Shows only when both features are combined, on problems where the distance and the objective differ.", "anchors": ["src/Interfaces/BonTNLP2FPNLP.cpp:199-246 eval_g", "src/Interfaces/BonOsiTMINLPInterface.cpp:2340-2360"]}
{"id": "C51", "title": "Variable and row bounds handed to the NLP solver are the ones last set", "statement": "After any sequence of changes of all bounds, of all lower or upper bounds, or of one variable's bounds, mixed with starting-point changes and solves, the bounds the NLP solver is given are, variable by variable, the last ones set, and the originals when never set; the stored original bounds never change.", "quantifier": "all finite histories of bound changes, starting point changes, row additions and removals and solves", "why_tests_cant": "Order-dependent overwriting over unbounded histories.", "anchors": ["src/Interfaces/BonTMINLP2TNLP.cpp:238-278", "src/Interfaces/BonTMINLP2TNLP.cpp:346-358 get_bounds_info"]}
{"id": "C52", "title": "The stored solution is the one of the last solve", "statement": "After any sequence of solves and changes, the stored point, row activities, multipliers and objective are those handed over at the end of the last solve, with zero multipliers for rows added since.", "quantifier": "all finite histories of solves, row additions and removals, starting point and bound changes", "why_tests_cant": "History property.", "anchors": ["src/Interfaces/BonTMINLP2TNLP.cpp:474-509 finalize_solution", "src/Algorithms/QuadCuts/BonTMINLP2Quad.cpp:347-445"]}
{"id": "C53", "title": "Rounding and checking a solution returns exactly the largest constraint violation", "statement": "Checking the current solution replaces each integer variable by the nearest integer, leaves the others, stores the row values and the objective at that point, and returns the largest violation of any row bound there (0 when all hold).", "quantifier": "all problems, points, row bounds (with infinite sides), sets of integer variables", "why_tests_cant": "A maximum over all rows; tests only see a few rows and values.", "anchors": ["src/Interfaces/BonTMINLP2TNLP.cpp:668-696 check_solution"]}
{"id": "C54", "title": "Forcing a point to be fractional moves only integer variables that can move", "statement": "When a failed solve must be branched on, every integer variable that is not fixed gets a value that is not an integer, and fixed and continuous variables keep theirs.", "quantifier": "all variable types, bounds (with infinite sides) and points", "why_tests_cant": "The test that skips fixed variables is always true, which shows only on fixed variables.", "anchors": ["src/Interfaces/BonTMINLP2TNLP.cpp:617-629 force_fractionnal_sol"]}
{"id": "C55", "title": "A copy of the problem object is an equal and independent problem object", "statement": "Copying the problem object at any time gives an object that answers every query like the original, immediately and after any later sequence of calls made on both, and copying never reads outside the stored arrays.", "quantifier": "all histories before the copy, all histories after it", "why_tests_cant": "Internal pointers into reallocated storage; reads past the end are silent.", "anchors": ["src/Interfaces/BonTMINLP2TNLP.cpp:114-236 copy constructor gutsOfCopy"]}
{"id": "C56", "title": "Assignment of the problem object overwrites everything", "statement": "After assigning one problem object to another the target answers every query like the source, whatever had been done with the target before.", "quantifier": "all histories of both objects", "why_tests_cant": "Left-over state of the target shows only for particular combinations of histories.", "anchors": ["src/Interfaces/BonTMINLP2TNLP.cpp:144-165 operator=", "src/Interfaces/BonTMINLP2TNLP.cpp:181-236 gutsOfCopy"]}
{"id": "C57", "title": "Cuts flagged globally valid are valid over the original variable box", "statement": "An outer-approximation cut that is stored as globally valid at a node of the tree is satisfied by every point of the problem's original variable box that satisfies the convex constraint it came from, not only by the points of that node's box.", "quantifier": "all convex constraints, node boxes, linearisation points, small-coefficient thresholds and points of the original box", "why_tests_cant": "A cut that removes feasible points of other nodes silently changes the answer of a search; no run of one node shows it.", "anchors": ["src/Interfaces/BonOsiTMINLPInterface.cpp:1924-2107 getOuterApproximation (global flag, getColLower/getColUpper)"]}
{"id": "C58", "title": "The extracted linear relaxation is a relaxation", "statement": "For a convex problem every feasible point satisfies all rows and bounds of the linear program extracted at a point, possibly with a value for the additional objective column, and the linear objective there does not exceed the true objective value.", "quantifier": "all convex problems with linear or nonlinear objective, all linearisation points, thresholds and feasible points", "why_tests_cant": "Ranges over all feasible points of a continuous set and all problems.", "anchors": ["src/Interfaces/BonOsiTMINLPInterface.cpp:2378-2590 extractLinearRelaxation, addObjectiveFunction"]}
{"id": "C59", "title": "OA decomposition fathoms only when no better solution exists", "statement": "When OA decomposition reports a bound at or above its cutoff, every integer assignment whose fixed problem has a value below the cutoff is within the allowed gap of the reported upper bound; the upper bound is the initial cutoff or the value of an assignment that was solved, the cutoff is strictly below it, and no assignment that was solved is still better than the cutoff.", "quantifier": "all answers of the MILP, LP and NLP solvers that are valid for the problem, all cutoffs, decrements, gaps, limits and time-outs, any number of rounds", "why_tests_cant": "the rounds interact with arbitrary sub-solver answers and several early exits overwrite the bound with a large constant", "anchors": ["src/Algorithms/OaGenerators/BonOACutGenerator2.cpp:62-284 performOa", "src/Algorithms/OaGenerators/BonOaDecBase.cpp:357-400 post_nlp_solve"]}
{"id": "C60", "title": "OA decomposition and the OA feasibility check terminate", "statement": "If the integer variables can take finitely many values, each round of OA decomposition (and of the feasibility check) solves the NLP at an integer assignment not solved before, so the loop ends after at most as many rounds as there are assignments, whatever limits on solutions and local searches are set.", "quantifier": "all valid solver answers, all parameter settings", "why_tests_cant": "non-termination needs a particular combination of limits and solver answers and cannot be observed by a finite test", "anchors": ["src/Algorithms/OaGenerators/BonOACutGenerator2.cpp:62-284 performOa", "src/Algorithms/OaGenerators/BonOaFeasChecker.cpp:37-135 performOa"]}
{"id": "C61", "title": "Constraint activities reported after a strong-branching QP are those at the reported point", "statement": "After the branching QP is solved, the constraint values reported together with the point x0+d are the linearised constraint values g(x0)+J d at that point.", "quantifier": "all problems, base points and displacements", "why_tests_cant": "values are only slightly off in small cases and no test compares them with the linearisation at the reported point", "anchors": ["src/Interfaces/BonBranchingTQP.cpp:312-333 finalize_solution"]}
{"id": "C62", "title": "A copy of a solved problem object still knows its status", "statement": "After an NLP solve, the status queries answer, on the object and on any copy of it, with the status of that solve.", "quantifier": "all finite sequences of solves and copies", "why_tests_cant": "The status of a copy is whatever the memory held, so a test can see the right answer by luck.", "anchors": ["src/Interfaces/BonOsiTMINLPInterface.cpp:536-640 copy constructor", "src/Interfaces/BonOsiTMINLPInterface.cpp:2923-2927 isProvenOptimal"]}
{"id": "C63", "title": "Every NLP outcome is classified", "statement": "Whatever code the NLP solver ends with, the solve either throws or exactly one of the queries optimal, infeasible, unbounded, abandoned answers yes.", "quantifier": "all termination codes of the NLP solver and all states of the object", "why_tests_cant": "The stalling and time-limit codes cannot be provoked reliably by a test problem.", "anchors": ["src/Interfaces/Ipopt/BonIpoptSolver.cpp:304-343 solverReturnStatus", "src/Interfaces/BonOsiTMINLPInterface.cpp:2608-2766 solveAndCheckErrors", "src/Interfaces/BonOsiTMINLPInterface.cpp:2907-2955"]}
{"id": "C64", "title": "The search object's own status agrees with the status reported", "statement": "After each run the object's status query agrees with the status handed to the problem: optimal with success, infeasible with infeasible, and feasible or unknown after a limit, interrupt or error, according to whether a solution is known.", "quantifier": "all sequences of runs with any final states of the tree search", "why_tests_cant": "Needs a run that ends in an error, and then the status shown is the initial or the previous one.", "anchors": ["src/CbcBonmin/BonCbc.cpp:593-692", "src/CbcBonmin/BonCbc.cpp:64-75", "src/CbcBonmin/BonCbc.hpp:24-65"]}
{"id": "C65", "title": "SQP multipliers are reported in the interface's convention", "statement": "After a solve by the SQP solver the bound multipliers reported are nonnegative and zero away from the bound, and together with the reported constraint multipliers they satisfy the stationarity condition of the interface whenever the solver's own multipliers satisfy the solver's one.", "quantifier": "all problems, all final points and multipliers of the SQP solver", "why_tests_cant": "Sign conventions must hold for all active sets and all multiplier values.", "anchors": ["src/Interfaces/Filter/BonFilterSolver.cpp:612-642 callOptimizer"]}
{"id": "C66", "title": "Derivatives reach the SQP and QP solvers unchanged", "statement": "The gradient, constraint Jacobian and Hessian the SQP and QP solvers see are those of the problem: each row contains exactly the entries given by the problem for that row, whatever order they are given in, and the Hessian is evaluated with the interface's multipliers and the right objective factor.", "quantifier": "all sparse derivative structures and values, both index styles, all multipliers, both phases", "why_tests_cant": "Sparse layouts with offsets and permutations over unbounded sizes.", "anchors": ["src/Interfaces/Filter/BonFilterSolver.cpp:107-156, 477-509", "src/Interfaces/Filter/BonBqpdSolver.cpp:326-366"]}
{"id": "C67", "title": "Warm start differences rebuild the warm start", "statement": "Applying the difference between two SQP warm starts to the older one gives the newer one, and so does a chain of differences along a branch of the tree.", "quantifier": "all pairs of warm starts, chains of any length", "why_tests_cant": "Any pair of arrays of any sizes.", "anchors": ["src/Interfaces/Filter/BonFilterWarmStart.cpp:66-112 generateDiff, applyDiff"]}
{"id": "C68", "title": "An SQP solve starts where it was told to start", "statement": "In any sequence of warm start changes, solves and re-solves, each solve by the SQP solver starts from the last non-empty warm start set since the last disabling, and from the problem's starting point if there is none.", "quantifier": "all sequences of calls, all points", "why_tests_cant": "Histories of calls; the wrong start is unwritten memory.", "anchors": ["src/Interfaces/Filter/BonFilterSolver.cpp:363-398, 646-680, 737-770"]}
{"id": "C69", "title": "Branching information survives being copied", "statement": "Copying a problem's branching information (priorities, directions, pseudo-costs) yields an equal description, whatever was in the memory before.", "quantifier": "all branching descriptions with any subset of the arrays given, all previous contents of the memory used", "why_tests_cant": "Depends on what the memory of the new object held before.", "anchors": ["src/Interfaces/BonTMINLP.hpp:144-169 BranchingInfo"]}
{"id": "C70", "title": "The perturbation radii used are the last ones set", "statement": "After any sequence of settings, with arrays or NULL, the radii used are the last ones given, none if NULL was given last.", "quantifier": "all sequences of settings", "why_tests_cant": "Histories; the failing ones use released memory.", "anchors": ["src/Interfaces/BonTMINLP.cpp:89-97 SetPerturbationArray"]}
{"id": "C71", "title": "The test for general integer variables is exact", "statement": "A problem is said to have general integer variables exactly when some integer variable can take an integer value other than 0 and 1 within its bounds.", "quantifier": "all lists of variables with types and bounds, finite or infinite", "why_tests_cant": "All bounds, including fixed and infinite ones.", "anchors": ["src/Interfaces/BonTMINLP.cpp:112-132 hasGeneralInteger"]}
{"id": "C72", "title": "A starting point file restores the starting point written", "statement": "Reading a starting point file written for a problem and applying it to the same problem gives exactly the primal and dual starting values of the writer.", "quantifier": "all sizes, all values, with or without multipliers", "why_tests_cant": "End-of-file behaviour depends on what the writer left out.", "anchors": ["src/Interfaces/BonStartPointReader.cpp:14-55", "src/Interfaces/BonTNLPSolver.cpp:225-246"]}
{"id": "C73", "title": "User functions of the C interface see the point being evaluated", "statement": "In any sequence of evaluations in which a point is flagged as not new only when it is that of the previous evaluation, every user function is called with the point of the evaluation.", "quantifier": "all finite sequences of evaluation requests of all kinds, any number of variables", "why_tests_cant": "History property with a cached point.", "anchors": ["src/Interfaces/BonStdInterfaceTMINLP.cpp:245-346"]}
{"id": "C74", "title": "Freeing a C interface problem releases everything once", "statement": "After creation, any sequence of scaling calls and a free, every array allocated has been released exactly once.", "quantifier": "all problem sizes and all sequences of scaling calls", "why_tests_cant": "Leaks are invisible to functional tests.", "anchors": ["src/Interfaces/BonStdCInterface.cpp:181-296"]}
{"id": "C75", "title": "Option tables list every option once, under its category", "statement": "The option table for a kind of category lists exactly the options registered in categories of this kind, each once, in one section per category headed by the name of the category.", "quantifier": "all sets of options and categories, all category kinds", "why_tests_cant": "Sections could be split or headers repeated depending on the options registered.", "anchors": ["src/Interfaces/BonRegisteredOptions.cpp:166-340"]}
{"id": "C76", "title": "Candidate selection follows the chosen criterion", "statement": "With the criterion 'most fractional' the branching candidates are the most fractional unsatisfied objects of the best priority, most fractional first; with 'least fractional' they are the least fractional ones, least fractional first; as many as asked for or as there are.", "quantifier": "all object lists, priorities, infeasibilities, candidate limits and stable or unstable sorts", "why_tests_cant": "the set of candidates depends on the whole history of replacements in a fixed-size list; a test sees one order of the objects", "anchors": ["src/Algorithms/Branching/BonChooseVariable.cpp:307-584 setupList"]}
{"id": "C77", "title": "Answers of the strong-branching LP", "statement": "The status, objective value and solution reported for a child evaluated on the linear relaxation are those of the LP that was solved, with any number of cut rounds and in both warm-start modes.", "quantifier": "all LP outcomes, numbers of cut rounds, warm-start modes", "why_tests_cant": "needs every combination of outcome and mode, and the solution returned is not visible in the search result", "anchors": ["src/Algorithms/Branching/BonLpBranchingSolver.cpp:106-197 solveFromHotStart"]}
{"id": "C78", "title": "The branching variable chosen has the best score", "statement": "With every candidate tried in time and the node not proved infeasible, the object chosen is on the candidate list, its value (the score from strong branching, or the pseudo-cost estimate for a trusted object) is at least the score of every tried candidate, and at least the estimate of every trusted one.", "quantifier": "all lists of candidates, outcomes of the child solves, pseudo-costs and weights", "why_tests_cant": "ranges over all numbers and outcomes of candidates; a wrong choice only makes the search slower", "anchors": ["src/Algorithms/Branching/BonChooseVariable.cpp:598-773 chooseVariable", "src/Algorithms/Branching/BonChooseVariable.cpp:787-957 doStrongBranching"]}
{"id": "C79", "title": "Conclusions of strong branching are sound", "statement": "When the branching step reports the node infeasible, both children of some tried object were reported infeasible; a direction is forced, and bounds are tightened, only away from a child reported infeasible; a child is reported infeasible only when its solve proved it infeasible or its objective is not below the cutoff in force.", "quantifier": "all candidates, child outcomes, time limits, look-ahead settings, options", "why_tests_cant": "a wrong fixing cuts off solutions only for rare combinations of child outcomes", "anchors": ["src/Algorithms/Branching/BonChooseVariable.cpp:598-773 chooseVariable", "src/Algorithms/Branching/BonChooseVariable.cpp:787-957 doStrongBranching"]}
{"id": "C80", "title": "Unfinished child solves teach nothing", "statement": "The pseudo-costs change only with children that were solved to optimality or proved infeasible.", "quantifier": "all child outcomes, cutoffs and pseudo-costs", "why_tests_cant": "failed child solves are rare and the pseudo-costs are not visible outside", "anchors": ["src/Algorithms/Branching/BonChooseVariable.cpp:981-1025 updateInformation", "src/Algorithms/Branching/BonChooseVariable.cpp:1119-1144 HotInfo::updateInformation"]}
{"id": "C81", "title": "The look-ahead limit does not change what strong branching can do", "statement": "Strong branching with a look-ahead limit returns normally for all outcomes of the child solves.", "quantifier": "all candidates, child outcomes, look-ahead limits", "why_tests_cant": "the failure needs an infeasible child below the root with the option set", "anchors": ["src/Algorithms/Branching/BonChooseVariable.cpp:920-945 doStrongBranching"]}
{"id": "C82", "title": "Strengthened cuts are not weaker", "statement": "When a valid outer-approximation cut is strengthened, every point whose fractional discrete variables are rounded up or down and which satisfies the new cut satisfies the old one.", "quantifier": "all constraints, cuts, boxes, exact solvers and points", "why_tests_cant": "compares two half-spaces on all points", "anchors": ["src/Interfaces/BonCutStrengthener.cpp:38-134 HandleOneCut", "src/Interfaces/BonCutStrengthener.cpp:221-304 StrengthenCut"]}
{"id": "C83", "title": "Global and local strengthened cuts are valid where they claim", "statement": "With binary discrete variables, the cut handed back by the strengthening step is satisfied by every integral feasible point of the original bounds, and the additional local cut by every integral feasible point of the current bounds, for all strengthening types.", "quantifier": "all constraints, cuts, original and current boxes, strengthening types, exact solvers", "why_tests_cant": "validity of a cut is a statement about all points of the feasible set", "anchors": ["src/Interfaces/BonCutStrengthener.cpp:136-219 ComputeCuts"]}
{"id": "C84", "title": "Cut strengthening does not stop the program", "statement": "Strengthening an outer-approximation cut of a constraint or of the objective returns normally, for all points and boxes.", "quantifier": "all problems, points, boxes and random perturbations", "why_tests_cant": "the failure needs a derivative that vanishes at a bound of a binary variable", "anchors": ["src/Interfaces/BonCutStrengthener.cpp:221-304 StrengthenCut", "src/Interfaces/BonCutStrengthener.cpp:341-363 StrengtheningTNLP"]}
{"id": "C85", "title": "A dive comes to an end", "statement": "A call of a diving heuristic returns after finitely many NLP solves, without failing an assertion, when the NLP solver stays inside the bounds it is given and the selection rule returns an integer variable with a fractional value.", "quantifier": "all problems, all such solvers and rules, all starting relaxations inside their bounds", "why_tests_cant": "The number of rounds depends on the answers of the solver and on the widths of the bounds.", "anchors": ["src/CbcBonmin/Heuristics/BonHeuristicDive.cpp:66-302 HeuristicDive::solution"]}
{"id": "C86", "title": "Fractional diving rounds the variable closest to an integer it may take", "statement": "The fractional diving rule returns an integer variable with a fractional value and a direction whose rounded value lies within the current bounds, and no other fractional integer variable can be rounded within its bounds over a shorter distance; it returns nothing only if no fractional integer variable can be rounded within its bounds.", "quantifier": "all points, bounds, integer markers, tolerances and random draws", "why_tests_cant": "The choice compares all variables; ties are broken by a random number.", "anchors": ["src/CbcBonmin/Heuristics/BonHeuristicDiveFractional.cpp:54-108 selectVariableToBranch"]}
{"id": "C87", "title": "Vector-length diving weighs a rounding by the constraints it touches", "statement": "The vector-length diving rule returns, among the fractional integer variables, the one whose rounding against the objective changes the objective least per constraint in which the variable occurs, whatever the order of the Jacobian entries, and the rounded value lies within the bounds.", "quantifier": "all points in all boxes, gradients and Jacobian structures", "why_tests_cant": "Tests use problems whose Jacobian comes ordered by column and whose integer variables all occur in a constraint.", "anchors": ["src/CbcBonmin/Heuristics/BonHeuristicDiveVectorLength.cpp:54-159 setInternalVariables, selectVariableToBranch"]}
{"id": "C88", "title": "MilpRounding never hands the same integer assignment to the NLP solver twice", "statement": "Over any sequence of calls of the MILP rounding heuristic that share one list of no-good cuts, the integer assignments at which the heuristic fixes the integer variables before it solves an NLP are pairwise different, provided the MILP solver returns points satisfying the cuts and (number of variables)*(integer tolerance) < 1. No call faults.", "quantifier": "all problems, all call sequences of any length, all MILP and NLP solver answers (MILP answers within bounds and cuts), all orders of the Jacobian, all sorting routines meeting the std::sort contract", "why_tests_cant": "The cuts accumulate over the whole branch-and-bound search and interact with tolerances; a test exercises one short sequence.", "anchors": ["src/CbcBonmin/Heuristics/BonMilpRounding.cpp: MilpRounding::solution 85-351"]}
{"id": "C89", "title": "MilpRounding reports only better integral points accepted by the NLP solver", "statement": "When the MILP rounding heuristic reports a solution, the NLP solver succeeded with all integer variables fixed at integers and the other variables at the bounds the heuristic was started with; the reported value is the objective there and strictly below the given one; the integer variables are exactly integral; the point is within the starting bounds if the node's integer bounds are integers within them. When it reports nothing, value and point are left as they were.", "quantifier": "all problems, bounds, tolerances, cuts collected so far and solver answers within their bounds", "why_tests_cant": "Depends on arbitrary answers of two external solvers.", "anchors": ["src/CbcBonmin/Heuristics/BonMilpRounding.cpp: MilpRounding::solution 85-351"]}
{"id": "C90", "title": "The MILP built by HeuristicDiveMIP is the restriction of the problem to its linear variables", "statement": "For a problem that is affine in the variables declared linear, the MILP that the MIP dive builds has as feasible points exactly the values of the linear variables that, with the other variables as the dive left them, respect their bounds and every constraint containing a linear variable; its objective differs from the problem's by a constant; its integer marks are those of the linear variables.", "quantifier": "all problems affine in their linear variables, all Jacobian orders and index styles, all points and bounds", "why_tests_cant": "Row and column renumbering through a sorted sparse Jacobian is only visible as wrong coefficients; tests cover one sparsity pattern.", "anchors": ["src/CbcBonmin/Heuristics/BonHeuristicDiveMIP.cpp: HeuristicDiveMIP::solution 149-200, 277-366"]}
{"id": "C91", "title": "HeuristicDiveMIP ends, and reports only better integral points accepted by the NLP solver", "statement": "With NLP and MILP solvers that return points within the bounds given, a selection rule that returns fractional variables, bounded nonlinear integer variables and no duplicate Jacobian entries in linear columns, the MIP dive ends without fault; a reported point is integral, within the bounds it was started with, strictly below the incumbent, and was accepted by the NLP solver with all integer variables fixed. Otherwise value and point are left as they were.", "quantifier": "all problems, bounds, starting points, solver answers and selection rules", "why_tests_cant": "The number of rounds is not bounded by a constant and the solvers' answers are arbitrary.", "anchors": ["src/CbcBonmin/Heuristics/BonHeuristicDiveMIP.cpp: HeuristicDiveMIP::solution 94-489"]}
{"id": "C92", "title": "Row sense, right-hand side and range describe the current rows", "statement": "At any time the arrays returned by getRowSense, getRightHandSide and getRowRange describe exactly the row bounds getRowLower and getRowUpper: a value satisfies the sense/rhs/range triple of a row if and only if it lies between its bounds, the arrays have one entry per row and are NULL without rows, whatever rows were added or removed and whatever was asked before.", "quantifier": "every problem and every sequence of calls (queries, cuts applied, rows deleted, bounds changed, solves, exchange of the problem object)", "why_tests_cant": "The arrays are cached; staleness shows only after particular interleavings of queries and modifications.", "anchors": ["src/Interfaces/BonOsiTMINLPInterface.cpp: extractSenseRhsAndRange, getRowSense, getRightHandSide, getRowRange, freeCachedRowRim, use", "src/Interfaces/BonOsiTMINLPInterface.hpp: deleteRows, applyRowCuts"]}
{"id": "C93", "title": "getColSolution returns the last point set or found", "statement": "After any sequence of calls, getColSolution returns the point of the last solve or the point given to the last setColSolution, whichever is more recent.", "quantifier": "every problem with at least one variable and every sequence of well-sized calls", "why_tests_cant": "The answer depends on the whole history of calls, not on one call.", "anchors": ["src/Interfaces/BonOsiTMINLPInterface.cpp: getColSolution, setColSolution, setColLower, setColUpper, setRowPrice, hasBeenOptimized_"]}
{"id": "C94", "title": "Reported point, row activities, objective value and gradient belong together", "statement": "When the interface has solved a problem, the values returned by getRowActivity, getObjValue and getObjCoefficients are those of the point returned by getColSolution.", "quantifier": "every problem and every sequence of calls containing a solve whose solver reports correct values", "why_tests_cant": "Mixed-up reports need particular orders of solves and modifications, and nothing fails when they occur.", "anchors": ["src/Interfaces/BonOsiTMINLPInterface.cpp: getRowActivity, getObjValue, getObjCoefficients, getColSolution"]}
{"id": "C95", "title": "The warm-start basis built from the last solution distinguishes rows at their lower and upper bounds", "statement": "In FakeBasis mode, getWarmStart marks a row basic when its activity lies strictly between its bounds, and non-basic when at a bound, with different statuses for the lower and the upper bound; it can be asked for whenever there is a solution, rows added since included.", "quantifier": "every set of row bounds and activities", "why_tests_cant": "The basis only influences the speed or the cuts of another solver; a wrong status is not visible in results.", "anchors": ["src/Interfaces/BonOsiTMINLPInterface.cpp: build_fake_basis, getWarmStart"]}
{"id": "C96", "title": "A real parameter that setDblParam accepts is the one getDblParam returns", "statement": "If setDblParam returns true, getDblParam for that key returns the value given; if it returns false nothing changes; other keys are never affected.", "quantifier": "every key and every value", "why_tests_cant": "All keys and values must be tried together with all other keys.", "anchors": ["src/Interfaces/BonOsiTMINLPInterface.cpp: setDblParam, getDblParam"]}
{"id": "C97", "title": "getConstraintsViolation returns the largest violation over all rows", "statement": "getConstraintsViolation returns the largest amount by which any row of the current problem is violated at the given point (0 if none is) and the objective value there; getNonLinearitiesViolation returns the larger of that and the gap between the objective and its estimate.", "quantifier": "every problem, every point, every state of the interface reached by legal calls", "why_tests_cant": "It depends on whether constraint types were cached and on cuts added earlier.", "anchors": ["src/Interfaces/BonOsiTMINLPInterface.cpp: getConstraintsViolation, getNonLinearitiesViolation", "src/CbcBonmin/BonEcpCuts.cpp: generateCuts"]}
{"id": "C98", "title": "A warm start that is accepted is the one returned", "statement": "If setWarmStart accepts a warm start, the next getWarmStart returns it; if it refuses one, the previously stored warm start is kept.", "quantifier": "every warm-start mode, every validity test of the NLP solver and every stored warm start", "why_tests_cant": "Depends on the mode and on the warm-start class of the NLP solver in use.", "anchors": ["src/Interfaces/BonOsiTMINLPInterface.cpp: setWarmStart, getWarmStart, internal_setWarmStart, internal_getWarmStart"]}
{"id": "C99", "title": "ECP rounds only add cuts, never cut off a feasible point, and give a valid bound", "statement": "The ECP cut generator leaves the cuts it was given in place and adds cuts that every feasible point satisfies; it solves at most ecp_max_rounds LPs; when it solved one, the objective value it remembers is a lower bound on the optimum, infinite only if the problem has no feasible point.", "quantifier": "every LP solver, every outer approximation that produces valid cuts, every violation measure, all tolerances and numbers of rounds", "why_tests_cant": "Cuts are accumulated over rounds through a cloned LP; a test cannot show that no round, point or tolerance removes a feasible point.", "anchors": ["src/Algorithms/OaGenerators/BonEcpCuts.cpp: generateCuts", "src/Algorithms/BonSolverHelp.cpp: installCuts"]}
{"id": "C100", "title": "ECP rounds stop for one of the documented reasons", "statement": "Cuts are taken at the LP point, then at the optimum of the LP with all cuts so far, as long as the violation exceeds both tolerances; rounds end when the LP is infeasible, its point is within a tolerance, no cut was found or ecp_max_rounds rounds were made; the call is skipped exactly as the probability factor says.", "quantifier": "every sequence of rounds, all tolerances, depths and random numbers", "why_tests_cant": "The exit reason depends on the whole sequence of LP solutions.", "anchors": ["src/Algorithms/OaGenerators/BonEcpCuts.cpp: generateCuts, ecp_abs_tol, ecp_rel_tol, ecp_max_rounds, ecp_probability_factor"]}
{"id": "C101", "title": "doEcpRounds returns the objective value and violation after its rounds", "statement": "doEcpRounds(si, ...) performs the ECP rounds on si and returns the objective value of the resulting LP and, if asked, the violation at its point.", "quantifier": "every LP, all tolerances, numbers of rounds and previous calls", "why_tests_cant": "It depends on members left over from earlier calls.", "anchors": ["src/Algorithms/OaGenerators/BonEcpCuts.cpp: doEcpRounds"]}
{"id": "C102", "title": "add_only_violated_oa adds exactly the cuts violated at the point they are taken at", "statement": "With add_only_violated_oa, each round of ECP cuts adds exactly the outer-approximation cuts of the current LP point that this point violates.", "quantifier": "every number of rounds and every outer approximation", "why_tests_cant": "The first round behaves correctly; a difference shows only from the second round on.", "anchors": ["src/Algorithms/OaGenerators/BonEcpCuts.cpp: generateCuts (toCut)"]}
{"id": "C103", "title": "The NLP solves in the tree of the hybrid algorithm leave the NLP's bounds as they were", "statement": "After the cut generator that solves NLP relaxations at tree nodes returns or throws, the column bounds of the NLP interface are those it had before; during the solve integer variables have the node's bounds and the others their own.", "quantifier": "every node, every answer of the NLP solver, all bounds", "why_tests_cant": "The bounds are wrong only after particular NLP failures and then affect later solves.", "anchors": ["src/Algorithms/OaGenerators/BonOaNlpOptim.cpp: generateCuts"]}
{"id": "C104", "title": "A solution stored by the NLP solves in the tree is optimal and integer", "statement": "The generator stores a solution in the auxiliary information exactly when the NLP at the node was solved to optimality and all integer variables are within 1e-7 of an integer; the stored vector is the NLP point followed by its objective value; the cuts present before are kept.", "quantifier": "every NLP answer and every set of integer variables", "why_tests_cant": "Every combination of status and fractional components would have to be tried.", "anchors": ["src/Algorithms/OaGenerators/BonOaNlpOptim.cpp: generateCuts"]}
{"id": "C105", "title": "NLP relaxations are solved only at the tree nodes the options allow", "statement": "An NLP is solved exactly in the first pass at a node inside the tree not deeper than nlp_solve_max_depth and, if nlp_solves_per_depth s is below 1e10, when the random number is below s/2^depth.", "quantifier": "all depths, passes, option values and random numbers", "why_tests_cant": "The rule mixes depth, pass and a random draw.", "anchors": ["src/Algorithms/OaGenerators/BonOaNlpOptim.cpp: generateCuts, nlp_solve_max_depth, nlp_solves_per_depth"]}
{"id": "C106", "title": "Linear cuts that are slack at the last relaxation are taken off, others stay", "statement": "The generator of Cgl cuts on the outer approximation adds to the collection exactly those of its cuts that are tight at the last NLP solution and leaves the cuts already there.", "quantifier": "every number of cuts found in each round, all activities and all cuts present beforehand", "why_tests_cant": "Only a collection that is not empty on entry shows the difference.", "anchors": ["src/Algorithms/QuadCuts/BonLinearCutsGenerator.cpp: generateCuts"]}
{"id": "C107", "title": "Heuristics that start a second branch-and-bound release its storage exactly once", "statement": "Every call of RINS, local branching, fix-and-solve, the dummy pump and the pump for MINLPs returns normally and leaves exactly the solvers alive that were alive before the call.", "quantifier": "every state of the search, every answer of the inner search, every problem size", "why_tests_cant": "Leaks do not show in results and double releases only show with some allocators.", "anchors": ["src/CbcBonmin/Heuristics/BonHeuristicRINS.cpp: solution", "src/CbcBonmin/Heuristics/BonFixAndSolveHeuristic.cpp: solution", "src/CbcBonmin/Heuristics/BonDummyPump.cpp: solution", "src/CbcBonmin/Heuristics/BonHeuristicLocalBranching.cpp: solution", "src/CbcBonmin/Heuristics/BonPumpForMinlp.cpp: solution", "src/CbcBonmin/Heuristics/BonLocalSolverBasedHeuristic.cpp: doLocalSearch"]}
{"id": "C108", "title": "A copy of the set-up is complete and independent", "statement": "Copying a set-up, with or without another NLP, succeeds, the copy has the same number of heuristics, and copy and original can both be deleted, in any order.", "quantifier": "every set-up: solvers, branching objects, heuristics, message handler", "why_tests_cant": "Ownership errors appear only in some orders of destruction.", "anchors": ["src/Algorithms/BonBabSetupBase.cpp: BabSetupBase copy constructors, destructor", "src/Algorithms/BonBonminSetup.cpp: BonminSetup copy constructors"]}
{"id": "C109", "title": "The frequency of RINS adapts within fixed limits", "statement": "From construction on, however often RINS is called and whatever it finds, it works at the nodes whose number is a multiple of a frequency between 10 and 10000; the frequency is halved (not below 10) after a success, doubled (not above 10000) after a failure with an incumbent and unchanged otherwise; so in any 10000 consecutive node numbers RINS is due at least once.", "quantifier": "all sequences of calls with all arguments and inner answers", "why_tests_cant": "Needs all histories of successes and failures.", "anchors": ["src/CbcBonmin/Heuristics/BonHeuristicRINS.cpp: solution, howOften_"]}
{"id": "C110", "title": "RINS fixes exactly the integer variables on which incumbent and relaxation agree", "statement": "If the incumbent is within 1/2 of an integer point z inside the original bounds, RINS fixes an integer variable exactly when the relaxation is within 1e-6 of the (clipped) incumbent there, at the value of z, changes no other bound, and every point that was within the bounds and takes the values of z stays so.", "quantifier": "all incumbents, relaxation solutions, bounds and lists of integer variables", "why_tests_cant": "Ranges over all points and bounds, including infinite ones.", "anchors": ["src/CbcBonmin/Heuristics/BonHeuristicRINS.cpp: solution"]}
{"id": "C111", "title": "Local branching explores every new incumbent", "statement": "Whenever the number of solutions has grown since the last call, local branching searches around the new incumbent; and it never searches twice at the same number of solutions.", "quantifier": "all sequences of calls and all inner answers", "why_tests_cant": "Depends on who found the last solution and in which order.", "anchors": ["src/CbcBonmin/Heuristics/BonHeuristicLocalBranching.cpp: solution, numberSolutions_"]}
{"id": "C112", "title": "Local branching is not used when an integer variable is not binary", "statement": "If validation finds an integer variable whose bounds are not 0 and 1, the heuristic never runs.", "quantifier": "all bounds and variable types, all calls", "why_tests_cant": "The message says so; whether the search obeys depends on the later call.", "anchors": ["src/CbcBonmin/Heuristics/BonHeuristicLocalBranching.cpp: validate, solution"]}
{"id": "C113", "title": "A solution reported by the local-search heuristics is one of the original problem", "statement": "If RINS, local branching or the pump for MINLPs reports a solution, the value reported is the objective at the reported point, it is below the cutoff and the point is within the bounds of the problem searched; otherwise the caller's arrays are untouched.  The pump for MINLPs searches exactly at the root, in the first pass, while there is no solution.", "quantifier": "every state, every inner search that is right about its own problem", "why_tests_cant": "Ranges over all inner searches.", "anchors": ["src/CbcBonmin/Heuristics/BonLocalSolverBasedHeuristic.cpp: doLocalSearch", "src/CbcBonmin/Heuristics/BonHeuristicRINS.cpp: solution", "src/CbcBonmin/Heuristics/BonHeuristicLocalBranching.cpp: solution", "src/CbcBonmin/Heuristics/BonPumpForMinlp.cpp: solution"]}
{"id": "C114", "title": "Fix-and-solve hands back what its local search finds", "statement": "A call of fix-and-solve returns normally, and if its local search found a solution that solution and its value are reported.  It starts that search exactly at the node numbers 0, 100, ..., 1000 while there is no solution and at least a third of the branching objects are satisfied.", "quantifier": "every node number, every list of branching objects, every inner answer", "why_tests_cant": "Ranges over all inner searches; the failure is undefined behaviour.", "anchors": ["src/CbcBonmin/Heuristics/BonFixAndSolveHeuristic.cpp: solution"]}
{"id": "C115", "title": "Rounding in the feasibility pump gives an integer point inside the bounds", "statement": "Rounding a point that satisfies the bounds and the rows with both sides equal to 1 returns normally, and every integer variable of the result is within the integer tolerance of an integer and within 1e-6 of its bounds.", "quantifier": "all problems, bounds, Jacobians and points", "why_tests_cant": "The special treatment of rows of the form sum = 1 depends on the fractional parts of all their variables.", "anchors": ["src/CbcBonmin/Heuristics/BonHeuristicFPump.cpp: RoundingFPump::round, gutsOfConstructor"]}
{"id": "C116", "title": "Every point the feasibility pump projects on is integral and inside the bounds", "statement": "If rounding does its part on the points met, a run of the pump returns normally (no assertion fails, no old target is used before there is one), makes at most 200 projections, and every target is integral within the tolerance and within 1e-6 of the bounds, whatever the NLPs answer and whatever the random numbers and the order of ties.", "quantifier": "all NLP answers, random numbers, orders of sorting, numbers of iterations", "why_tests_cant": "Ranges over all answers and random draws of up to 200 iterations.", "anchors": ["src/CbcBonmin/Heuristics/BonHeuristicFPump.cpp: HeuristicFPump::solution"]}
{"id": "C117", "title": "The feasibility pump does not project twice in a row on the same point", "statement": "Consecutive targets differ by more than the integer tolerance in some integer variable.", "quantifier": "all NLP answers and random numbers", "why_tests_cant": "Cycles depend on the geometry and on the random numbers.", "anchors": ["src/CbcBonmin/Heuristics/BonHeuristicFPump.cpp: HeuristicFPump::solution"]}
{"id": "C118", "title": "A solution of the feasibility pump is one of the problem with its integers fixed", "statement": "The pump works only at the root in the first pass; it reports a solution only if the last NLP, with every integer variable fixed at an integer (inside its bounds if these are integers and the relaxations were inside) and all other bounds unchanged, was solved successfully, and then the value reported is the objective there and strictly below the value passed in; otherwise the arguments are untouched.", "quantifier": "all problems and NLP answers", "why_tests_cant": "Ranges over all runs.", "anchors": ["src/CbcBonmin/Heuristics/BonHeuristicFPump.cpp: HeuristicFPump::solution"]}
{"id": "C119", "title": "What the options file says is what is used", "statement": "A value given in the options file for an option, under its full name `bonmin.option` or without the prefix, is the value in force once the set-up is initialised, for every algorithm.", "quantifier": "all options files, options, algorithms and problems", "why_tests_cant": "Every algorithm writes its own presets; whether one of them overrides a user's value depends on the prefix used and on the combination of options.", "anchors": ["src/Algorithms/BonBonminSetup.cpp:397-917 initializeBBB initializeBHyb", "src/Algorithms/BonBabSetupBase.cpp:349-401 gatherParametersValues"]}
{"id": "C120", "title": "Parameters of the set-up are those of the options", "statement": "After initialisation each integer and double parameter of the set-up (limits, tolerances, strong branching counts, log levels) has the value of its option when the user has given one.", "quantifier": "all option sets, all parameters, all algorithms", "why_tests_cant": "Parameters are gathered once and then changed in several places depending on other options.", "anchors": ["src/Algorithms/BonBabSetupBase.cpp:349-401 gatherParametersValues", "src/Algorithms/BonBonminSetup.cpp:399-424, 680, 902"]}
{"id": "C121", "title": "Choosing an algorithm sets its documented components", "statement": "When the user gives no value for them, choosing B-OA, B-QG, B-Hyb, B-Ecp or B-iFP switches the outer approximation decomposition, the feasibility pump, the NLP solve frequency and the ECP cuts on or off as documented for that algorithm.", "quantifier": "all option sets that leave the component's option unset", "why_tests_cant": "The presets are written through the option store under two prefixes and may be refused or hidden by other entries.", "anchors": ["src/Algorithms/BonBonminSetup.cpp:640-700 initializeBHyb"]}
{"id": "C122", "title": "The iterated feasibility pump algorithm may conclude from its pump", "statement": "With algorithm B-iFP and no other option given, the feasibility pump generator is installed with the permission to declare the problem solved or infeasible (fp_pass_infeasible), which the algorithm sets for it.", "quantifier": "all option sets selecting B-iFP and leaving fp_pass_infeasible unset", "why_tests_cant": "The permission is written under one name and read under another; the effect is seen only when the pump ends by itself.", "anchors": ["src/Algorithms/BonBonminSetup.cpp:670-681", "src/Algorithms/OaGenerators/BonFpForMinlp.cpp:29-47"]}
{"id": "C123", "title": "Algorithms based on linear relaxations always check integer points", "statement": "For every algorithm other than B-BB, and whatever the options, the list of cut generators ends with the two feasibility checkers (one called at every node and again after it adds cuts, one at solutions) and no other; B-BB has no cut generator.", "quantifier": "all option sets, problems and initial LP choices", "why_tests_cant": "A missing checker makes wrong optimal solutions possible only on instances where the LP returns an integer point violating the nonlinear constraints.", "anchors": ["src/Algorithms/BonBonminSetup.cpp:795-815"]}
{"id": "C124", "title": "MILP cut generators follow their frequency options", "statement": "A MILP cut generator whose frequency is 0 or 100 (documented as: do not generate cuts) is not installed; otherwise it is installed once with that frequency.", "quantifier": "all eight generators, all frequencies, all algorithms", "why_tests_cant": "Eight copies of the same code with hand-written option names.", "anchors": ["src/Algorithms/BonBonminSetup.cpp:188-395 registerMilpCutGenerators addMilpCutGenerators"]}
{"id": "C125", "title": "Primal heuristics run exactly when asked for", "statement": "In B-BB a heuristic whose option is given is installed if and only if the option says yes.", "quantifier": "all option sets and problems, eleven heuristics", "why_tests_cant": "The list is built by a long sequence of reads of a store that the heuristics' constructors themselves modify.", "anchors": ["src/Algorithms/BonBonminSetup.cpp:499-615, 817-891"]}
{"id": "C126", "title": "Priorities and special ordered sets reach the tree search", "statement": "After a successful set-up the branching objects of the tree search contain every integer variable with the user's priority and every special ordered set with its priority.", "quantifier": "all problems with well formed branching data, option sets and algorithms", "why_tests_cant": "Which objects are made depends on algorithm, branching rule and container together; most combinations are never run.", "anchors": ["src/Algorithms/BonBonminSetup.cpp:459-497", "src/Algorithms/BonBabSetupBase.cpp addSos setPriorities", "src/CbcBonmin/BonCbc.cpp:174-330"]}
{"id": "C127", "title": "User pseudo-costs are used or refused", "statement": "When the user gives pseudo-costs and the set-up succeeds, every integer variable's branching object carries them.", "quantifier": "all problems, option sets and algorithms", "why_tests_cant": "A lost pseudo-cost only changes the order of the search.", "anchors": ["src/Algorithms/BonBabSetupBase.cpp setPriorities", "src/CbcBonmin/BonCbc.cpp:174-330"]}
{"id": "C128", "title": "A heuristic's second search can be set up", "statement": "Whenever a set-up succeeds, the set-up of the second branch-and-bound of each of its heuristics succeeds too, and so does handing its objects to the tree search.", "quantifier": "all problems, option sets and installed heuristics", "why_tests_cant": "The second set-up happens only when the heuristic runs, under a different prefix and another algorithm.", "anchors": ["src/Heuristics/BonLocalSolverBasedHeuristic.cpp:60-111", "src/Algorithms/BonBonminSetup.cpp:43-56, 459-497"]}
{"id": "C129", "title": "Limits of sub-algorithms stay within those of the run", "statement": "The time and solution limits of every sub-algorithm (decomposition cut generator or heuristic) are at most those of the whole run.", "quantifier": "all problems and option sets", "why_tests_cant": "A limit that is not passed on only shows on runs longer than the limit.", "anchors": ["src/Algorithms/OaGenerators/BonOaDecBase.cpp parameters", "src/Algorithms/BonBonminSetup.cpp:43-56", "src/Heuristics/BonLocalSolverBasedHeuristic.cpp:60-111"]}
{"id": "C130", "title": "Options under the documented prefixes reach the sub-algorithm", "statement": "A node limit in the option file under the documented prefix of a heuristic (doc/options_set.tex) is that of its second search.", "quantifier": "all heuristics with a second search, all values and option sets", "why_tests_cant": "A wrong prefix is silent: the option is accepted and ignored.", "anchors": ["doc/options_set.tex:104-110", "src/Heuristics/BonHeuristicLocalBranching.cpp", "src/Heuristics/BonHeuristicRINS.cpp", "src/Algorithms/OaGenerators/BonFpForMinlp.cpp"]}
{"id": "C131", "title": "A set-up can be copied onto another nonlinear program", "statement": "After the set-up was made, from a problem or from an interface, it can be copied onto another nonlinear program with the same algorithm and parameters.", "quantifier": "all problems, option sets and objects given", "why_tests_cant": "The copy is made only inside heuristics.", "anchors": ["src/Algorithms/BonBonminSetup.cpp:21-56", "src/Algorithms/BonBabSetupBase.cpp copy constructors"]}
{"id": "C132", "title": "Initialising again starts afresh", "statement": "Initialising the same set-up object a second time gives the algorithm named in the new options, with one pair of feasibility checkers.", "quantifier": "all problems and pairs of option sets", "why_tests_cant": "Needs two runs in one process with different options.", "anchors": ["src/Algorithms/BonBonminSetup.cpp:140-186, 459-815"]}
{"id": "C133", "title": "Without a disjunction the strengthened cut is the tightest one asked for", "statement": "With no disjunction type selected, strengthening a linearisation cut never changes its coefficients; it leaves the cut alone when the cut is already active at the current point or globally valid strengthening was not asked for; it adds an extra (local) cut only when local strengthening was asked for and only if that cut differs from the global one by at least 1e-4; and whenever the bounding problem is solved, the global cut's right-hand side is exactly the extreme value of its left-hand side over the original box and the local cut's is the extreme value over the node's box.", "quantifier": "all cuts, all cut types, all boxes, all current points and all answers of the bounding solver", "why_tests_cant": "a test fixes one function and one box; the claim is about the extreme value over every point of every box", "anchors": ["src/Interfaces/BonCutStrengthener.cpp: CutStrengthener::ComputeCuts, StrengthenCut"]}
{"id": "C134", "title": "The MILP of the rounding heuristic is the linear part of the problem with the distance to the node's point", "statement": "When the MILP rounding heuristic runs, it asks its MILP solver about exactly one problem: the linear constraints of the original problem with their original bounds and the node's variable bounds, the integrality of the original problem, the no-good cuts found so far, and an objective that for points with 0-1 integer components equals, up to a constant, the squared distance to the node's solution on the integer components.", "quantifier": "all problems (any number of variables, rows and Jacobian entries listed by columns), all node points and boxes, all lists of earlier no-good cuts", "why_tests_cant": "tests compare the answer of one MILP on one instance; whether the MILP posed is the intended one for every instance is a statement about the construction", "anchors": ["src/CbcBonmin/Heuristics/BonMilpRounding.cpp: MilpRounding::solution"]}
{"id": "C135", "title": "Candidates sorted by pseudo-costs are the ones with the largest expected change of the objective", "statement": "With the candidate_sort_criterion best-ps-cost, the candidate list consists of the unsatisfied objects of the best priority whose expected change of the objective is largest, in decreasing order; with worst-ps-cost, of those whose expected change is smallest, in increasing order. The expected change of a side is the object's average observed change (or the average of all objects when it has no observation) times the object's estimate, and the two sides are combined with the max-min weight.", "quantifier": "all lists of objects, all pseudo-cost tables with non-negative totals, all weights in [0,1] and all numbers of candidates", "why_tests_cant": "the list is maintained by in-place replacement with a running minimum; whether the largest ones survive depends on the order of the objects, of which there are factorially many", "anchors": ["src/Algorithms/Branching/BonChooseVariable.cpp: BonChooseVariable::setupList, computeUsefulness, computeMultipliers"]}
{"id": "C136", "title": "The object branched on is the best one, and the branching direction is its own", "statement": "When the choice is between several objects, the direction handed to the branching (down first or up first) is the object's preferred way if it has one and was tried, otherwise the side with the smaller expected change of that same object; and when all objects are trusted the object chosen is the one of largest estimate.", "quantifier": "all candidate lists, all pseudo-costs, all outcomes of strong branching", "why_tests_cant": "direction and object are set by three different code paths; a test exercises one combination of trusted and tried candidates at a time", "anchors": ["src/Algorithms/Branching/BonChooseVariable.cpp: BonChooseVariable::chooseVariable"]}
{"id": "C137", "title": "Strong branching is done on exactly the untrusted candidates, in the order of the list", "statement": "The candidates on which children are solved are, in the order of the list, the ones that cannot be trusted yet: all of them if number_before_trust is 0, the first min_number_strong_branch ones, all when trusting is postponed until every object is trusted, and otherwise those with fewer than number_before_trust observations on one of the sides (at the root: with no observation at all). All of them are tried unless the time limit or the look-ahead limit stops it.", "quantifier": "all lists, all pseudo-cost tables and all options", "why_tests_cant": "the condition combines five options with two counters per object; enumerating the combinations with all lists is not possible", "anchors": ["src/Algorithms/Branching/BonChooseVariable.cpp: BonChooseVariable::chooseVariable, doStrongBranching"]}
{"id": "C138", "title": "The direction used to estimate a child keeps fixed variables and equality rows", "statement": "When strong branching by curvature reports a curvature, the direction it was computed along does not move variables whose bounds coincide, changes no equality row by more than 1e-6 to first order, and the curvature is the quadratic form of the Hessian of the Lagrangian along that direction.", "quantifier": "all problems, points, multipliers, bounds, steps and all linear solvers, including ones whose answers are inaccurate", "why_tests_cant": "the guard matters only when the linear solver loses accuracy, which a test cannot provoke at will, and its effect depends on the sign of the largest residual", "anchors": ["src/Interfaces/BonCurvatureEstimator.cpp: CurvatureEstimator::ComputeNullSpaceCurvature, PrepareNewMatrixStructure, SolveSystem"]}
{"id": "C139", "title": "Strong branching by curvature never fails, whatever the search does", "statement": "Any history of bound changes, node solves, marks, hot starts and unmarks that obeys the rules of the interface runs without invalid memory access and without a null dereference.", "quantifier": "all problems, all histories of any length, all linear solvers", "why_tests_cant": "the state kept between calls (point, multipliers, two projection spaces, Hessian values) depends on the whole history; problems without constraints are a special case that is easily forgotten", "anchors": ["src/Algorithms/Branching/BonCurvBranchingSolver.cpp: markHotStart, solveFromHotStart, unmarkHotStart", "src/Interfaces/BonCurvatureEstimator.cpp: ComputeNullSpaceCurvature"]}
{"id": "C140", "title": "Estimates do not depend on what was tried before", "statement": "The status and value reported for a child are the same as if the strong branching had been started afresh at that node, whatever nodes and children were handled earlier and whatever the user's functions last evaluated.", "quantifier": "all problems, all earlier histories, all sequences of trials since the mark, user functions that recompute always or only when told that the arguments changed", "why_tests_cant": "needs all pairs of histories leading to the same node; stale caches show only when the values kept happen to differ", "anchors": ["src/Interfaces/BonCurvatureEstimator.cpp: ComputeNullSpaceCurvature (new_x, new_bounds, new_mults, eval_h)", "src/Algorithms/Branching/BonCurvBranchingSolver.cpp: solveFromHotStart"]}
{"id": "C141", "title": "The estimate of a child is the node's value plus half the curvature of an admissible step", "statement": "A trial either reports an error and leaves the value alone, or reports the iteration limit (never optimality) with the value of the node plus half the curvature of a direction that keeps the fixed variables; with a positive semidefinite Hessian it is not below the value of the node, and it equals the value of the node if the node's solution stays within the bounds of the child and the linear systems are solved.", "quantifier": "all problems with at least one constraint, all histories, all trials", "why_tests_cant": "the relation quantifies over all problems and steps; tests see single numbers", "anchors": ["src/Algorithms/Branching/BonCurvBranchingSolver.cpp: solveFromHotStart", "src/Interfaces/BonOsiTMINLPInterface.cpp: markHotStart, solveFromHotStart, unmarkHotStart"]}
{"id": "C142", "title": "Trying children leaves the node as it was", "statement": "After the hot starts at a node are ended, the status, the solution, the multipliers and the objective value reported by the interface are those from before the mark.", "quantifier": "all problems, all histories, all sequences of trials", "why_tests_cant": "status and solution are restored through different members; only comparing before and after for every sequence of trials shows what is left behind", "anchors": ["src/Interfaces/BonOsiTMINLPInterface.cpp: markHotStart, solveFromHotStart, unmarkHotStart", "src/Algorithms/Branching/BonCurvBranchingSolver.cpp"]}
{"id": "C143", "title": "Second searches of heuristics are limited by default", "statement": "When the user gives no limit for it, a second search started by a heuristic (RINS, local branching, fix-and-solve, dummy pump, pump for MINLP) explores at most 1000 nodes, finds at most 5 solutions and takes at most 60 seconds (30 for the pump for MINLP, which runs the iterated feasibility pump); a limit that the user gives under the heuristic's prefix, or without prefix, is used instead.", "quantifier": "all problems, all option files, all heuristics that are installed, all cutoffs and elapsed times", "why_tests_cant": "Which defaults are in force depends on all heuristics installed by all options and on the order in which set-up writes the shared option list.", "anchors": ["src/CbcBonmin/Heuristics/BonLocalSolverBasedHeuristic.cpp: LocalSolverBasedHeuristic::setupDefaults, doLocalSearch", "src/CbcBonmin/Heuristics/BonPumpForMinlp.cpp: PumpForMinlp::setupDefaults", "src/Algorithms/BonBonminSetup.cpp: BonminSetup::initializeBBB, initializeBHyb, clone"]}
{"id": "C144", "title": "A copy of an NLP interface is seen like its source", "statement": "Copying an OsiTMINLPInterface that was given a problem succeeds, leaves the source as it is, and the copy poses the same problem to the solvers, reports the same bounds and the same solution point, and takes its linearizations from the same problem as the source.", "quantifier": "every history of operations on any number of interfaces (new problem, use, bounds, switches, solves, linearizers, copies, assignments, cuts), every interface, every family of user problems", "why_tests_cant": "The state copied depends on the whole history, in particular on the mode the interface was switched to and on what was set before; a test copies an interface in one or two states.", "anchors": ["src/Interfaces/BonOsiTMINLPInterface.cpp:535-626 OsiTMINLPInterface(const OsiTMINLPInterface&)", "src/Interfaces/BonOsiTMINLPInterface.cpp:1734-1740 set_linearizer"]}
{"id": "C145", "title": "Copies of an NLP interface are independent", "statement": "What is done to one OsiTMINLPInterface (bounds, new problems, switches, solves, cuts, strong branching, assignments) is never seen through another interface that was copied from it or that it was copied from: the problem posed, bounds, point, cuts and strong-branching trials of the others stay the same.", "quantifier": "every reachable state, every sequence of operations on the other interfaces", "why_tests_cant": "Sharing shows only for particular interleavings of operations on two objects behind shared pointers.", "anchors": ["src/Interfaces/BonOsiTMINLPInterface.cpp:535-626", "src/Interfaces/BonOsiTMINLPInterface.cpp:3039-3095 markHotStart, solveFromHotStart, unmarkHotStart", "src/Algorithms/Branching/BonQpBranchingSolver.cpp:51-104"]}
{"id": "C146", "title": "Assignment of NLP interfaces makes the left side like the right side", "statement": "Assigning an OsiTMINLPInterface that was given a problem to another one succeeds, and afterwards the left-hand side poses the same problem and reports the same bounds and point as the right-hand side.", "quantifier": "every reachable state, every pair of different interfaces", "why_tests_cant": "Which members the operator forgets depends on the history of both objects.", "anchors": ["src/Interfaces/BonOsiTMINLPInterface.cpp:637-752 operator="]}
{"id": "C147", "title": "A new problem replaces the old one everywhere", "statement": "After an interface was given a new problem (setModel or use), the problem solved, the bounds, the point and the cuts are all those of the new problem, whatever was solved or linearized before.", "quantifier": "every reachable state, every new problem", "why_tests_cant": "The stale parts are arrays sized for the old problem: the effect depends on the sizes of both problems and on what was called before.", "anchors": ["src/Interfaces/BonOsiTMINLPInterface.cpp:498-512 setModel", "src/Interfaces/BonOsiTMINLPInterface.cpp:3119-3123 use", "src/Interfaces/BonOsiTMINLPInterface.cpp:1799-1834 initializeJacobianArrays", "src/Interfaces/BonOsiTMINLPInterface.cpp:1921-1998 getOuterApproximation"]}
{"id": "C148", "title": "The status after a solve is that of the problem posed", "statement": "After a solve through an interface the status and the point reported belong to the problem that was posed, also when the main solver ends with an error and other solvers are tried, and in feasibility mode.", "quantifier": "every reachable state, every sequence of answers of the NLP solvers, any number of further solvers", "why_tests_cant": "Needs a solver failure in feasibility mode.", "anchors": ["src/Interfaces/BonOsiTMINLPInterface.cpp:2607-2684 solveAndCheckErrors"]}
{"id": "C149", "title": "Feasibility mode lasts until it is switched off", "statement": "After switching an interface to the feasibility problem (distance objective or local-branching row) every later solve is one of that problem with the parameters given and the bounds as they are at the time, until it is switched again; switching back restores the original problem with the current bounds.", "quantifier": "every reachable state, every switch, every further history without another switch or problem on that interface", "why_tests_cant": "Ranges over arbitrary interleavings between the switch and the solve.", "anchors": ["src/Interfaces/BonOsiTMINLPInterface.cpp:2277-2362 switchToFeasibilityProblem, switchToOriginalProblem, solveFeasibilityProblem"]}
{"id": "C150", "title": "Cuts are made of the Jacobian of the problem posed", "statement": "Outer approximation through an interface uses the positions of the Jacobian and the linearity of the rows of the problem currently posed, and stays within its arrays, whatever was done before.", "quantifier": "every reachable state of an interface that was given a problem and has no user linearizer", "why_tests_cant": "The arrays are cached at the first call: the effect depends on everything that happened since.", "anchors": ["src/Interfaces/BonOsiTMINLPInterface.cpp:1799-1834, 1921-1998", "src/Interfaces/BonTNLP2FPNLP.cpp:101-135, 259-380", "src/Interfaces/BonTNLP2FPNLP.hpp:165-179"]}
{"id": "C151", "title": "The linear relaxation can be taken in every mode", "statement": "Extracting a linear relaxation through an interface succeeds and is made of the Jacobian and the linearity of the problem posed, also when the interface is switched to a feasibility problem with a local-branching row.", "quantifier": "every reachable state of an interface that was given a problem and has no user linearizer", "why_tests_cant": "Needs the combination of a switch and a decomposition algorithm on top of it.", "anchors": ["src/Interfaces/BonOsiTMINLPInterface.cpp:2377-2421 extractLinearRelaxation"]}
{"id": "C152", "title": "Strong-branching trials are about the problem posed when strong branching started", "statement": "Between markHotStart and unmarkHotStart the trial solves of an interface with a strong-branching solver are about the problem posed, with the bounds it had, at markHotStart, whatever is done to other interfaces meanwhile.", "quantifier": "every reachable state, every history of operations on other interfaces", "why_tests_cant": "The solver object may be shared with any copy.", "anchors": ["src/Interfaces/BonOsiTMINLPInterface.cpp:3039-3095", "src/Algorithms/Branching/BonQpBranchingSolver.cpp:51-104"]}
{"id": "C153", "title": "A conclusion of the feasibility pump is right", "statement": "When the feasibility pump for MINLPs, run as a cut generator, reports the infinite bound that makes the node be discarded, no integer feasible point of the node is better than the current cutoff.", "quantifier": "every run of the pump, every sequence of answers of honest MILP and NLP solvers, every limit", "why_tests_cant": "A wrong conclusion needs a particular interplay of limits and answers; a test only sees that some solution was lost.", "anchors": ["src/Algorithms/OaGenerators/BonFpForMinlp.cpp:63-245 performOa", "src/Algorithms/BonSubMipSolver.cpp:190-375"]}
{"id": "C154", "title": "The pump's MILP ranks points by distance to the rounded point", "statement": "The objective the feasibility pump gives its MILP ranks any two binary points by their distance to the rounding of the NLP point, for every NLP point within the unit box.", "quantifier": "every problem size, every pattern of integer variables, every NLP point", "why_tests_cant": "Ranges over all points; a test samples interior ones.", "anchors": ["src/Algorithms/OaGenerators/BonFpForMinlp.cpp:275-304 set_fp_objective"]}
{"id": "C155", "title": "Solutions of the pump improve", "statement": "Every solution the feasibility pump hands over was proven optimal with the integer variables fixed at integers, is better than the cutoff it was called with and than all it handed over before, and finding one never aborts the program.", "quantifier": "every run of the pump, every sequence of answers of the solvers", "why_tests_cant": "The values depend on a whole sequence of solves; the failing values are isolated.", "anchors": ["src/Algorithms/OaGenerators/BonFpForMinlp.cpp:127-187", "src/Algorithms/OaGenerators/BonOaDecBase.cpp:352-394 post_nlp_solve"]}
{"id": "C156", "title": "The pump ends and leaves the NLP as it was", "statement": "The feasibility pump ends after finitely many sub-MIPs, and after it, as after every method run in the same frame, the variable bounds of the nonlinear solver are those it had before, however the method is left.", "quantifier": "every run of the pump and of the frame, every sequence of answers", "why_tests_cant": "Needs all sequences of answers, including the ones that raise exceptions.", "anchors": ["src/Algorithms/OaGenerators/BonFpForMinlp.cpp:127-245", "src/Algorithms/OaGenerators/BonOaDecBase.cpp:235-343 generateCuts"]}
{"id": "C157", "title": "Solutions found by decomposition are counted", "statement": "After any sequence of calls of a decomposition method as a cut generator, the solution count of the search, with the solution waiting to be taken, has grown by the number of solutions the calls found.", "quantifier": "every sequence of calls, every number of solutions found in each", "why_tests_cant": "The count is spread over the search and the generator and only goes wrong over several calls.", "anchors": ["src/Algorithms/OaGenerators/BonOaDecBase.cpp:247-251, 322-324", "src/Algorithms/OaGenerators/BonOaFeasChecker.cpp performOa"]}
{"id": "C158", "title": "Saved cuts come back when violated", "statement": "A cut saved by a decomposition method is added again only if the point it is called at violates it, only at the node it was saved at and at most once; as long as a saved cut is violated it is added before anything else is solved.", "quantifier": "every sequence of calls at every sequence of nodes and points", "why_tests_cant": "Depends on the whole history of calls.", "anchors": ["src/Algorithms/OaGenerators/BonOaDecBase.cpp:273-296"]}
{"id": "C159", "title": "The solution for the second objective is of this search", "statement": "When the user's problem has a second objective, the solution reported for it after a search is the best one found during that search.", "quantifier": "every history of making, copying and solving solvers and of starting searches on them", "why_tests_cant": "Depends on which solvers share storage through copies, over any history.", "anchors": ["src/Interfaces/BonAuxInfos.cpp:17-93", "src/Interfaces/BonOsiTMINLPInterface.cpp:2694-2745 solveAndCheckErrors", "src/CbcBonmin/BonCbc.cpp:110-122, 632-639"]}
{"id": "C160", "title": "Every algorithm sees solutions for the second objective", "statement": "An integer point found by the set-up's nonlinear solver during the search counts for the second objective, whatever the algorithm.", "quantifier": "every history of solvers and searches, every sequence of points found", "why_tests_cant": "Needs all combinations of algorithms and solver copies.", "anchors": ["src/Interfaces/BonOsiTMINLPInterface.cpp:2694-2745", "src/CbcBonmin/BonBabInfos.cpp", "src/CbcBonmin/BonCbc.cpp:632-639"]}
{"id": "C161", "title": "The solution for the second objective fits the problem", "statement": "The solution reported for the second objective has as many entries as the problem has variables; the check of this at the end of the search never fails.", "quantifier": "every history of solvers and searches", "why_tests_cant": "The failing histories replace the problem inside a solver, which only rare options do.", "anchors": ["src/CbcBonmin/BonCbc.cpp:457-470, 632-639"]}
{"id": "C162", "title": "NLP solutions survive copies of the information object", "statement": "The solution last stored in a solver's information object, with its value, is what any later copy gives back, and storing and copying never aborts.", "quantifier": "every sequence of storing, flagging and copying, every size", "why_tests_cant": "Ranges over all sequences of sizes; reallocation only occurs in some of them.", "anchors": ["src/Interfaces/BonAuxInfos.cpp:37-92", "src/Interfaces/BonAuxInfos.hpp:60-95"]}
{"id": "C163", "title": "Adding rows to the NLP does not change how the search starts or ends", "statement": "With the option that lets rows be added to the nonlinear problem, the search starts whether or not the root relaxation is feasible, and its solution can be handed over at the end.", "quantifier": "every combination of option, algorithm, kind of objective, size, and number of cuts", "why_tests_cant": "Infeasible roots and cut-free roots of problems with each kind of objective would all have to be tried.", "anchors": ["src/CbcBonmin/BonCbc.cpp:457-490, 648-651", "src/Algorithms/BonBabSetupBase.cpp:246-268"]}
{"id": "C164", "title": "Branching on a set loses no point", "statement": "When a node is branched on a set of which exactly one variable is at its upper bound, every point of the node with that property, its consequences and an objective not above the cutoff is in one of the children, and creating them does not abort.", "quantifier": "every set, box, depth, solution, cutoff, order of the branches, and every such point", "why_tests_cant": "The lost child occurs only below some depth and for certain numbers of fractional members.", "anchors": ["experimental/RobotBonmin/BonNWayObject.cpp:193-348 createBranch, branch", "experimental/RobotBonmin/BonNWayObject.hpp numberBranches"]}
{"id": "C165", "title": "The children of a set are disjoint", "statement": "No point belongs to two children of a node branched on a set.", "quantifier": "every set, box, depth, solution and pair of children", "why_tests_cant": "All pairs of children of all boxes.", "anchors": ["experimental/RobotBonmin/BonNWayObject.cpp:193-348"]}
{"id": "C166", "title": "A satisfied set is fixed at the nearest bounds", "statement": "A set all of whose members are within the tolerance of a bound is reported as satisfied; asking for its feasible region fixes every member at such a bound, changes nothing else, and returns the distance moved; for any other set a positive infeasibility is reported.", "quantifier": "every set, tolerance, point and box", "why_tests_cant": "Signs cancel only for some points.", "anchors": ["experimental/RobotBonmin/BonNWayObject.cpp:132-191 infeasibility, feasibleRegion"]}
{"id": "C167", "title": "Fixings by strong branching on sets lose no solution", "statement": "Variables fixed during strong branching at the root, and those fixed later in the tree from the bounds found at the root, cut off no solution at least as good as the cutoff.", "quantifier": "every list of sets, order, sequence of honest answers of the solver, cutoff, node and solution", "why_tests_cant": "Needs all interleavings of tests at the root with later improvements of the cutoff.", "anchors": ["experimental/RobotBonmin/BonNWayChoose.cpp:211-228 setupList", "experimental/RobotBonmin/BonNWayChoose.cpp:340-560 chooseVariable, doStrongBranching"]}
{"id": "C168", "title": "Consequences are the columns of the same weight", "statement": "When sets are made from the user's SOS constraints, branching up on a column fixes at zero exactly the other columns that have the same weight.", "quantifier": "every list of constraints and weights", "why_tests_cant": "Most test models give every constraint the same weights.", "anchors": ["experimental/RobotBonmin/RobotSetup.cpp:103-190 addNWays"]}
{"id": "C169", "title": "Copies of a set branch the same", "statement": "A copy of a set, and a set assigned from another, create the same branches as the original, and the assignment stays within memory.", "quantifier": "every pair of sets, point, cutoff, box", "why_tests_cant": "Depends on the history of both objects.", "anchors": ["experimental/RobotBonmin/BonNWayObject.cpp:50-98"]}
{"id": "C170", "title": "A set announced for branching exists", "statement": "When choosing among sets ends with a code that announces a candidate, there is one, and it is one of the unsatisfied sets, the most useful among those tested; infeasibility is only reported if some set's branches are all closed.", "quantifier": "every list of sets, priorities, test results, depth and options", "why_tests_cant": "All combinations of options and test outcomes.", "anchors": ["experimental/RobotBonmin/BonNWayChoose.cpp:340-460 chooseVariable"]}
{"id": "C171", "title": "Strong branching on sets stays within its arrays", "statement": "Strong branching on a set of any size reads and writes only inside the arrays of bounds and pseudo-costs.", "quantifier": "every set, number of sets, box, point, and sequence of answers", "why_tests_cant": "An overrun by one entry rarely crashes.", "anchors": ["experimental/RobotBonmin/BonNWayChoose.cpp:470-560 doStrongBranching", "experimental/RobotBonmin/BonNWayChoose.cpp:211-228 setupList"]}
{"id": "C172", "title": "Children are estimated along the move towards them", "statement": "Strong branching by curvature estimates a child along the move that takes the node's solution into the child's bounds, holding fixed variables, equality rows, and the variables and rows that this move pushes against.", "quantifier": "all problems with a constraint, all histories, all trials, all linear solvers that solve their systems", "why_tests_cant": "the estimate is even in the direction, so only active inequalities with multipliers show a wrong sign", "anchors": ["src/Algorithms/Branching/BonCurvBranchingSolver.cpp:133-185 solveFromHotStart", "src/Interfaces/BonCurvatureEstimator.cpp:287-542"]}
{"id": "C173", "title": "Changing one variable's bounds changes nothing else", "statement": "Setting the bounds of one variable through an interface is seen as exactly these bounds of this variable: all other bounds and the current point stay. An index beyond the variables is an error, as is an interface without a problem.", "quantifier": "all users' problems, all histories of interfaces, all interfaces, variables and bounds", "why_tests_cant": "a wrong neighbouring bound matters only in problems and histories where it is active", "anchors": ["src/Interfaces/BonTMINLP2TNLP.cpp:304-336 SetVariablesBounds", "src/Interfaces/BonOsiTMINLPInterface.cpp setColLower, setColUpper"]}
{"id": "C174", "title": "A solver for strong branching given to one interface serves it alone", "statement": "After an interface is given a strong-branching solver of its own, nothing done with this interface, short of assigning another one to it, changes what the strong-branching trials of the other interfaces are about.", "quantifier": "all users' problems, all histories before, all later sequences of calls on the interface, all other interfaces", "why_tests_cant": "sharing shows only when two interfaces are in strong branching at the same time", "anchors": ["src/Interfaces/BonOsiTMINLPInterface.hpp:1085 setStrongBrachingSolver", "src/Interfaces/BonOsiTMINLPInterface.cpp:3039-3095"]}
{"id": "C175", "title": "The variables of an AMPL problem have the right types", "statement": "For a problem read from a .nl file every variable is reported as continuous, binary or integer exactly as declared, as nonlinear exactly if it occurs nonlinearly in a constraint or the objective, and the objective is reported linear exactly if no variable occurs nonlinearly in it.", "quantifier": "all sizes of the nine groups of variables of a .nl file, all contents of the arrays beforehand", "why_tests_cant": "the order of the groups matters only when several are present; test problems have few", "anchors": ["src/Interfaces/Ampl/BonAmplTMINLP.cpp:484-602 get_variables_types, get_variables_linearity", "src/Interfaces/Ampl/BonAmplTMINLP.cpp hasLinearObjective"]}
{"id": "C176", "title": "The linear part of the objective of an AMPL problem", "statement": "Asking for the linear part of the objective gives the gradient's entry for variables that occur linearly and 0 for those that occur nonlinearly in the objective.", "quantifier": "all problems and gradients", "why_tests_cant": "objectives without nonlinear terms or problems without nonlinear constraints hide the wrong range", "anchors": ["src/Interfaces/Ampl/BonAmplTMINLP.cpp:784-823 getLinearPartOfObjective"]}
{"id": "C177", "title": "Priorities and pseudo-costs given in AMPL are taken over", "statement": "A higher priority suffix gives a variable that is branched on earlier, no priority the last place; pseudo-cost suffixes are taken over as given and, if only one of up and down is given, serve for both.", "quantifier": "all suffix tables of matching size", "why_tests_cant": "a wrong order shows in the tree only", "anchors": ["src/Interfaces/Ampl/BonAmplTMINLP.cpp:211-252 read_priorities"]}
{"id": "C178", "title": "Branching directions given in AMPL are taken over", "statement": "A variable with a positive direction suffix is branched up first, one with a negative suffix down first, others are left to the solver.", "quantifier": "all tables of directions, all numbers of variables, all encodings of doubles as pairs of ints with the stated values for 0, 1 and -1", "why_tests_cant": "a wrong direction changes the order of the search, not the result", "anchors": ["src/Interfaces/Ampl/BonAmplTMINLP.cpp:79-100 addSuffix calls, 211-252 read_priorities"]}
{"id": "C179", "title": "Special ordered sets given in AMPL", "statement": "Sets of type 1 and 2 are taken over with their types; the reference values are increasing within every set, equal ones being moved apart just enough; a set of another type is refused.", "quantifier": "all numbers and sizes of non-empty sets, all types and weights", "why_tests_cant": "equal reference values are rare in tests", "anchors": ["src/Interfaces/Ampl/BonAmplTMINLP.cpp:254-297 read_sos", "src/Interfaces/Ampl/sos_kludge.cpp"]}
{"id": "C180", "title": "A second objective for upper bounds", "statement": "If exactly one of several objectives is marked for upper bounds, this one is used for upper bounds and an unmarked one is minimized; if none is marked, the first is minimized.", "quantifier": "all numbers of objectives and all marks", "why_tests_cant": "needs models with several objectives and suffixes", "anchors": ["src/Interfaces/Ampl/BonAmplTMINLP.cpp:299-331 read_obj_suffixes"]}
{"id": "C181", "title": "Constraints marked as simple concave", "statement": "Every constraint marked with an identifier, and no other, is recorded as simple concave once, with the variable carrying the identifier as y and the other variable of the constraint as x.", "quantifier": "all identifiers of variables and constraints, all sparsity patterns", "why_tests_cant": "a wrong identifier is accepted silently", "anchors": ["src/Interfaces/Ampl/BonAmplTMINLP.cpp:354-425 read_convexities"]}
{"id": "C182", "title": "On/off constraints", "statement": "A constraint with a positive indicator suffix gets the variable carrying the same number; other constraints get none; a number carried by no variable is refused.", "quantifier": "all suffix tables", "why_tests_cant": "quantifies over all numberings", "anchors": ["src/Interfaces/Ampl/BonAmplTMINLP.cpp:428-475 read_onoff"]}
{"id": "C183", "title": "The end of a run is reported to AMPL", "statement": "Every end of a run is reported with a result code of the range AMPL has for it, and the codes of an interrupted run tell whether there is a solution; this also holds when the solution is written to a file of its own.", "quantifier": "all ends, all sizes, all solutions or none, both ways of writing", "why_tests_cant": "the combination of no solution and the own file is not in any test", "anchors": ["src/Interfaces/Ampl/BonAmplTMINLP.cpp:706-757 finalize_solution"]}
{"id": "C184", "title": "A solution file that was written is read back", "statement": "Reading the .sol file written at the end of a run gives the solution in it.", "quantifier": "all ends of a run with a solution, all sizes, all contents of the reader's vector", "why_tests_cant": "only files of optimal runs are tried", "anchors": ["src/Interfaces/Ampl/BonAmplTMINLP.cpp:706-757 finalize_solution", "src/Interfaces/Ampl/BonSolReader.cpp:29-64 readFile"]}
{"id": "C185", "title": "Names of variables", "statement": "After reading the file of names every index gives its name and every name its index.", "quantifier": "all files of distinct names, all lengths of names kept inside a string object (15 or more)", "why_tests_cant": "depends on where the library keeps the characters of short strings and on when a vector grows", "anchors": ["src/Interfaces/BonColReader.cpp:29-60 readFile", "src/Interfaces/BonColReader.hpp index, name"]}
{"id": "C186", "title": "Names are copied to the caller", "statement": "Asking the reader for a copy of the names fills the caller's vector with the names read.", "quantifier": "all readers and vectors", "why_tests_cant": "nobody calls it in the tests", "anchors": ["src/Interfaces/BonColReader.cpp:61-66 copyNames"]}
{"id": "C187", "title": "Files that belong to a problem", "statement": "The names and the solution of the problem stub.nl are looked for in the files stub with the suffixes .col, .row and .sol; a name without .nl is taken as the stub.", "quantifier": "all names and suffixes", "why_tests_cant": "short names are not tried", "anchors": ["src/Interfaces/Ampl/BonSolReader.cpp:29-37", "src/Interfaces/BonColReader.cpp:29-37"]}
{"id": "C188", "title": "Perturbation radii", "statement": "The perturbation radii of a problem are those set last, none if they were taken back.", "quantifier": "all sequences of settings", "why_tests_cant": "an array that is taken back is freed memory still readable in tests", "anchors": ["src/Interfaces/BonTMINLP.cpp:88-96 SetPerturbationArray"]}
{"id": "C189", "title": "General integer variables are noticed", "statement": "If a problem is said to have no general integer variables, every integer within the bounds of an integer variable is 0 or 1; if it is said to have some, there is an integer variable whose bounds are not 0 and 1.", "quantifier": "all types and all bounds (integral ones for the second part)", "why_tests_cant": "quantifies over all bounds", "anchors": ["src/Interfaces/BonTMINLP.cpp:111-136 hasGeneralInteger"]}
{"id": "C190", "title": "The solution in a file of its own", "statement": "With the solution written to a file of its own, the file holds for every variable its number, counted from 0, and its value, in order, and ends with -1.", "quantifier": "all ends of a run with a solution, all sizes and values", "why_tests_cant": "quantifies over all solutions", "anchors": ["src/Interfaces/Ampl/BonAmplTMINLP.cpp:706-782 finalize_solution, write_solution", "file_solution option"]}
{"id": "C191", "title": "A warm start given is the start of the next solve", "statement": "With warm starts set to optimum or interior point, a resolve after a warm start with values for all variables and multipliers was set starts exactly from them; after a solve that ended well, without a warm start set, a resolve starts from the solution found and its multipliers.", "quantifier": "all states of the interface, all warm starts of the right size, all numbers of variables and rows, all outcomes of the solves", "why_tests_cant": "which point a solve was started from is not visible in its result", "anchors": ["src/Interfaces/BonOsiTMINLPInterface.cpp:2779-2900 initialSolve, resolve", "src/Interfaces/Ipopt/BonIpoptSolver.cpp:357-401 getWarmStart, setWarmStart"]}
{"id": "C192", "title": "Re-solving after a failure keeps the starting point", "statement": "With warm starts not exposed, solving a failed problem again from other points leaves the point and multipliers stored for the next solve as they were.", "quantifier": "all states, all outcomes of the further solves, all numbers of attempts", "why_tests_cant": "needs a failed solve and then a look at the start of a later one", "anchors": ["src/Interfaces/BonOsiTMINLPInterface.cpp:988-1093 resolveForRobustness", "src/Interfaces/Ipopt/BonIpoptSolver.cpp:345-355 getUsedWarmStart"]}
{"id": "C193", "title": "Solving again from random points keeps the starting point", "statement": "With warm starts not exposed, solving the root again from random points for a better solution leaves the point and multipliers stored for the next solve as they were.", "quantifier": "all states, all numbers of attempts and outcomes", "why_tests_cant": "the start of a later solve is not visible", "anchors": ["src/Interfaces/BonOsiTMINLPInterface.cpp:836-986 resolveForCost"]}
{"id": "C194", "title": "Every solve gets a starting point", "statement": "Over any sequence of solves and settings of points, multipliers and warm starts of the right sizes, no contract of the problem is broken and every call of the solver is given a point to start from.", "quantifier": "all sequences of operations, all outcomes of the solves, all warm start modes", "why_tests_cant": "a refused start counts as a failed solve, which is tried again, so only time is lost visibly", "anchors": ["src/Interfaces/BonOsiTMINLPInterface.cpp:836-1093, 1402-1427, 1456-1536, 2779-2900", "src/Interfaces/BonTMINLP2TNLP.cpp:360-397 get_starting_point", "src/Interfaces/Ipopt/BonIpoptSolver.cpp:345-432"]}
{"id": "C195", "title": "A warm start without a point is no reason to fail", "statement": "Setting a warm start whose point was flushed, or the empty warm start, and resolving does not abort.", "quantifier": "all modes that expose warm starts, all states", "why_tests_cant": "flushed warm starts occur for nodes whose branches are all done", "anchors": ["src/Interfaces/BonOsiTMINLPInterface.cpp:1508-1536 internal_setWarmStart", "src/Interfaces/Ipopt/BonIpoptSolver.cpp:369-410 setWarmStart, warmStartIsValid", "src/Interfaces/Ipopt/BonIpoptWarmStart.cpp:109-113 flushPoint"]}
{"id": "C196", "title": "A warm start is rebuilt from its difference", "statement": "Applying the difference of two Ipopt warm starts to the old one gives the new one.", "quantifier": "all pairs of warm starts, all representations of differences of the values", "why_tests_cant": "quantifies over all warm starts; the flag is not looked at when values are compared", "anchors": ["src/Interfaces/Ipopt/BonIpoptWarmStart.cpp:58-105 generateDiff, applyDiff, copy constructor", "src/Interfaces/Ipopt/BonIpoptWarmStart.hpp:104-141 IpoptWarmStartDiff"]}
{"id": "C197", "title": "An interior warm start gives every variable its own values", "statement": "When a solve is warm started from an iterate of the parent problem, after bounds were tightened, every variable not fixed starts from its own value and every bound that was finite from its own multiplier; rows keep theirs.", "quantifier": "all bounds before and after, all iterates", "why_tests_cant": "depends on which variables are fixed and which bounds are infinite; a wrong start only costs iterations", "anchors": ["src/Interfaces/Ipopt/BonIpoptInteriorWarmStarter.cpp:96-218 WarmStartIterate"]}
{"id": "C198", "title": "The iterate used by an interior warm start", "statement": "A warm start from earlier iterates uses the fifth last iterate of the regular phase, or the first if there are fewer; if only one is kept, the last one of the regular phase; without any it is refused.", "quantifier": "all sequences of iterates, regular or of the restoration phase", "why_tests_cant": "quantifies over all runs of Ipopt", "anchors": ["src/Interfaces/Ipopt/BonIpoptInteriorWarmStarter.cpp:48-85 UpdateStoredIterates, 96-218 WarmStartIterate"]}
{"id": "C199", "title": "Warm starts of the QP solver can be copied", "statement": "A warm start of Bqpd can be copied at any time and the copy is the same as the original.", "quantifier": "all sizes and contents, all sequences of copying and flushing", "why_tests_cant": "flushing and copying meet only in the search tree", "anchors": ["src/Interfaces/Filter/BonBqpdWarmStart.cpp:16-91"]}
{"id": "C200", "title": "Tangents of the outer description keep all solutions", "statement": "For a convex nonlinear row, every tangent that the outer description adds at a point is satisfied by every point within the bounds that satisfies the row.", "quantifier": "all rows, bounds, points of linearisation and feasible points", "why_tests_cant": "The wrong sign only matters when a coefficient is small enough to be removed, and then only for some bounds.", "anchors": ["experimental/Separable/BonOuterDescription.cpp: getMyOuterApproximation, cleanNnz"]}
{"id": "C201", "title": "Tangents of the transformer keep all solutions", "statement": "Asked for tangents at a point, the transformer returns one for each nonlinear row; each is satisfied by all points within the bounds that satisfy the row if the row is convex, up to coefficients below the second threshold; without small coefficients it is the linearisation exactly; with a coefficient above 1e15 nothing is returned.", "quantifier": "all problems, points, thresholds and feasible points", "why_tests_cant": "Validity is a statement about all feasible points.", "anchors": ["experimental/Separable/SepaTMINLP2OsiLP.cpp: get_oas, get_oa", "src/Interfaces/BonTMINLP2OsiLP.hpp: cleanNnz"]}
{"id": "C202", "title": "Tangents of switched rows", "statement": "For a row that a 0-1 variable switches on, the tangent linked to the variable is satisfied by all points where the variable is 1 and the row holds, and by all points where the variable and the variables of the row are 0.", "quantifier": "all rows with a switch, points of linearisation and feasible points", "why_tests_cant": "Tests do not use the first variable as a switch or rows with two sides.", "anchors": ["experimental/Separable/SepaTMINLP2OsiLP.cpp: get_oas, get_oa", "experimental/Separable/BonOuterDescription.cpp: getMyOuterApproximation"]}
{"id": "C203", "title": "Building an outer description ends", "statement": "The sampling of points for the initial outer description ends for every problem, with the number of tangents asked for in each nonlinear row.", "quantifier": "all problems, bounds and numbers of tangents", "why_tests_cant": "Whether a loop over values of a function ends cannot be tested for all functions.", "anchors": ["experimental/Separable/BonOuterDescription.cpp: addOuterDescription", "experimental/Separable/SepaTMINLP2OsiLP.cpp: add_outer_description_function_values"]}
{"id": "C204", "title": "Outer descriptions evaluate functions within the bounds", "statement": "All points at which functions are evaluated for an outer description lie within the bounds of the variables.", "quantifier": "all bounds, linearities, numbers of tangents", "why_tests_cant": "Functions of tests are defined outside the bounds as well.", "anchors": ["experimental/Separable/SepaTMINLP2OsiLP.cpp: get_refined_oa, add_outer_description_function_values", "experimental/Separable/BonOuterDescription.cpp: addOuterDescription"]}
{"id": "C205", "title": "The extracted linear program is a relaxation", "statement": "Every point within the bounds that satisfies all rows of a convex problem satisfies all rows of the linear program extracted at a point.", "quantifier": "all convex problems, points of linearisation and feasible points", "why_tests_cant": "Only small coefficients and switched rows show the difference.", "anchors": ["experimental/Separable/SepaTMINLP2OsiLP.cpp: extract"]}
{"id": "C206", "title": "Copies of a transformer", "statement": "A copy of a transformer gives the same tangents as the original.", "quantifier": "all transformers", "why_tests_cant": "Reading unset memory often gives the right value.", "anchors": ["src/Interfaces/BonTMINLP2OsiLP.hpp: TMINLP2OsiLP copy constructor, operator=, set_tols, set_model", "src/Interfaces/BonTMINLP2OsiLP.cpp: initialize_jac_storage"]}
{"id": "C207", "title": "Selecting tangents by a second point", "statement": "With a second point and a tolerance, only tangents violated by that point by at least the tolerance are added.", "quantifier": "all rows, points and tolerances", "why_tests_cant": "An additional valid tangent changes no result.", "anchors": ["experimental/Separable/BonOuterDescription.cpp: getMyOuterApproximation"]}
{"id": "C208", "title": "Tangents cut off violated points", "statement": "The tangent at a point that violates the row is violated by the point.", "quantifier": "all rows, points and multipliers", "why_tests_cant": "Tests have rows with one side.", "anchors": ["experimental/Separable/BonOuterDescription.cpp: getMyOuterApproximation"]}
{"id": "C209", "title": "The inner approximation lies inside the feasible set", "statement": "A point within the bounds that satisfies all chords of the inner approximation satisfies the convex rows of one nonlinear variable that the chords were built for.", "quantifier": "all numbers of points, bounds, sets of convex univariate rows and points", "why_tests_cant": "Whether a point off the grid violates the row depends on all its coordinates; tests use bounds inside the clipped range.", "anchors": ["experimental/Separable/SepaHeuristicInnerApproximation.cpp: getMyInnerApproximation, extractInnerApproximation"]}
{"id": "C210", "title": "The inner approximation heuristic returns feasible points", "statement": "With a correct MIP solver, a solution returned by the heuristic lies within the bounds and satisfies all rows of the problem.", "quantifier": "all problems with linear and convex univariate rows, all correct MIP solvers", "why_tests_cant": "The check of the solution is compiled out; a wrong solution is only found for bounds or rows of a certain kind.", "anchors": ["experimental/Separable/SepaHeuristicInnerApproximation.cpp: solution"]}
{"id": "C211", "title": "Building the inner approximation does not end the process", "statement": "For a problem with univariate rows and consistent bounds the heuristic builds its approximation without terminating the program.", "quantifier": "all numbers of points, bounds and sets of univariate rows", "why_tests_cant": "Branching or presolve fixes variables in ways that tests do not.", "anchors": ["experimental/Separable/SepaHeuristicInnerApproximation.cpp: extractInnerApproximation, getMyInnerApproximation"]}
{"id": "C212", "title": "Chords of switched rows", "statement": "Points at which the switch of a row and the variables of the row are 0 satisfy its chords.", "quantifier": "all rows with a switch, end points of the chord and points that are off", "why_tests_cant": "Tests do not use the first variable as a switch.", "anchors": ["experimental/Separable/SepaHeuristicInnerApproximation.cpp: getMyInnerApproximation"]}
{"id": "C213", "title": "Only better solutions are claimed by the inner approximation heuristic", "statement": "The heuristic returns 1 exactly with a point that is strictly better than the value passed in, and then the value returned is the objective at the point; otherwise value and solution are untouched. It does nothing away from the root or after the first pass.", "quantifier": "all problems, MIP solvers, nodes, passes, values and solutions", "why_tests_cant": "A claim about all results of the MIP solver.", "anchors": ["experimental/Separable/SepaHeuristicInnerApproximation.cpp: solution"]}
{"id": "C214", "title": "The guess used for best-guess node selection", "statement": "For nonnegative pseudo-cost data the guess of a node is computed without failure, claims no solution and is at least the objective of the node; it is the objective plus, for each object, the cheaper of the two changes expected.", "quantifier": "all branching methods, numbers of objects and pseudo-cost tables", "why_tests_cant": "Depends on which directions were branched on so far, and on the branching method.", "anchors": ["src/CbcBonmin/BonGuessHeuristic.cpp: GuessHeuristic::solution", "src/CbcBonmin/BonCbc.cpp: Bab::branchAndBound"]}
{"id": "C215", "title": "Every value of milp_solver can be used", "statement": "Every value of the option milp_solver that does not ask for a solver that was not compiled in gives a working MILP solver.", "quantifier": "all values of the option, prefixes and settings of other options", "why_tests_cant": "The failure shows only when the option is combined with the registered options of the executable.", "anchors": ["src/Algorithms/BonSubMipSolver.cpp: SubMipSolver::SubMipSolver", "src/Algorithms/BonCbcLpStrategy.cpp: CbcStrategyChooseCuts::setup", "src/Algorithms/BonBonminSetup.cpp: registerMilpCutGenerators"]}
{"id": "C216", "title": "Cut frequencies of the sub-MIP solver", "statement": "The frequency with which the sub-MIP solver uses each kind of cuts is the value of the corresponding option, the default included.", "quantifier": "all registries, prefixes, settings and kinds of cuts", "why_tests_cant": "Defaults are not visible in the effects of a test that sets the options.", "anchors": ["src/Algorithms/BonCbcLpStrategy.cpp: CbcStrategyChooseCuts::setup"]}
{"id": "C217", "title": "Cut generators of the sub-MIP solver are added once", "statement": "Setting up cut generators keeps those already there and adds, once each and with its frequency, exactly the kinds with a nonzero frequency that are not there; doing it again changes nothing.", "quantifier": "all frequencies and lists of generators already there", "why_tests_cant": "Repetition and mixtures of generators are not tested.", "anchors": ["src/Algorithms/BonCbcLpStrategy.cpp: CbcStrategyChooseCuts::setupCutGenerators, has_cg"]}
{"id": "C218", "title": "Candidates for strong branching in the parallel driver", "statement": "The candidates listed at a node are exactly the fractional variables (infeasible list) and the integral ones that are not fixed (feasible list), in the order of their priorities and, within a priority, of their usefulness.", "quantifier": "all nodes: sets of variables, bounds, solutions, priorities, pseudo-costs and settings", "why_tests_cant": "Depends on which kind of candidate is first in each level of priority.", "anchors": ["experimental/Bcp/BM_lp_branch.cpp: BM_lp::sort_objects"]}
{"id": "C219", "title": "Branches collected for strong branching", "statement": "Every branch moves one bound of its variable to an integer within the bounds and cuts off the current value; the branches of a fractional variable keep all integers, those of an integral one all but the current integer; their number is the number counted before, and the array of branches is filled to its end.", "quantifier": "all nodes", "why_tests_cant": "A missing branch only shows in the tree.", "anchors": ["experimental/Bcp/BM_lp_branch.cpp: BM_lp::collect_branch_data"]}
{"id": "C220", "title": "Branches are evaluated independently", "statement": "The result of a branch is that of the node with this one bound moved, whatever was solved before, and the bounds of the node are restored.", "quantifier": "all solvers, nodes and lists of branches", "why_tests_cant": "Claims about all sequences of branches.", "anchors": ["experimental/Bcp/BM_lp_branch.cpp: BM_solve_branches"]}
{"id": "C221", "title": "Evaluation on several processes", "statement": "The strong branching table computed with the help of other processes is that of one process, whatever the number of processes and the order in which replies arrive; the shares differ by at most one.", "quantifier": "all nodes, numbers of processes and orders of arrival", "why_tests_cant": "Schedules cannot be enumerated by tests.", "anchors": ["experimental/Bcp/BM_lp_branch.cpp: BM_lp::do_distributed_SB, process_message"]}
{"id": "C222", "title": "No reply of a strong branching round is left unread", "statement": "When the table is complete every reply of the helping processes has been received.", "quantifier": "all nodes, numbers of processes and orders of arrival", "why_tests_cant": "A reply left over is taken for one of the next round.", "anchors": ["experimental/Bcp/BM_lp_branch.cpp: BM_lp::do_distributed_SB"]}
{"id": "C223", "title": "Strong branching in the parallel driver loses no better solution", "statement": "With a correct solver no integer solution within the bounds of a node and better than the cutoff is lost when the node is given up, solved again with other bounds, or branched on.", "quantifier": "all nodes, earlier nodes of the process, correct solvers and sets of integer solutions", "why_tests_cant": "Depends on the results that earlier nodes left in the table.", "anchors": ["experimental/Bcp/BM_lp_branch.cpp: BM_lp::process_SB_results, bbBranch, isBranchFathomable"]}
{"id": "C224", "title": "Branching at a node comes to an end", "statement": "With all parameters set and a fractional variable the branching step of a node ends with a decision.", "quantifier": "all nodes and parameters", "why_tests_cant": "The failure depends on the parity of the number of branches asked for.", "anchors": ["experimental/Bcp/BM_lp_branch.cpp: BM_lp::try_to_branch, process_SB_results"]}
{"id": "C225", "title": "Parameters of the parallel driver", "statement": "Every integer parameter used in branching can be set in the parameter file and has a value if it is not.", "quantifier": "all parameters and parameter files", "why_tests_cant": "An unset parameter may hold any number.", "anchors": ["experimental/Bcp/BM.cpp: create_keyword_list, set_default_entries", "experimental/Bcp/BM_lp_branch.cpp: BM_lp::try_to_branch"]}
{"id": "C226", "title": "The decision after strong branching", "statement": "A node is given up exactly if both sides of some candidate hold nothing better, and solved again exactly if one side of some candidate does; otherwise the candidate whose weighted mean of the changes on the two sides is best, among those with both sides trusted and first in the list among equals, is branched on, the side with the smaller value first unless a side is preferred; without such a candidate the first one not evaluated, then the first with one usable side, then the last.", "quantifier": "all tables of results, lists of candidates, weights and preferences", "why_tests_cant": "Ties and mixtures of failed and good evaluations are not met in tests.", "anchors": ["experimental/Bcp/BM_lp_branch.cpp: BM_lp::process_SB_results"]}
{"id": "C227", "title": "Values handed to the children", "statement": "The status and bound handed to the two children are those the solver gave for the two sides at this node.", "quantifier": "all nodes and solvers", "why_tests_cant": "Needs evaluations that failed, and values of earlier nodes.", "anchors": ["experimental/Bcp/BM_lp_branch.cpp: BM_lp::process_SB_results, bbBranch"]}
{"id": "C228", "title": "Failures in a row in the parallel driver", "statement": "A node is given up for failures of the solver exactly when it and its ancestors failed the allowed number of times in a row, whichever processes solved them.", "quantifier": "all histories of processes, nodes, failures and branchings", "why_tests_cant": "Concerns the history of a node across processes.", "anchors": ["experimental/Bcp/BM_lp_branch.cpp: BM_lp::select_branching_candidates, set_user_data_for_children", "experimental/Bcp/BM_tm.cpp: BM_tm::create_root"]}
{"id": "C229", "title": "Pseudo-costs collected by the tree manager", "statement": "After an update each evaluated side counts once, with the change of the objective per unit (twice the distance to the cutoff if infeasible), an abandoned side and one that was not evaluated do not count, and every update is accepted.", "quantifier": "all tables, node values, cutoffs and pseudo-costs", "why_tests_cant": "Depends on the status with which the solver stopped.", "anchors": ["experimental/Bcp/BM_lp_branch.cpp: BM_lp::send_pseudo_cost_update", "experimental/Bcp/BM_tm.cpp: BM_tm::receive_pseudo_cost_update, process_message"]}
{"id": "C230", "title": "Node data survive packing", "statement": "What a process unpacks is what was packed: the number of failures, and the pseudo-costs of the tree manager; what follows in the buffer is untouched.", "quantifier": "all node data, pseudo-costs and buffers", "why_tests_cant": "Round trips for all sizes.", "anchors": ["experimental/Bcp/BM_pack.cpp: pack_user_data, unpack_user_data"]}
{"id": "C231", "title": "The solution of the hybrid driver", "statement": "Each value of the solution written differs from that of the solution found by at most the tolerance.", "quantifier": "all solutions, tolerances and sets of integer variables", "why_tests_cant": "Only some signs of values are affected.", "anchors": ["experimental/Bcp/BM_lp.cpp: BM_lp::test_feasibility_hybrid", "experimental/Bcp/BM_tm.cpp: BM_tm::write_AMPL_solution"]}
{"id": "C232", "title": "The order in which nodes are taken", "statement": "The order of nodes by bound and depth is a strict order: no node is before itself, and it is transitive.", "quantifier": "all bounds and depths", "why_tests_cant": "Needs nodes within the gap of each other.", "anchors": ["experimental/Bcp/BM_tm.cpp: BMSearchTreeCompareBest"]}
{"id": "C233", "title": "Bounds never get worse", "statement": "The lower bound computed for a node is defined and not below the one it had.", "quantifier": "both modes, all objective values and old bounds", "why_tests_cant": "An uninitialised value may happen to be right.", "anchors": ["experimental/Bcp/BM_lp.cpp: BM_lp::compute_lower_bound"]}
{"id": "C234", "title": "A node is solved again only with a smaller box", "statement": "When a node is solved again because of strong branching, the bounds of a fractional variable have become tighter.", "quantifier": "all nodes and solvers", "why_tests_cant": "Otherwise the node would be solved again for ever.", "anchors": ["experimental/Bcp/BM_lp_branch.cpp: BM_lp::process_SB_results, bbBranch"]}
{"id": "C235", "title": "Copies of a sub-MIP solver and the LPs given to it", "statement": "A copy of a sub-MIP solver is a solver of its own: an LP passed to the original may be deleted once the original is gone or has another one, and no call ever uses or deletes an LP that is gone.", "quantifier": "all sequences of calls on any number of solvers and client LPs", "why_tests_cant": "Use after delete depends on the order of copies, destructions and deletions.", "anchors": ["src/Algorithms/BonSubMipSolver.cpp: SubMipSolver copy constructor, setLpSolver, destructor"]}
{"id": "C236", "title": "Ownership of LPs by sub-MIP solvers", "statement": "Every LP a sub-MIP solver creates for itself belongs to exactly one living solver and is deleted with it; an LP of the caller is never deleted by a solver, and solving does not change it.", "quantifier": "all sequences of calls on any number of solvers and client LPs", "why_tests_cant": "A claim about all histories; leaks do not show in results.", "anchors": ["src/Algorithms/BonSubMipSolver.cpp: SubMipSolver, setLpSolver, ~SubMipSolver, find_good_sol, optimize"]}
{"id": "C237", "title": "The stored solution of a sub-MIP solver has room", "statement": "No solve writes beyond the array in which the solver keeps its last solution, whatever problems were loaded in between.", "quantifier": "all sequences of calls", "why_tests_cant": "Needs a problem that grows between two solves.", "anchors": ["src/Algorithms/BonSubMipSolver.cpp: find_good_sol, optimize (integerSolution_)"]}
{"id": "C238", "title": "Solutions returned by the sub-MIP solver", "statement": "getLastSolution(), if not NULL, is a completely written solution of the MILP with value better than the cutoff.", "quantifier": "all problems, cutoffs, times and correct MILP solvers", "why_tests_cant": "Depends on the ways in which the MILP solver can end.", "anchors": ["src/Algorithms/BonSubMipSolver.cpp: find_good_sol, optimize", "src/Algorithms/BonSubMipSolver.hpp: getLastSolution"]}
{"id": "C239", "title": "What optimal() of the sub-MIP solver means", "statement": "If optimal() is true then the last solution is optimal within the gap or, if there is none, no solution is better than the cutoff.", "quantifier": "all problems, cutoffs, times and correct MILP solvers", "why_tests_cant": "Optimality is a claim about all points.", "anchors": ["src/Algorithms/BonSubMipSolver.cpp: find_good_sol, optimize", "src/Algorithms/BonSubMipSolver.hpp: optimal"]}
{"id": "C240", "title": "What lowBound() of the sub-MIP solver means", "statement": "lowBound() is at most the value of every solution better than the cutoff.", "quantifier": "all problems, cutoffs, times and correct MILP solvers", "why_tests_cant": "A claim about all solutions.", "anchors": ["src/Algorithms/BonSubMipSolver.cpp: find_good_sol, optimize", "src/Algorithms/BonSubMipSolver.hpp: lowBound"]}
{"id": "C241", "title": "The search for a good solution ends", "statement": "find_good_sol returns if each run of the MILP solver takes at least some fixed time; it returns only with a solution, with a proof, or when the time is over.", "quantifier": "all problems, clocks and sequences of ends of the MILP solver", "why_tests_cant": "Termination over all sequences of ends.", "anchors": ["src/Algorithms/BonSubMipSolver.cpp: find_good_sol"]}
{"id": "C242", "title": "Nodes counted by the sub-MIP solver", "statement": "nodeCount() after a solve is the number of nodes of the run of the MILP solver that gave the results.", "quantifier": "all problems and solvers", "why_tests_cant": "Needs a check against the count of the solver for every way of ending.", "anchors": ["src/Algorithms/BonSubMipSolver.cpp: find_good_sol, optimize", "src/Algorithms/BonSubMipSolver.hpp: nodeCount"]}
{"id": "C243", "title": "Cuts as lazy constraints", "statement": "Solving with the last rows as lazy constraints solves the whole problem and leaves the problem as it was.", "quantifier": "all problems and all cuts that are its last rows", "why_tests_cant": "Depends on the senses of rows.", "anchors": ["src/Algorithms/BonSubMipSolver.cpp: optimize_with_lazy_constraints"]}
{"id": "C244", "title": "Solves of the sub-MIP solver do not influence each other", "statement": "The result of a solve does not depend on which solves were made before with the same object.", "quantifier": "all sequences of calls", "why_tests_cant": "A claim about all histories.", "anchors": ["src/Algorithms/BonSubMipSolver.cpp: find_good_sol, optimize"]}
{"id": "C245", "title": "Giving a new LP to the sub-MIP solver", "statement": "After setLpSolver nothing of the old results is returned and the problem solved next is the one given; results change only by calls on the object itself.", "quantifier": "all sequences of calls", "why_tests_cant": "A claim about all histories.", "anchors": ["src/Algorithms/BonSubMipSolver.cpp: setLpSolver"]}
{"id": "C246", "title": "The QPs of strong branching", "statement": "Between markHotStart() and unmarkHotStart(), every QP solved has the bounds the interface has at that moment, shifted by the point of the node, and the Hessian, gradient and Jacobian the node had at the mark.", "quantifier": "all nodes, histories of bound changes, marks, trials and unmarks, and answers of the QP solver", "why_tests_cant": "Wrong bounds give plausible but wrong branching decisions, not failures.", "anchors": ["src/Interfaces/Filter/BonBqpdSolver.cpp: cachedInfo::initialize, ReOptimizeTNLP, OptimizeTNLP", "src/Interfaces/BonBranchingTQP.cpp: get_bounds_info", "src/Algorithms/Branching/BonQpBranchingSolver.cpp: markHotStart, solveFromHotStart"]}
{"id": "C247", "title": "Strong branching on QPs does not touch invalid memory", "statement": "In any history in which trials come between a mark and an unmark, no array is read or written outside its size, no deleted or missing hot start is used and nothing is deleted twice.", "quantifier": "all histories and all answers of the QP solver, failures included", "why_tests_cant": "Sizes change when the workspace is enlarged; the hot start is deleted then.", "anchors": ["src/Interfaces/Filter/BonBqpdSolver.cpp: cachedInfo", "src/Algorithms/Branching/BonQpBranchingSolver.cpp"]}
{"id": "C248", "title": "Trials start from the marked state", "statement": "solveFromHotStart() starts from the state that was marked, so that its result does not depend on the trials made before.", "quantifier": "all nodes, all sequences of trials, all answers of the QP solver", "why_tests_cant": "Order dependence shows only as different trees.", "anchors": ["src/Interfaces/Filter/BonBqpdSolver.cpp: cachedInfo::markHotStart, copyFromHotStart, optimize", "src/Interfaces/BonOsiTMINLPInterface.cpp: solveFromHotStart"]}
{"id": "C249", "title": "Restart frequency", "statement": "With reinit_freq r every trial starts from a state at most r pivots away from the marked one, as long as the QP solver neither runs out of space nor loses its factors.", "quantifier": "all sequences of trials, all frequencies and numbers of pivots", "why_tests_cant": "A bound along all sequences.", "anchors": ["src/Interfaces/Filter/BonBqpdSolver.cpp: cachedInfo::optimize (pivots_, next_reinit_)"]}
{"id": "C250", "title": "Warm starts are coherent", "statement": "Every QP solve that is not from scratch goes on from the arrays and the common blocks left together by one and the same earlier solve.", "quantifier": "all histories and all answers of the QP solver", "why_tests_cant": "A mixture of two states shows as failures of the QP solver only now and then.", "anchors": ["src/Interfaces/Filter/BonBqpdSolver.cpp: cachedInfo::optimize, copyFromHotStart, markHotStart"]}
{"id": "C251", "title": "Enlarging the workspace ends", "statement": "Whenever the QP solver asks for more space, the solve ends after finitely many enlargements.", "quantifier": "all QPs and all answers of the QP solver", "why_tests_cant": "Termination.", "anchors": ["src/Interfaces/Filter/BonBqpdSolver.cpp: cachedInfo::optimize (while ifail == 7)"]}
{"id": "C252", "title": "The node after strong branching", "statement": "After unmarkHotStart() and with the bounds of the node put back, the interface shows what it showed before markHotStart().", "quantifier": "all nodes and sequences of trials", "why_tests_cant": "A claim about all histories.", "anchors": ["src/Interfaces/BonOsiTMINLPInterface.cpp: markHotStart, solveFromHotStart, unmarkHotStart"]}
{"id": "C253", "title": "The QP solver solves the problem it is given", "statement": "Each OptimizeTNLP() solves the problem passed to it; each ReOptimizeTNLP() solves the problem of the last OptimizeTNLP() with the bounds it has now.", "quantifier": "all sequences of calls and all answers of bqpd", "why_tests_cant": "Needs a failure at the right place of the sequence.", "anchors": ["src/Interfaces/Filter/BonBqpdSolver.cpp: OptimizeTNLP, ReOptimizeTNLP, use_warm_start_in_cache_"]}
{"id": "C254", "title": "What is reported of a trial", "statement": "After a trial the point, the objective value and the status of the interface are those of the last QP solved: optimal iff the QP was solved, infeasible iff it was found infeasible.", "quantifier": "all histories and all answers of the QP solver", "why_tests_cant": "Depends on retries.", "anchors": ["src/Interfaces/Filter/BonBqpdSolver.cpp: callOptimizer", "src/Interfaces/BonOsiTMINLPInterface.cpp: solveFromHotStart"]}
{"id": "C255", "title": "Hessian and workspaces of the QPs", "statement": "In every call the Hessian of the QP and its structure are in their places of the workspace, and the workspaces have the sizes bqpd is told.", "quantifier": "all histories and all answers of the QP solver", "why_tests_cant": "The workspace is copied when it is enlarged, marked and restored.", "anchors": ["src/Interfaces/Filter/BonBqpdSolver.cpp: cachedInfo::initialize, optimize, copyFromHotStart"]}
{"id": "C256", "title": "After lost factors", "statement": "If the last solve ended with lost factors (8) the next trial starts from scratch; with hot_start_m0de 6 a solve ends so only after a call from scratch.", "quantifier": "all histories and all answers of the QP solver", "why_tests_cant": "Needs failures of the QP solver.", "anchors": ["src/Interfaces/Filter/BonBqpdSolver.cpp: cachedInfo::optimize (bad_warm_start_info_)"]}
{"id": "C257", "title": "Options of a QP solver are its own", "statement": "A QP solver uses the value of hot_start_m0de it was made with in every solve that is not from scratch.", "quantifier": "all histories, other QP solvers being made and used", "why_tests_cant": "Needs two solvers with different options.", "anchors": ["src/Interfaces/Filter/BonBqpdSolver.cpp: m0de_, reinit_freq_ (static)"]}
{"id": "C258", "title": "The search never ends on an error of the node comparison", "statement": "With tree_search_strategy dfs-dive or dfs-dive-dynamic, no sequence of nodes, solutions and prunings makes the comparison of nodes throw.", "quantifier": "all node comparisons, depths, cutoffs and sequences of calls made by the tree search", "why_tests_cant": "A solution has to be found at the right moment, with several nodes open near the root.", "anchors": ["src/CbcBonmin/BonDiver.cpp: DiverCompare::test, CbcDfsDiver::cleanTree, pushDiveOntoHeap"]}
{"id": "C259", "title": "Dives start at the best node", "statement": "While solutions are looked for, the next node is the oldest one of the breadth-first phase, the newest node of the dive that is not above the cutoff, or else the best of all open nodes below the cutoff for the node_comparison chosen; only nodes at or above the cutoff are thrown away.", "quantifier": "all node comparisons, all sequences of calls, both dfs-dive strategies", "why_tests_cant": "Ranges over all trees and all histories of dives.", "anchors": ["src/CbcBonmin/BonDiver.cpp: CbcDfsDiver::bestNode, push, setComparisonMode"]}
{"id": "C260", "title": "Closing the bound explores the best node", "statement": "Once five solutions are known (or a million nodes explored), dfs-dive-dynamic hands out the best open node of the comparison by bound (by depth).", "quantifier": "all trees and histories of calls", "why_tests_cant": "Needs many solutions; the loss of a node is silent.", "anchors": ["src/CbcBonmin/BonDiver.cpp: CbcDfsDiver::bestNode"]}
{"id": "C261", "title": "Breadth-first phase", "statement": "Up to depth four, nodes are handed out in the order in which they were opened and none is thrown away.", "quantifier": "all sequences of openings and requests of nodes of depth at most four", "why_tests_cant": "Ranges over all sequences.", "anchors": ["src/CbcBonmin/BonDiver.cpp: CbcDfsDiver::push, bestNode"]}
{"id": "C262", "title": "Phases of the dynamic strategy", "statement": "The phase follows from the calls made: limiting the tree after more than a million nodes, otherwise closing the bound after five solutions, otherwise diving once a solution is known; phases never go back. Under dfs-dive only breadth-first and diving occur.", "quantifier": "all sequences of calls", "why_tests_cant": "Some phases are reached after a million nodes only.", "anchors": ["src/CbcBonmin/BonDiver.cpp: DiverCompare::newSolution, every1000Nodes, CbcDfsDiver::setComparisonMode"]}
{"id": "C263", "title": "Copies of the search go on like the original", "statement": "A copy of the tree together with a copy of its comparison hands out the same nodes as the original would.", "quantifier": "all trees, histories before and after the copy, both dfs-dive strategies", "why_tests_cant": "The copy shares state with the original by a pointer.", "anchors": ["src/CbcBonmin/BonDiver.hpp: DiverCompare copy constructor", "src/CbcBonmin/BonDiver.cpp: CbcDfsDiver copy constructor, clone"]}
{"id": "C264", "title": "Assigned trees go on like their source", "statement": "After assigning one dfs tree to another, both hand out the same nodes for the same calls.", "quantifier": "all pairs of trees and sequences of calls", "why_tests_cant": "Differs only in deep dives.", "anchors": ["src/CbcBonmin/BonDiver.cpp: CbcDfsDiver::operator="]}
{"id": "C265", "title": "The branching data the user gives reach the search", "statement": "The first time branch-and-bound runs on a problem, the search branches on one object per integer variable, carrying the user's priority, preferred direction and pseudo-costs of that variable, then on the user's special ordered sets with their members, weights, types and priorities (10 if none or zero), then on the extra objects of the set-up, in that order and on nothing else.", "quantifier": "all problems, priorities, directions, pseudo-costs, special ordered sets and extra objects of matching sizes", "why_tests_cant": "the data are optional and independent; which combinations lose or crash is a matter of every combination, and the objects are only seen inside the search library", "anchors": ["src/CbcBonmin/BonCbc.cpp:Bab::branchAndBound", "src/Interfaces/BonOsiTMINLPInterface.hpp:getUpPsCosts", "src/Interfaces/BonOsiTMINLPInterface.hpp:getDownPsCosts"]}
{"id": "C266", "title": "A branching rule's own objects replace the default ones", "statement": "If the branching rule has put its own branching objects into the relaxation's solver and they cover all integer variables, the search of a fresh run branches on exactly these objects.", "quantifier": "all problems and all lists of objects covering the integer variables", "why_tests_cant": "a duplicated object only shows as a different tree", "anchors": ["src/CbcBonmin/BonCbc.cpp:Bab::branchAndBound"]}
{"id": "C267", "title": "Running again uses only the new set-up", "statement": "Running the same branch-and-bound object on another set-up uses the cut generators, heuristics and branching objects of that set-up and nothing left over from earlier runs.", "quantifier": "all sequences of set-ups run on one object", "why_tests_cant": "needs sequences of runs with different set-ups; leftovers only change the work done and the bounds", "anchors": ["src/CbcBonmin/BonCbc.cpp:Bab::branchAndBound"]}
{"id": "C268", "title": "Running again uses only the new settings", "statement": "Special option, failure strategy, node comparison, tree traversal and all limits of a run are those of its own set-up, whatever was run on the same object before.", "quantifier": "all sequences of set-ups run on one object", "why_tests_cant": "a setting kept from an earlier run changes the order of nodes or the treatment of failures only", "anchors": ["src/CbcBonmin/BonCbc.cpp:Bab::branchAndBound"]}
{"id": "C269", "title": "Limits and tolerances reach the search, time already spent is taken off", "statement": "The search gets the user's node, iteration and solution limits, gaps, integrality tolerance and cut passes, a cutoff 1e-6 above the user's one, the cutoff decrement (the one found by the NLP solver if there is one), and as time limit the user's limit less the time already spent; it is started exactly if there was no interruption and time is left.", "quantifier": "all set-ups, all histories of runs, all clocks and all outcomes of the root", "why_tests_cant": "depends on the clock and on every limit at once", "anchors": ["src/CbcBonmin/BonCbc.cpp:Bab::branchAndBound"]}
{"id": "C270", "title": "Outer approximation generators work on the solver of the search", "statement": "After the set-up of a run, every outer approximation generator that asked for the search's LP solver has the solver of this run, never one that has been deleted.", "quantifier": "all sequences of set-ups run on one object", "why_tests_cant": "a pointer to a deleted solver often goes unnoticed", "anchors": ["src/CbcBonmin/BonCbc.cpp:Bab::branchAndBound", "src/Algorithms/OaGenerators/BonOaDecBase.hpp:assignLpInterface"]}
{"id": "C271", "title": "Only objects that were made are deleted", "statement": "Destroying a branch-and-bound object, or running it again, never deletes a pointer that was not set, also after a run that was left by an exception.", "quantifier": "all sequences of set-ups run on one object", "why_tests_cant": "deleting an unset pointer depends on what the memory contained", "anchors": ["src/CbcBonmin/BonCbc.cpp:Bab::~Bab", "src/CbcBonmin/BonCbc.cpp:Bab::branchAndBound"]}
{"id": "C272", "title": "With enable_dynamic_nlp the root never crashes", "statement": "With enable_dynamic_nlp, whether or not the root relaxation could be solved and however many linear cuts were found, the run carries on: with the cuts added if the root was solved, with the problem as the user gave it otherwise.", "quantifier": "all problems, root outcomes and numbers of linear cuts", "why_tests_cant": "needs a root relaxation that fails or gives no cuts, with a linear objective", "anchors": ["src/CbcBonmin/BonCbc.cpp:Bab::branchAndBound", "src/Algorithms/BonBabSetupBase.cpp:BabSetupBase::use"]}
{"id": "C273", "title": "NLP-based branch-and-bound starts from the root solution unless a point was given", "statement": "In NLP-based branch-and-bound the nodes start from the primal and dual solution of the root relaxation, unless a starting point has been put into the solver before, which is then kept; the other algorithms put in no point.", "quantifier": "all set-ups, root outcomes and starting points", "why_tests_cant": "the starting point only changes which local optimum is found", "anchors": ["src/CbcBonmin/BonCbc.cpp:Bab::branchAndBound"]}
{"id": "C274", "title": "An interruption after the run does no harm", "statement": "Interrupting (SIGINT) the process after branch-and-bound objects have been run and destroyed stops what is running and touches no object that no longer exists.", "quantifier": "all sequences of creations, runs, destructions and interruptions", "why_tests_cant": "an interruption at that time cannot be timed by a test, and use of freed memory often goes unnoticed", "anchors": ["src/CbcBonmin/BonCbc.cpp:signal_handler"]}
{"id": "C275", "title": "An interruption stops the current run only", "statement": "After an interruption has stopped a run, a later run on a new branch-and-bound object in the same process searches as usual.", "quantifier": "all sequences of creations, runs, destructions and interruptions", "why_tests_cant": "process-wide state over several runs with a signal in between", "anchors": ["src/CbcBonmin/BonCbc.cpp:signal_handler", "src/CbcBonmin/BonCbc.cpp:Bab::branchAndBound"]}
{"id": "C276", "title": "Outer approximation generators know all branching objects", "statement": "Unless NLP-based branch-and-bound is used, every outer approximation generator of the search is given all branching objects the search branches on, and the run is refused with an exception exactly if there is an extra object it cannot represent.", "quantifier": "all set-ups and all states left by earlier runs", "why_tests_cant": "a generator that misses an object accepts solutions violating a special ordered set", "anchors": ["src/CbcBonmin/BonCbc.cpp:Bab::branchAndBound", "src/Algorithms/OaGenerators/BonOaDecBase.hpp:setObjects"]}
{"id": "C277", "title": "A solve reports the status of its own run", "statement": "A call to solve or re-solve a problem with an Ipopt solver object that is not interrupted reports the status of that problem: Ipopt's verdict on it if a variable can move, and otherwise whether the fixed point satisfies the constraints; nothing of earlier calls on the object shows.", "quantifier": "all sequences of calls on one solver object (set-ups, solves of any problems, re-solves, warm start switches, copies, output levels)", "why_tests_cant": "depends on the status kept from arbitrary earlier calls and on a short-cut that bypasses the solver", "anchors": ["src/Interfaces/Ipopt/BonIpoptSolver.cpp:OptimizeTNLP", "src/Interfaces/Ipopt/BonIpoptSolver.cpp:ReOptimizeTNLP", "src/Interfaces/BonTNLPSolver.cpp:zeroDimension"]}
{"id": "C278", "title": "Iteration counts and times are those of the last solve", "statement": "The iteration count and CPU time asked of a solver object are those of its last solve (0 if that did not need the solver or none was made).", "quantifier": "all sequences of calls, for filterSQP with any number of objects interleaved", "why_tests_cant": "unset memory reads as plausible numbers, and only some call orders expose it", "anchors": ["src/Interfaces/Ipopt/BonIpoptSolver.cpp:IterationCount", "src/Interfaces/Ipopt/BonIpoptSolver.cpp:CPUTime", "src/Interfaces/Filter/BonFilterSolver.hpp:IterationCount", "src/Interfaces/Filter/BonFilterSolver.cpp:cachedInfo::initialize"]}
{"id": "C279", "title": "An interrupted solve is not called infeasible", "statement": "If a problem is reported infeasible by a solve, then it is that solve's finding, also when the user interrupts the process during the call.", "quantifier": "all sequences of calls on one solver object and all times of interruption", "why_tests_cant": "an interrupt has to arrive during a solve", "anchors": ["src/Interfaces/Ipopt/BonIpoptSolver.cpp:OptimizeTNLP", "src/Interfaces/Ipopt/BonIpoptSolver.cpp:ReOptimizeTNLP"]}
{"id": "C280", "title": "One solver object, many problems", "statement": "An Ipopt solver object can be used to solve one problem after the other.", "quantifier": "all sequences of calls on one solver object and all problems", "why_tests_cant": "the failing order (a robust re-solve that leaves warm starts enabled, then another problem) needs a solver failure in between", "anchors": ["src/Interfaces/Ipopt/BonIpoptSolver.cpp:OptimizeTNLP", "src/Interfaces/Ipopt/BonIpoptSolver.cpp:enableWarmStart", "src/Interfaces/BonOsiTMINLPInterface.cpp:resolveForRobustness"]}
{"id": "C281", "title": "Errors of the solver are named correctly", "statement": "The error raised when Ipopt fails names the return code Ipopt gave.", "quantifier": "all return codes of Ipopt and all other numbers", "why_tests_cant": "most return codes cannot be provoked in a test", "anchors": ["src/Interfaces/Ipopt/BonIpoptSolver.cpp:UnsolvedIpoptError::errorName"]}
{"id": "C282", "title": "The user's options for Ipopt are kept", "statement": "After a set-up, and through any later calls and copies, an option the user set in the option file (or protected before) has its value, the first one in the file; any other option not concerned by warm starts or output has the value set by the program, or Bonmin's default for MINLPs.", "quantifier": "all option lists, option files and sequences of calls", "why_tests_cant": "combinations of options, files and call orders are unbounded", "anchors": ["src/Interfaces/Ipopt/BonIpoptSolver.cpp:Initialize", "src/Interfaces/Ipopt/BonIpoptSolver.cpp:setMinlpDefaults"]}
{"id": "C283", "title": "A forced output level is used and taken back", "statement": "Forcing the output level of a solver makes the next solve use it, and restoring the default makes it the one of the set-up again.", "quantifier": "all sequences of calls and copies of solver objects", "why_tests_cant": "output levels do not show in results, and unset memory often is 0", "anchors": ["src/Interfaces/Ipopt/BonIpoptSolver.cpp:forceSolverOutput", "src/Interfaces/Ipopt/BonIpoptSolver.cpp:setOutputToDefault", "src/Interfaces/Filter/BonFilterSolver.hpp:forceSolverOutput", "src/Interfaces/Filter/BonFilterSolver.hpp:setOutputToDefault"]}
{"id": "C284", "title": "SQP solver objects do not mix up their problems", "statement": "With any number of filterSQP solver objects and copies used in any order, a solve evaluates the problem it is given, with that problem's sparsity structure, and reports the solution to it; a re-solve does so for the problem last set up on the object, and is refused by an assertion for another one; on an object on which nothing was set up (in particular a fresh copy) a re-solve dereferences NULL.", "quantifier": "all sequences of creations, copies and calls on all objects of a process", "why_tests_cant": "the objects share static variables; interleavings are unbounded", "anchors": ["src/Interfaces/Filter/BonFilterSolver.cpp:OptimizeTNLP", "src/Interfaces/Filter/BonFilterSolver.cpp:ReOptimizeTNLP", "src/Interfaces/Filter/BonFilterSolver.cpp:cachedInfo::initialize"]}
{"id": "C285", "title": "Every SQP solver object uses its own tolerances", "statement": "A solve or re-solve with a filterSQP object uses the tolerances of the options of that object.", "quantifier": "all sequences of creations, copies and calls on all objects of a process", "why_tests_cant": "process-wide Fortran common blocks; needs several objects with different options", "anchors": ["src/Interfaces/Filter/BonFilterSolver.cpp:cachedInfo::initialize", "src/Interfaces/Filter/BonFilterSolver.cpp:ReOptimizeTNLP"]}
{"id": "C286", "title": "The initial trust region of the SQP solver is the user's", "statement": "Every run of filterSQP starts with the trust region radius given by the option rho_init.", "quantifier": "all sequences of creations, copies and calls on all objects of a process", "why_tests_cant": "the radius does not show in the result of a run", "anchors": ["src/Interfaces/Filter/BonFilterSolver.cpp:cachedInfo::optimize"]}
{"id": "C287", "title": "A named option file is read or its absence is reported", "statement": "Asked to read a named option file, a set-up applies all its settings; if the file cannot be opened or holds an invalid setting, the call fails.", "quantifier": "all states of a set-up, all file systems and file contents", "why_tests_cant": "which files exist and what was read before is unbounded, and a silent no-op looks like success", "anchors": ["src/Algorithms/BonBabSetupBase.cpp:readOptionsFile", "src/Algorithms/BonBabSetupBase.cpp:readOptionsStream"]}
{"id": "C288", "title": "The default option file is read unless options were read before", "statement": "Reading the default option file, explicitly or when the problem is given, applies bonmin.opt if, and only if, no options were read before from a file, a string or an interface.", "quantifier": "all sequences of calls on a set-up, all file systems", "why_tests_cant": "depends on the whole history of calls, including calls that failed", "anchors": ["src/Algorithms/BonBabSetupBase.hpp:readOptionsFile", "src/Algorithms/BonBabSetupBase.cpp:use", "examples/CppExample/MyBonmin.cpp"]}
{"id": "C289", "title": "Options given before the problem are in force for it", "statement": "When the problem is given, the options in force are all those read and set before, in the order of the calls; this also holds when the problem is given as an interface with options of its own.", "quantifier": "all sequences of calls on a set-up, all option contents", "why_tests_cant": "all orders of files, strings and settings", "anchors": ["src/Algorithms/BonBabSetupBase.cpp:use", "src/Algorithms/BonBabSetupBase.cpp:initializeOptionsAndJournalist", "src/Algorithms/BonBabSetupBase.hpp:setOptionsAndJournalist"]}
{"id": "C290", "title": "The documentation of options is printed once", "statement": "With print_options_documentation the documentation is printed at most once per set-up.", "quantifier": "all sequences of calls on a set-up", "why_tests_cant": "depends on how many sources options come from", "anchors": ["src/Algorithms/BonBabSetupBase.cpp:mayPrintDoc", "src/Algorithms/Ampl/BonAmplSetup.cpp:initialize"]}
{"id": "C291", "title": "Set-ups and their copies can be destroyed in any order", "statement": "No sequence of creating, filling, initialising, copying and destroying set-ups uses or deletes an object that was already deleted.", "quantifier": "all sequences of calls on any number of set-ups and copies", "why_tests_cant": "double deletions need a certain order of destruction and often go unnoticed", "anchors": ["src/Algorithms/BonBabSetupBase.cpp:BabSetupBase", "src/Algorithms/BonBabSetupBase.cpp:~BabSetupBase", "src/Algorithms/BonBonminSetup.cpp:BonminSetup", "src/CbcBonmin/Heuristics/BonLocalSolverBasedHeuristic.cpp:doLocalSearch"]}
{"id": "C292", "title": "A copy of a set-up is made of the same parts", "statement": "A copy of a set-up has the same solvers, cut generators with their frequencies, heuristics, branching method, objects, parameters, options and prefix as the original, and the original keeps its own.", "quantifier": "all reachable states of set-ups", "why_tests_cant": "a copy with parts missing still runs", "anchors": ["src/Algorithms/BonBabSetupBase.cpp:BabSetupBase(const BabSetupBase &)"]}
{"id": "C293", "title": "A copied branch-and-bound runs on its own NLP solver", "statement": "If the search of a set-up runs on its NLP solver, the one of the copy runs on the copy's NLP solver, for plain copies and for copies onto another NLP.", "quantifier": "all reachable states of set-ups", "why_tests_cant": "the copied search runs, on a third object that later changes to the NLP solver do not reach", "anchors": ["src/Algorithms/BonBabSetupBase.cpp:BabSetupBase(const BabSetupBase &)", "src/Algorithms/BonBonminSetup.cpp:BonminSetup(const BonminSetup &, OsiTMINLPInterface &)"]}
{"id": "C294", "title": "A set-up can be copied at any time", "statement": "Copying a set-up succeeds before and after the problem is given; once it is given, so does copying it onto another NLP.", "quantifier": "all reachable states of set-ups", "why_tests_cant": "failing states combine a message handler, an algorithm and a moment", "anchors": ["src/Algorithms/BonBabSetupBase.cpp:BabSetupBase(const BabSetupBase &)", "src/Algorithms/BonBabSetupBase.cpp:BabSetupBase(const BabSetupBase &, OsiTMINLPInterface &)"]}
{"id": "C295", "title": "Options set on a set-up reach its NLP solver", "statement": "An option set through the options of a set-up is in force for the NLP solver of that set-up.", "quantifier": "all reachable states of set-ups and copies", "why_tests_cant": "sharing of option lists changes with copies and does not show unless an option is set afterwards", "anchors": ["src/Algorithms/BonBabSetupBase.cpp", "src/Interfaces/BonTNLPSolver.cpp:TNLPSolver(const TNLPSolver &)", "src/Interfaces/BonOsiTMINLPInterface.cpp:createApplication"]}
{"id": "C296", "title": "Options set on one set-up do not affect another", "statement": "Setting an option on one set-up changes neither the options nor the NLP solver's options of any other set-up, also if one is a copy of the other.", "quantifier": "all reachable states of set-ups and copies", "why_tests_cant": "all chains of copies and initialisations", "anchors": ["src/Algorithms/BonBabSetupBase.cpp", "src/Interfaces/BonTNLPSolver.cpp:TNLPSolver(const TNLPSolver &)"]}
{"id": "C297", "title": "The answer of a search with top-node or dive is right", "statement": "With tree_search_strategy top-node or dive, for any node comparison and any value of stop_diving_on_cutoff: if every subproblem is solved correctly and branching bounded integer variables, the search ends; it reports a feasible solution that no feasible solution beats by more than cutoff_decr, or, if it reports none, no feasible solution is below the cutoff given.", "quantifier": "all problems, correct subproblem solvers and heuristics, node comparisons, cutoffs, cutoff decrements and sizes of the tree", "why_tests_cant": "needs all search orders over trees of any size; a wrong order-dependent loss of a node shows only on some problems", "anchors": ["src/CbcBonmin/BonDiver.cpp:CbcDiver", "src/CbcBonmin/BonCbc.cpp:Bab::branchAndBound"]}
{"id": "C298", "title": "The answer of a search with probed-dive is right", "statement": "With tree_search_strategy probed-dive (the default) and any options of it, the search ends with a right answer, in the sense of C297.", "quantifier": "all problems, correct subproblem solvers and heuristics, node comparisons, cutoffs and option values", "why_tests_cant": "needs all search orders over trees of any size", "anchors": ["src/CbcBonmin/BonDiver.cpp:CbcProbedDiver", "src/CbcBonmin/BonCbc.cpp:Bab::branchAndBound"]}
{"id": "C299", "title": "The answer of a search with dfs-dive or dfs-dive-dynamic is right", "statement": "With tree_search_strategy dfs-dive and dfs-dive-dynamic, the search ends with a right answer, in the sense of C297.", "quantifier": "all problems, correct subproblem solvers and heuristics, node comparisons, cutoffs and option values", "why_tests_cant": "needs all search orders, and the modes of the tree, which change with the number of solutions and nodes", "anchors": ["src/CbcBonmin/BonDiver.cpp:CbcDfsDiver", "src/CbcBonmin/BonDiver.cpp:DiverCompare", "src/CbcBonmin/BonCbc.cpp:Bab::branchAndBound"]}
{"id": "C300", "title": "The answer does not depend on the search strategy", "statement": "Two searches of the same problem with top-node, dive, probed-dive without stop_diving_on_cutoff or dfs-dive, with any node comparisons and heuristics, agree: either both report no solution, or the values they report differ by no more than cutoff_decr.", "quantifier": "all pairs of strategies, comparisons and heuristics, all problems", "why_tests_cant": "a comparison of two runs for all problems and orders", "anchors": ["src/CbcBonmin/BonDiver.cpp", "src/CbcBonmin/BonCbc.cpp:Bab::branchAndBound"]}
{"id": "C301", "title": "The bound reported by a stopped search is right", "statement": "However early a search is stopped, every feasible solution is at or above the best possible objective reported by the tree, or at or above the cutoff given, or no better by more than cutoff_decr than the solution held, which is feasible.", "quantifier": "all stopping points of all searches", "why_tests_cant": "all stopping points of all searches; a wrong bound shows only if the optimum lies in a node the bound leaves out", "anchors": ["src/CbcBonmin/BonDiver.cpp:getBestPossibleObjective"]}
{"id": "C302", "title": "Solutions reported during a search are feasible and improve", "statement": "Whatever the tree does, the solution held is feasible and has the value reported, and each solution that replaces another is strictly better than it, by more than cutoff_decr if that is positive.", "quantifier": "all searches, on any tree at all, and all pairs of moments in them", "why_tests_cant": "all runs and all trees", "anchors": ["src/CbcBonmin/BonCbc.cpp:Bab::branchAndBound"]}
{"id": "C303", "title": "A collection of cuts is a list of cuts", "statement": "A collection of linear and quadratic cuts (Cuts) behaves as a list of values under any sequence of constructions, copies, assignments, insertions (by value, by pointer, of whole collections), removals and changes through references: sizes, order and contents are those of the list, and every call ends.", "quantifier": "all sequences of calls on any number of collections, all contents, collections of any size", "why_tests_cant": "needs all sequences of calls and all ways in which arguments can alias", "anchors": ["src/Algorithms/QuadCuts/BonQuadCut.hpp:Cuts", "src/Algorithms/QuadCuts/BonQuadCut.cpp:Cuts"]}
{"id": "C304", "title": "Collections of cuts are independent", "statement": "A call changes the collection it is made on; every other collection, copies of it included, keeps its cuts.", "quantifier": "all sequences of calls on any number of collections, then any call", "why_tests_cant": "aliasing shows only after particular sequences of copies and changes", "anchors": ["src/Algorithms/QuadCuts/BonQuadCut.hpp:Cuts", "src/Algorithms/QuadCuts/BonQuadCut.cpp:Cuts"]}
{"id": "C305", "title": "Quadratic cuts are released exactly once", "statement": "Every allocated quadratic cut is held exactly once, by one collection or by the client who created it; no pointer kept is to a released cut; once the collections are destroyed and the client has handed over or deleted its cuts, none is left.", "quantifier": "all sequences of calls on any number of collections", "why_tests_cant": "double deletes and leaks are properties of all histories; a test sees one history and often no symptom", "anchors": ["src/Algorithms/QuadCuts/BonQuadCut.hpp:Cuts", "src/Algorithms/QuadCuts/BonQuadCut.cpp:Cuts"]}
{"id": "C306", "title": "Every collection of cuts can be copied", "statement": "A collection that a client can build can be copied.", "quantifier": "all sequences of calls, then a copy", "why_tests_cant": "needs all sequences of calls that build a collection", "anchors": ["src/Algorithms/QuadCuts/BonQuadCut.hpp:insert", "src/Algorithms/QuadCuts/BonQuadCut.cpp:Cuts"]}
{"id": "C307", "title": "Initializing the NLP interface gives the interface options their effect", "statement": "When an interface without a solver is initialized with an option list and a prefix, every documented option of the interface takes the setting with the prefix, else the setting without it, else the default (FilterSQP having its own defaults for max_random_point_radius and resolve_on_small_infeasibility).", "quantifier": "all contents of the option list, all prefixes, all histories before, with and without FilterSQP", "why_tests_cant": "the option list is arbitrary and each option is a separate case", "anchors": ["src/Interfaces/BonOsiTMINLPInterface.cpp:OsiTMINLPInterface::initialize", "src/Interfaces/BonOsiTMINLPInterface.cpp:OsiTMINLPInterface::extractInterfaceParams", "src/Interfaces/BonOsiTMINLPInterface.cpp:register_OsiTMINLPInterface_options"]}
{"id": "C308", "title": "The NLP interface agrees with its options", "statement": "After any sequence of initialize, setSolver, readOptionFile, settings of options and set_linearizer, the members of the interface have the values that the options of its solver give.", "quantifier": "all sequences of calls on any number of shared option lists", "why_tests_cant": "needs all histories of a shared option list", "anchors": ["src/Interfaces/BonOsiTMINLPInterface.cpp:OsiTMINLPInterface::readOptionFile", "src/Interfaces/BonOsiTMINLPInterface.cpp:OsiTMINLPInterface::extractInterfaceParams"]}
{"id": "C309", "title": "An option read from a file last counts", "statement": "If nobody ever set an option of the interface with the prefix, then the value read by readOptionFile without the prefix is the one used.", "quantifier": "all histories, all options of the interface, all values and prefixes", "why_tests_cant": "a hidden setting appears only after particular histories", "anchors": ["src/Interfaces/BonOsiTMINLPInterface.cpp:OsiTMINLPInterface::readOptionFile", "src/Interfaces/BonOsiTMINLPInterface.cpp:OsiTMINLPInterface::extractInterfaceParams"]}
{"id": "C310", "title": "The NLP solver is the one asked for", "statement": "After initialize(options, prefix, model) returned, the solver of the interface is of the class that nlp_solver asks for in these options and works with these options and this prefix.", "quantifier": "all histories, all option lists and prefixes", "why_tests_cant": "depends on the history of the interface", "anchors": ["src/Interfaces/BonOsiTMINLPInterface.cpp:OsiTMINLPInterface::initialize", "src/Interfaces/BonOsiTMINLPInterface.cpp:OsiTMINLPInterface::createApplication"]}
{"id": "C311", "title": "A failed initialization of the NLP interface leaves no solver", "statement": "If initialize throws, the interface has no solver, so that the next call of initialize starts anew.", "quantifier": "all histories, all option lists, all answers of the solver's own initialization", "why_tests_cant": "exceptional paths and what they leave behind are not observed by tests of results", "anchors": ["src/Interfaces/BonOsiTMINLPInterface.cpp:OsiTMINLPInterface::createApplication"]}
{"id": "C312", "title": "Cuts are strengthened exactly if the option says so", "statement": "After readOptionFile the interface strengthens cuts if and only if cut_strengthening_type is not none.", "quantifier": "all histories, all contents of the file", "why_tests_cant": "turning an option off after it was on is a matter of histories", "anchors": ["src/Interfaces/BonOsiTMINLPInterface.cpp:OsiTMINLPInterface::extractInterfaceParams", "src/Interfaces/BonOsiTMINLPInterface.cpp:OsiTMINLPInterface::readOptionFile"]}
{"id": "C313", "title": "The infinity of the interface fits the NLP solver's", "statement": "After options were read, each bound that the NLP solver takes as infinite (nlp_lower_bound_inf, nlp_upper_bound_inf, with the usual signs) is infinite for the interface; if the two values are opposite, no other bound is.", "quantifier": "all histories, all values of the two options, all bounds", "why_tests_cant": "ranges over all rationals", "anchors": ["src/Interfaces/BonOsiTMINLPInterface.cpp:OsiTMINLPInterface::extractInterfaceParams"]}
{"id": "C314", "title": "The linearizer has the tolerances of the interface", "statement": "Once a linearizer was set it uses the tolerances and the infinity that the interface has.", "quantifier": "all sequences of calls", "why_tests_cant": "needs all histories of reading options and setting linearizers", "anchors": ["src/Interfaces/BonOsiTMINLPInterface.cpp:OsiTMINLPInterface::set_linearizer", "src/Interfaces/BonOsiTMINLPInterface.cpp:OsiTMINLPInterface::extractInterfaceParams"]}
{"id": "C315", "title": "Solver keeping to the new-point protocol gets the values it asked for", "statement": "Whatever wrappers sit between the solver and the user's problem (quadratic cuts, feasibility pump objective and constraints, objective moved to the constraints, cut strengthening), if the solver sets new_x on its first call and whenever the point changes, then each of the user's functions evaluated for a call is evaluated at the point of that call, even if the user's problem re-reads the point only when new_x is set (as the C interface does). Refuted for the objective moved to the constraints (enable_dynamic_nlp) and for the strengthening problem; proved for all other stacks.", "quantifier": "all stacks of wrappers, all protocol-respecting sequences of evaluation calls, all previous states of the user's problem, all success/failure replies of the user's functions", "why_tests_cant": "the wrong point is used only for particular orders of calls after particular earlier points; the values returned look plausible, and a test problem that ignores new_x hides it", "anchors": ["src/Interfaces/BonStdInterfaceTMINLP.cpp: apply_new_x, eval_*", "src/Algorithms/QuadCuts/BonTMINLPLinObj.cpp: eval_*", "src/Algorithms/QuadCuts/BonTMINLP2Quad.cpp: eval_*", "src/Interfaces/BonTNLP2FPNLP.cpp: eval_*", "src/Interfaces/BonCutStrengthener.cpp: StrengtheningTNLP"]}
{"id": "C316", "title": "Solver always announcing a new point is right on every stack", "statement": "If a solver sets new_x on every call (as filterSQP's interface and the OA cut generation do), each of the user's functions is evaluated at the point asked for on every stack of wrappers; for a strengthening problem that point is the starting point with the entries of the constraint's variables replaced by the solver's, independently of what was evaluated before.", "quantifier": "all stacks of wrappers, all sequences of calls with new_x set, all previous states", "why_tests_cant": "the strengthening problem keeps one full point that every evaluation overwrites in part; that no remains of earlier evaluations show must hold after any number of calls", "anchors": ["src/Interfaces/BonCutStrengthener.cpp: update_x_full", "src/Interfaces/Filter/BonFilterSolver.cpp: 97-150"]}
{"id": "C317", "title": "Evaluations are at the last point shown", "statement": "Whatever flags a solver passes, the functions evaluated for a call are evaluated at the point of the last call made with new_x that the stack hands on (the objective and its gradient are not handed on when the objective was moved to the constraints, nor by a strengthening problem, nor are single quadratic rows). So a solver that keeps to the protocol and uses each new point first in a call that is handed on is right on every stack.", "quantifier": "all stacks, all sequences of calls with any flags, all previous states", "why_tests_cant": "it characterises infinitely many orders of calls", "anchors": ["src/Algorithms/QuadCuts/BonTMINLPLinObj.hpp: 96-112", "src/Interfaces/BonCutStrengthener.cpp: 486-548"]}
{"id": "C318", "title": "Constraints evaluated one at a time with quadratic cuts are at the point asked for", "statement": "On a problem with quadratic cuts, if the caller keeps to the protocol, each constraint value and gradient asked for singly is evaluated at the point of the call. Refuted: asking for a quadratic row at a new point does not announce the point; proved when only the user's own rows are asked for singly.", "quantifier": "all numbers of rows, all protocol-respecting sequences of calls, all previous states", "why_tests_cant": "depends on the order in which rows are asked for after a new point", "anchors": ["src/Algorithms/QuadCuts/BonTMINLP2Quad.cpp: eval_gi, eval_grad_gi"]}
{"id": "C319", "title": "The quadratic model of a node is of the node's solution", "statement": "When a quadratic model for strong branching is built without error, its objective, gradient, Hessian, constraints and Jacobian are all evaluated at the node's solution. Refuted when the objective was moved to the constraints; proved for the other stacks.", "quantifier": "all stacks, all solutions, all previous states of the user's problem, all success/failure replies", "why_tests_cant": "only wrong when the user's problem was last evaluated elsewhere; the resulting branching decisions are still valid, so no output test shows it", "anchors": ["src/Interfaces/BonBranchingTQP.cpp: BranchingTQP"]}
{"id": "C320", "title": "The Jacobian used by the MILP rounding heuristic is that of the solution", "statement": "The rounding heuristic's Jacobian is evaluated at the relaxation's solution whatever was evaluated before. Refuted: new_x is never set; it is the solution's exactly when the user's problem was shown the solution last.", "quantifier": "all solutions, all previous states of the user's problem", "why_tests_cant": "depends on the last evaluation made before the heuristic is called", "anchors": ["src/CbcBonmin/Heuristics/BonMilpRounding.cpp: 142-146"]}
{"id": "C321", "title": "A point is announced to the user at most once per call", "statement": "For each call of a solver the user's problem is told new_x at most once, and never if the solver did not set it, so that expensive set-up for a point is done once. Refuted with the feasibility pump's cutoff constraint, which announces the point for the constraints and again for the objective; proved for stacks without it.", "quantifier": "all stacks, calls, points, states and replies", "why_tests_cant": "cost of redundant announcements is invisible in results", "anchors": ["src/Interfaces/BonTNLP2FPNLP.cpp: eval_g, eval_jac_g"]}
{"id": "C322", "title": "The check of a solution evaluates at the solution", "statement": "When a solution is checked, the user's constraints and objective are evaluated at that solution whatever was evaluated before, with or without quadratic cuts and with or without the objective moved to the constraints.", "quantifier": "all solutions, all previous states, all replies", "why_tests_cant": "depends on history of evaluations", "anchors": ["src/Interfaces/BonTMINLP2TNLP.cpp: check_solution"]}
{"id": "C323", "title": "RINS is never given up", "statement": "Once there is an incumbent, if RINS is called at every node then in any 10000 consecutive nodes it starts at least one search, whatever happened before. Refuted: with at most a tenth of the integer variables fixable it never searches. Proved: in any 10000 consecutive nodes it at least goes as far as fixing variables; its interval always stays between 10 and 10000 nodes; an interval set to 0 switches it off for good.", "quantifier": "all earlier histories of calls, all later lists of calls visiting 10000 consecutive nodes, all outcomes", "why_tests_cant": "the interval is adapted after every attempt; that it can never drift out of range needs an invariant over unbounded histories", "anchors": ["src/CbcBonmin/Heuristics/BonHeuristicRINS.cpp: HeuristicRINS::solution", "src/CbcBonmin/Heuristics/BonHeuristicRINS.hpp: setHowOften"]}
{"id": "C324", "title": "RINS attempts are at least ten nodes apart", "statement": "With one call per node in order, two nodes at which RINS does something differ by at least ten. Refuted: ten failures and nine successes later it acts at nodes 19929 and 19931 (halving the interval 10000 leads to odd intervals such as 39 and 19). Proved if it never succeeds, or as long as it has failed fewer than ten times.", "quantifier": "all lists of calls, all outcomes", "why_tests_cant": "the failing pattern needs some twenty thousand nodes with particular outcomes", "anchors": ["src/CbcBonmin/Heuristics/BonHeuristicRINS.cpp: HeuristicRINS::solution 108-115"]}
{"id": "C325", "title": "Fix-and-solve acts only early and without a solution", "statement": "The fix-and-solve heuristic does something exactly at the nodes 0, 100, ..., 1000 and only while no solution is known; it searches only if at least a third (rounded down) of the objects is satisfied, and then always.", "quantifier": "all calls", "why_tests_cant": "it is an exact description over all states of the search", "anchors": ["src/CbcBonmin/Heuristics/BonFixAndSolveHeuristic.cpp: FixAndSolveHeuristic::solution"]}
{"id": "C326", "title": "Local branching follows up every solution found by others", "statement": "Over a whole search, local branching starts a search at a call exactly if there are more solutions than its previous call left behind. Refuted: if a solution it returned is not kept by the search, the next solution found by someone else is not followed up. Proved if every solution it returns is kept.", "quantifier": "all searches (lists of calls of any length) in which the solution count does not go down and a best solution exists once solutions are counted", "why_tests_cant": "the effect of a rejected solution shows only at a later call", "anchors": ["src/CbcBonmin/Heuristics/BonHeuristicLocalBranching.cpp: HeuristicLocalBranching::solution"]}
{"id": "C327", "title": "Dives and MILP rounding run regularly", "statement": "In its first pass a dive runs exactly at multiples of 100 nodes, MILP rounding exactly at depth at most 2 and at multiples of 20 nodes; so any 100 (20) consecutive nodes visited contain a run.", "quantifier": "all calls; all lists of calls visiting such a window", "why_tests_cant": "it ranges over unbounded node counts and arbitrary orders of nodes", "anchors": ["src/CbcBonmin/Heuristics/BonHeuristicDive.cpp: HeuristicDive::solution", "src/CbcBonmin/Heuristics/BonMilpRounding.cpp: MilpRounding::solution"]}
{"id": "C328", "title": "The list of candidate sets is complete", "statement": "Building the list of candidate sets never aborts and never leaves its arrays; afterwards the first entries are all unsatisfied sets, each exactly once and no other; the ones offered for strong branching are first and all have the best priority; if strong branching is on and some set is unsatisfied at least one is offered.", "quantifier": "all numbers of sets, infeasibilities, priorities (ints) and usefulness values; all sorters of the values", "why_tests_cant": "the array is filled from both ends with entries moved between the ends at every better priority; that the ends never collide needs an invariant over any number of sets", "anchors": ["experimental/RobotBonmin/BonNWayChoose.cpp: BonNWayChoose::setupList"]}
{"id": "C329", "title": "The most useful set comes first", "statement": "The first set of the list (the one branched on once pseudo-costs are trusted) is one of the best priority with the largest usefulness. Refuted: the first set met is kept even with a negative usefulness while later ones need a positive one. Proved at the root, and whenever no set of the best priority has a negative usefulness.", "quantifier": "all numbers of sets, priorities and values", "why_tests_cant": "it depends on the order of the sets and the signs of the estimates", "anchors": ["experimental/RobotBonmin/BonNWayChoose.cpp: BonNWayChoose::setupList", "experimental/RobotBonmin/BonNWayChoose.cpp: BonNWayChoose::chooseVariable"]}
{"id": "C330", "title": "Usefulness of a set", "statement": "The usefulness of a set is not negative, and larger bounds or larger estimated changes of the objective do not make a set less useful. Refuted for negative cutoffs: the cutoff is multiplied by cutoff_multiplier (3 by default), falls below the objective of the node, and then usefulness depends on nothing but the number of free members (its sign alternates with it when geometrical means are used). Proved whenever the multiplied cutoff is not below the node's objective.", "quantifier": "all sets, bounds, estimates, solutions, cutoffs, multipliers; both kinds of means", "why_tests_cant": "test problems usually have positive objectives; the effect is only a bad choice", "anchors": ["experimental/RobotBonmin/BonNWayChoose.cpp: BonNWayChoose::compute_usefulness", "experimental/RobotBonmin/BonNWayChoose.cpp: registerOptions cutoff_multiplier, use_geo_means"]}
{"id": "C331", "title": "Estimates for sets are means of what was observed", "statement": "After any sequence of strong branchings on a set the estimate for each member is the mean (arithmetical or geometrical) of the change seen at the root and the positive changes seen later. Refuted with geometrical means (the default) for a set not tried at the root: its estimate stays 0 for ever. Proved with arithmetical means, and with geometrical ones once the set was tried at the root.", "quantifier": "all sequences of strong branchings on a set, all observed changes, both kinds of means, any root function", "why_tests_cant": "it is a statement about sums and products over unbounded histories", "anchors": ["experimental/RobotBonmin/BonNWayChoose.cpp: BonNWayChoose::doStrongBranching 555-576", "experimental/RobotBonmin/BonNWayChoose.cpp: BonNWayChoose::setupList 211-217"]}
{"id": "C332", "title": "The default options file can be read back", "statement": "Reading the options file written with the default values gives every option listed, in order and no other, its default: the text of a string option, the number of an integer option, the printed digits of a real one (the largest numbers included).", "quantifier": "all lists of options whose names and string values are words and whose descriptions and categories are one line; all ways of printing reals with digits, sign, point and exponent", "why_tests_cant": "the text is any number of lines of padded fields with comments containing arbitrary characters", "anchors": ["src/Interfaces/BonRegisteredOptions.cpp: RegisteredOptions::writeBonminOpt, makeNumber, makeString, defaultAsString"]}
{"id": "C333", "title": "Integer defaults are written exactly", "statement": "Every int default is read back from the written file exactly. Refuted for the smallest int only, which is written as the negative of the largest.", "quantifier": "all ints", "why_tests_cant": "four billion values", "anchors": ["src/Interfaces/BonRegisteredOptions.cpp: makeString(int), makeNumber"]}
{"id": "C334", "title": "LaTeX names show the name", "statement": "The LaTeX text of an option's name shows the name. Refuted: a hyphen is written as the command for a place to cut the word, which shows nothing. Proved: exactly the hyphens are lost, for names without other special characters.", "quantifier": "all names without the characters special to TeX", "why_tests_cant": "all strings", "anchors": ["src/Interfaces/BonRegisteredOptions.cpp: makeLatex"]}
{"id": "C335", "title": "Links of the options table lead to the sections", "statement": "The links of the table in the documentation are, in order, the anchors of the sections of the same document, and anchors are distinct. Refuted for categories that differ only in blanks or underscores; proved for all others.", "quantifier": "all lists of options with options of a category together", "why_tests_cant": "all lists and categories", "anchors": ["src/Interfaces/BonRegisteredOptions.cpp: writeLatexHtmlDoc, writeHtmlOptionsTable, makeSpaceLess"]}
{"id": "C336", "title": "The HTML table is well-formed", "statement": "Every element of the HTML table is closed, in the right order. Refuted for every list of options: a row is closed that is not open, and the table chosen by category opens its table twice. Proved: without that one closing tag the table of a list is well-formed.", "quantifier": "all lists of options", "why_tests_cant": "browsers repair such pages, so looking at them does not show it", "anchors": ["src/Interfaces/BonRegisteredOptions.cpp: writeHtmlOptionsTable"]}
{"id": "C337", "title": "The HTML table has one row per option", "statement": "The rows of the table are the header and then, in order, one row per option with its name, the letter of its type and a plus or minus for each of the four algorithms of the header, in the header's order.", "quantifier": "all lists of options and validities", "why_tests_cant": "all lists", "anchors": ["src/Interfaces/BonRegisteredOptions.cpp: writeHtmlOptionsTable, OptionType2Char"]}
{"id": "C338", "title": "The exit status of bonmin tells a failure", "statement": "The program ends with status 0 exactly when the run did not fail. Refuted: after a failure reported by one of the five expected kinds of errors the status is 0; only other exceptions end the process abnormally. Proved: something is written on the error stream exactly when the run failed.", "quantifier": "all kinds of endings of the run, any number of arguments at least one", "why_tests_cant": "scripts look at the status of runs that mostly succeed", "anchors": ["src/Apps/BonMin.cpp: main"]}
{"id": "C339", "title": "The programs do not crash on their arguments", "statement": "Neither program reads a null pointer, whatever the number of arguments. Refuted: the node solver without argument; bonmin without argument when it has to report an exception of unknown type. Proved with at least one argument.", "quantifier": "all numbers of arguments and kinds of endings", "why_tests_cant": "tests call the programs with arguments", "anchors": ["src/Apps/BonMin.cpp: main", "src/Apps/BonNodeSolver.cpp: main"]}
{"id": "C340", "title": "A C interface problem gives back its storage over its whole life", "statement": "After creation, any sequence of scaling calls and solves, and freeing, nothing is left allocated and nothing was released twice. Refuted: every solve with a starting point leaves its local arrays behind (start point, types, multipliers). Proved: exactly these are left, and nothing is released twice.", "quantifier": "all sequences of scaling calls and solves with any of the arrays absent, all numbers of constraints", "why_tests_cant": "leaks are invisible to functional tests, and the number of solves is unbounded", "anchors": ["src/Interfaces/BonStdCInterface.cpp: CreateBonminProblem, SetBonminProblemScaling, BonminSolve, FreeBonminProblem"]}
{"id": "C341", "title": "A process of the parallel program gets the user's files unchanged", "statement": "The processes that solve nodes work with the content of the .nl file and of the options file that the user named. Refuted: each content is cut at its first zero byte, so a binary .nl file does not arrive. Proved: what arrives is the content up to the first zero byte, the whole content exactly when there is none; a missing file stops the run.", "quantifier": "all contents of both files", "why_tests_cant": "test problems are text .nl files and are read by the first process only", "anchors": ["experimental/Bcp/BM_tm.cpp: BM_tm::readIpopt", "experimental/Bcp/BM_pack.cpp: BM_tm::pack_module_data, BM_lp::unpack_module_data"]}
{"id": "C342", "title": "At the start of a node the branching objects have the bounds of the node", "statement": "In the hybrid algorithm of the parallel program, after any number of nodes the nonlinear problem has the bounds of the last one, and both solvers have one object for each integer variable, in order and with these bounds, followed by the special ordered sets unless the program is compiled to disregard them, as it is.", "quantifier": "all numbers of variables, patterns of integer variables, sets and sequences of nodes with any bounds", "why_tests_cant": "the order of objects that the loop relies on is set up elsewhere, and the number of nodes is unbounded", "anchors": ["experimental/Bcp/BM_lp.cpp: BM_lp::initialize_new_search_tree_node", "experimental/Bcp/BM_pack.cpp: BM_lp::unpack_module_data"]}
{"id": "C343", "title": "Cut generators of the parallel program are used with their documented frequency", "statement": "A generator with option k is asked every k nodes for k > 0, every -k nodes for -99 < k < 0, at the root only for -99, never for 0 and 100. Refuted: the option is compared to a random number below 1. Proved: positive k means every node (for 1 unless exactly 0 is drawn), negative k means never, not even at the root.", "quantifier": "all options, nodes and random numbers", "why_tests_cant": "the effect is seen only in the number of cuts, and depends on random numbers", "anchors": ["experimental/Bcp/BM_lp.cpp: BM_lp::generate_cuts_in_lp"]}
{"id": "C344", "title": "Cuts found in the parallel program are handed over once", "statement": "Every cut found by the feasibility check or by a generator that was asked is handed to the branch-and-cut framework, once, in order, with the row that belongs to it. Refuted: column cuts are dropped. Proved: handed over are exactly the row cuts not discarded by an expansion of other cuts before the next round; none in pure branch-and-bound.", "quantifier": "all sequences of checks, rounds and expansions, all generators", "why_tests_cant": "depends on the interleaving of three entry points over a run", "anchors": ["experimental/Bcp/BM_lp.cpp: BM_lp::generate_cuts_in_lp, BM_lp::cuts_to_rows, BM_lp::test_feasibility_hybrid"]}
{"id": "C345", "title": "A cut arrives at another process as it was sent", "statement": "Any number of cuts packed into a buffer are unpacked in order with the same coefficients and cut bounds and leave what follows; the rows made of them are those of the sender exactly when the framework sets its bounds again (they are not sent). A cut of another kind is refused.", "quantifier": "all lists of cuts, all contents of the buffer after them", "why_tests_cant": "needs several processes; the buffer is a stream without types", "anchors": ["experimental/Bcp/BB_cut.cpp: BB_cut::pack, BB_cut::BB_cut", "experimental/Bcp/BM_pack.cpp: BM_pack::pack_cut_algo, BM_pack::unpack_cut_algo", "experimental/Bcp/BM_lp.cpp: BM_lp::cuts_to_rows"]}
{"id": "C346", "title": "The feasibility problem posed depends on the last call only", "statement": "Whatever feasibility problems (feasibility pump with or without cutoff, local branching) were posed to an NLP interface before, the problem the solver sees after a further call (size, bounds, objective, gradients, constraints, Jacobian, Hessian) is that of the last call. Refuted for the values of the Hessian: after a switch to local branching the Hessian of the objective keeps the weight (1-lambda)*sigma of the last pump call, 0 if none, although the objective is the user's. Proved for everything else.", "quantifier": "all NLPs, all sequences of calls, all points and multipliers", "why_tests_cant": "the state left by any sequence of earlier calls must not matter", "anchors": ["src/Interfaces/BonOsiTMINLPInterface.cpp: switchToFeasibilityProblem, solveFeasibilityProblem", "src/Interfaces/BonTNLP2FPNLP.cpp: TNLP2FPNLP, eval_h"]}
{"id": "C347", "title": "Copies of a cut generator have its settings", "statement": "However often outer approximation, feasibility pump, feasibility check and ECP generators are copied (Cbc copies them), every copy has all settings of the generator built from the options, and a copied feasibility checker chooses the kind of its cuts as the original would, going on with its count.", "quantifier": "all histories of constructions, copies and cut rounds", "why_tests_cant": "all histories and chains of copies", "anchors": ["src/Algorithms/OaGenerators/BonOaDecBase.cpp: OaDecompositionBase, Parameters", "src/Algorithms/OaGenerators/BonOaFeasChecker.hpp: OaFeasibilityChecker", "src/Algorithms/OaGenerators/BonEcpCuts.hpp: EcpCuts", "src/Algorithms/BonSubMipSolver.cpp: SubMipSolver"]}
{"id": "C348", "title": "The time limit of a decomposition counts from the reading of the options", "statement": "A local search of an outer approximation or feasibility pump generator begins at a fractional point only within its time limit since the options were read. Refuted: a copy counts from its own making. Proved: a search begins exactly if the time since this copy was made is below the limit, fewer solutions than the limit are known and this copy has solved fewer sub-MIPs than allowed.", "quantifier": "all histories of constructions, copies, waiting times and cut rounds", "why_tests_cant": "all histories and times", "anchors": ["src/Algorithms/OaGenerators/BonOACutGenerator2.cpp: doLocalSearch", "src/Algorithms/OaGenerators/BonFpForMinlp.cpp: doLocalSearch", "src/Algorithms/OaGenerators/BonOaDecBase.cpp: OaDecompositionBase, generateCuts"]}
{"id": "C349", "title": "Heuristics with a sub-MIP own their memory", "statement": "MIP diving and MILP rounding heuristics may be constructed, initialised again, copied, assigned and deleted in any order: no released memory is accessed, nothing leaks or is shared, and each has the frequency and sub-MIP last given to it. Refuted when initialising an existing heuristic throws (CPLEX asked for but not available); proved otherwise.", "quantifier": "all sequences of calls on heuristics that exist, all setups", "why_tests_cant": "all sequences of calls", "anchors": ["src/CbcBonmin/Heuristics/BonHeuristicDiveMIP.cpp: Initialize, HeuristicDiveMIP, operator=", "src/CbcBonmin/Heuristics/BonMilpRounding.cpp: Initialize, MilpRounding, operator="]}
{"id": "C350", "title": "A branching rule copied or assigned is like the other", "statement": "A strong branching rule that is a copy of another or assigned from it has the other's options, time limit and pseudo-costs. Refuted: an assignment keeps the time limit, and the time it counts from, of the rule assigned to. Proved for copies and for everything but the time limit.", "quantifier": "all histories of constructions, copies, assignments and learning", "why_tests_cant": "all histories", "anchors": ["src/Algorithms/Branching/BonChooseVariable.cpp: BonChooseVariable, operator=, doStrongBranching"]}
{"id": "C351", "title": "Special ordered sets are branched on by the parallel program", "statement": "In the parallel program the objects a worker branches on include every special ordered set of the problem.", "quantifier": "all patterns of integer variables, bounds and numbers of sets", "why_tests_cant": "whether the sets are used is decided by a macro in a header, and no test of the parallel program has a problem with sets", "anchors": ["experimental/Bcp/BM.hpp: BM_DISREGARD_SOS", "experimental/Bcp/BM_pack.cpp: BM_lp::unpack_module_data", "experimental/Bcp/BM_tm.cpp: BM_tm::initialize_core"]}
{"id": "C352", "title": "The core problem of the parallel program has the columns of the relaxation and their types", "statement": "The core problem given to the tree manager has one variable for each column, with the same bounds and declared binary, integer or continuous as the column is; objective and rows are those of the relaxation in the hybrid algorithm and absent in pure branch-and-bound.", "quantifier": "all numbers of columns and rows, all types and bounds, both algorithms", "why_tests_cant": "the declared type is not part of any output and the number of columns is unbounded", "anchors": ["experimental/Bcp/BM_tm.cpp: BM_tm::initialize_core"]}
{"id": "C353", "title": "The tree manager keeps pseudo-costs for exactly the objects of the workers", "statement": "In the parallel program the number of pseudo-costs the tree manager is initialised with is the number of objects every worker builds, with special ordered sets disregarded or not.", "quantifier": "all patterns of integer variables, bounds and numbers of sets, both values of the macro", "why_tests_cant": "the two counts are made in different processes and files, by loops over any number of columns", "anchors": ["experimental/Bcp/BM_tm.cpp: BM_tm::initialize_core", "experimental/Bcp/BM_pack.cpp: BM_lp::unpack_module_data"]}
