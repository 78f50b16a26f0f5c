# Formal model of Bonmin in Rocq (Coq 8.16.1)

The code studied is coin-or/Bonmin, in /repo, read as text.  Nothing was built or run.
The model is a set of total Gallina functions written from the C++ source, one C++ function
at a time.  Each definition carries a comment with the file and lines it models.

## Layout

`rocq/theories/<Area>_Model.v`  the model (definitions only)
`rocq/theories/<Area>_Spec.v`   small specifications used in the statements, independent of the model
`rocq/theories/<Area>_Proofs.v` lemmas
`rocq/theories/<Area>_Props.v`  the property theorems, each with `Print Assumptions` and an `Example`

`Base.v` (outcomes, comparisons), `Arr.v` (arrays with uninitialised cells), `Nlp.v` (the NLP
interface) are shared.

## Modelling conventions

* **Numbers.** C++ `double` is modelled by exact rationals `Q` (stdlib QArith).  Rounding, NaN
  and overflow of doubles are not modelled, except where the code's own NaN decides the result
  (resolveForCost, chooseVariable: an undefined quotient is `None`).  Infinite bounds are explicit
  (type `ext`), or the numeric thresholds the code itself compares with.
  Integer variables, indices and counters are `nat` or `Z` without overflow.
* **Undefined behaviour.** A failed `assert`, a null dereference, an out-of-bounds access, a read
  of uninitialised storage, a use of released storage, a thrown exception (or `exit`) and a
  non-terminating loop are separate outcomes (`Ok`, `AssertFail`, `NullDeref`, `OutOfBounds`,
  `Uninit`, `Dangling`, `Thrown`, `Diverges` in `Base.v`), never a normal value.  Asserts are active (a build
  without NDEBUG); DBG_ASSERT of Ipopt is compiled out.
* **External code.** The Cbc heap, the NLP/LP/MILP solvers, user callbacks, `std::sort` and random
  numbers are arguments (oracles) of the model functions.  What is assumed about them is a visible
  hypothesis of the theorem or a part of the definition, and is listed in the trusted base below.
* **Loops.** Loops over containers are structural recursions.  Loops whose end depends on an oracle take fuel and
  end in `Diverges` when it runs out; the theorems on them either hold for every fuel or exhibit enough of it.
* **Refutations.** When the code violates a property, the full property is kept as a definition
  (`Cxx_full` in the Spec file), `Cxx..._refuted` proves its negation on the faithful model by a concrete
  witness, and `Cxx..._partial` theorems prove the part that does hold, for all inputs, as an exact
  characterisation where possible.  In MANIFEST.json such a property is "partial".

## Plan per property: what is modelled, how it is proved

| id | model | proof |
|----|-------|-------|
| C01 | CbcDiver state (heap list, nextOnBranch, cleaning flag), operations push/pop/bestNode/cleanTree/endSearch; heap order is an oracle | multiset conservation invariant by induction over operation histories |
| C02 | getBestPossibleObjective of the three trees | fold-min lemma over all containers |
| C03 | CbcProbedDiver, both slots, NULL pushes as an error outcome | conservation for histories respecting the one-parent-two-children protocol; refuted without it |
| C04 | CbcDfsDiver with its four modes | conservation in the first two modes; refuted in the others |
| C05 | same | invariant nBacktracks < max; refuted at option value 0 and at finite depth limit |
| C06, C07 | QuadRow over sparse triplets, gradient map as an ordered association list | algebra over Q, induction on the triplets |
| C08 | Hessian position map with add/remove histories | invariant over histories; refuted for index reuse after erase |
| C09 | both conversions | equality of values; refuted for the constructor |
| C10 | triplet matrix normalisations | quadratic-form preservation; refuted where wrong |
| C11 | linear-objective wrapper | feasibility equivalence, row-by-row index lemmas |
| C12-C14 | feasibility-pump NLP wrapper | case analysis on the two flags, algebra |
| C15 | starting point storage with live/freed pointers | history induction; refuted |
| C16-C21 | cut generators | convexity inequality as hypothesis on the oracle (first-order condition), algebra over Q |
| C22 | cutoff computation | arithmetic; refuted at 0 |
| C23 | branching QP | algebra (exact second-order expansion) |
| C24 | random starting point | interval arithmetic for all draws |
| C25, C26 | bounds manipulation histories | list induction |
| C27-C30 | status machines | case analysis and induction over histories |
| C31 | copy of SOS data with uninitialised cells | refuted, with the parts that are right |
| C32 | bounds file writer/reader on token streams | round-trip by induction; refuted at end of file |
| C33 | fixed-problem short-cut | list induction; refuted on crossed bounds |
| C34 | triplet to packed rows | decode-encode by induction over rows |
| C35 | termination code switch | case analysis; refuted on unbounded |
| C36-C39 | candidate lists and strong branching | permutation/invariant induction |
| C40 | disjunctive cut | arithmetic; refuted for general integers |
| C41 | diving heuristic loop with oracle NLP | invariant over iterations |
| C42 | MILP rounding matrix and no-good cut | refuted; partial for column-ordered input |
| C43 | option validity bits | history induction |
| C44 | C interface data flow | refuted |
| C45 | pseudo-cost updates | history induction |
| C46 | TMINLP2Quad row/Jacobian bookkeeping over add/remove histories | invariant: list of live rows, induction over histories |
| C47, C48 | eval_gi, get_scaling_parameters | case analysis; both refuted |
| C49 | the queries of the linear-objective wrapper with uninitialised output cells | cell-by-cell; refuted |
| C50 | cutoff row of the feasibility NLP | case analysis on the flags; refuted |
| C51 | bounds storage of TMINLP2TNLP over histories of setters and row additions | refinement to "last value set" by induction |
| C52 | finalize_solution over histories of solves | induction; refuted when rows drop to zero |
| C53 | check_solution | maximum over the rows by list induction |
| C54 | force_fractionnal_sol | coordinatewise; refuted |
| C55, C56 | copy constructor and operator= on storage with allocation sizes | equality and independence; refuted |
| C57, C58 | getOuterApproximation with the global flag, extractLinearRelaxation | convexity hypothesis, box arithmetic; refuted |
| C59, C60 | the performOa and doCheck loops with oracles | loop invariant (bound validity), decreasing set of unvisited points; termination refuted at the limits |
| C61 | finalize_solution of the branching QP | algebra; refuted |
| C62, C63 | status storage and the code table of the interface | histories of solves and copies; case analysis |
| C64 | Bab status fields | case analysis of the end of branchAndBound |
| C65, C66 | multiplier and derivative conversion of the Filter/Bqpd interfaces | list induction, sums over triplets |
| C67, C68 | FilterWarmStart diffs, solver cache | round trip by induction; refuted |
| C69, C70 | copies of BranchingInfo, PerturbInfo with released pointers | histories; refuted |
| C71 | hasGeneralInteger | list induction; refuted on fixed variables |
| C72 | starting point file writer/reader on token streams | round trip; refuted without multipliers |
| C73 | StdInterfaceTMINLP evaluation calls | induction over call sequences |
| C74 | heap blocks of the C interface | induction over scaling calls; refuted for m = 0 |
| C75 | option tables | permutation and grouping under the sort contract |
| C76 | setupList keep/sort | invariant of the scan; refuted for one criterion |
| C77 | LpBranchingSolver answers | case analysis; refuted |
| C78, C79 | chooseVariable | invariant over the candidate scan |
| C80, C81 | HotInfo update, look-ahead | case analysis, induction over candidates; refuted |
| C82-C84 | cut strengthener | exactness of the sub-solver as hypothesis, arithmetic; C84 refuted |
| C85-C87 | HeuristicDive termination and selection rules | decreasing measure (total width of the bounds), scan invariant; refuted without finite bounds / grouped entries |
| C88, C89 | MilpRounding over sequences of calls | invariant: every earlier rounding violates a stored cut |
| C90, C91 | HeuristicDiveMIP | matrix decode lemma, decreasing measure; C90 refuted with duplicates |
| C92 | caches of the row senses in the NLP interface | invariant `cached` over all call sequences; refuted with use() |
| C93, C94 | points, activities, objective reported by the interface | invariant relating the state to the history, on top of the invariant of the Prob area; refuted |
| C95-C98 | fake basis, parameters, violations, warm starts | exact characterisations, induction over the rows; refuted |
| C99, C100 | EcpCuts::generateCuts over any LP, cut and violation oracles | induction over the rounds with the list of visited points as ghost state |
| C101, C102 | doEcpRounds, violated-only filter | exact characterisation; refuted |
| C103-C105 | OaNlpOptim::generateCuts | column-wise characterisation of the bound copies; C103 refuted on exceptions |
| C106 | LinearCutsGenerator::generateCuts | reverse induction over the added rows; refuted for a non-empty collection |
| C107, C108 | heap of live solvers, copies and deletions of the set-up, five heuristics over an inner-search oracle | exact heap effect; refuted |
| C109 | RINS state | induction over reachable states, division arithmetic |
| C110 | RINS fixing loop | exact effect by induction, rounding lemma |
| C111, C112 | local branching state | sortedness of the searched counts over call sequences; refuted |
| C113, C114 | results handed back | case analysis on exact results; C114 refuted |
| C115 | RoundingFPump::round | loop lemmas; weighted sum bounded by the row; refuted |
| C116-C118 | the pump loop with oracles for NLPs, sort and random numbers | invariant over iterations with the list of targets as ghost state; C117 refuted |
| C119, C120, C121 | BonBonminSetup/BabSetupBase initialisation over a model of the option store | frame lemmas (which names a step may write), keeps relation for locked entries; C119, C120 refuted |
| C122, C123, C124 | lists of cut generators | exact list of generators; C122, C124 refuted |
| C125 | lists of heuristics | exact list by frame lemmas; refuted |
| C126, C127 | branching objects: find_integers, setPriorities, addSos, BonCbc's hand-over | exact list of objects for every algorithm and rule; both refuted |
| C128, C129, C130 | copy of a set-up under a prefix, LocalSolverBasedHeuristic's set-up | sub_params (exact parameters read under the prefix), keeps relation; all refuted, with the exact behaviour |
| C131, C132 | copying onto an NLP, initialising twice | exact results; both refuted |
| C133 | cut strengthener without disjunctions | exact outcome; extreme value over the box as specification |
| C134 | MilpRounding's MILP | exact problem handed to the solver, against a separate definition of the intended MILP |
| C135 | setupList with a pseudo-cost criterion | invariant of the in-place list with a general key, separate formula for the expected change; refuted for worst-ps-cost |
| C136, C137 | chooseVariable: direction, tried candidates | exact list of candidates by induction, directions as invariant; C136 refuted |
| C138 | ComputeNullSpaceCurvature: projection spaces, linear systems as triplets, sanity check | renumbering proved by induction over the marks; solver oracle sized or exact; two projections compose (orthogonality); refuted for inaccurate solvers |
| C139 | hot start state machine, invalid reads as outcomes | invariant over all histories; refuted without constraints |
| C140 | the same, user functions with memory | two runs related by an agreement relation on the estimator's caches; refuted for functions relying on flags |
| C141 | the same | from the characterisation of the direction |
| C142 | the same | induction over trials; value refuted |
| C143 | option list through the whole set-up (Set_Proofs2.v) | what each step does to the five options of the second searches, composed; refuted for RINS |
| C144, C145 | objects behind interfaces as a heap: problem objects, feasibility problems, linearizers, strong-branching solvers | separation invariant over all histories (no two interfaces reach the same object), frame lemma per operation; refuted |
| C146, C147, C148 | assignment, setModel/use, solve with fallback solvers | exact effect on the views, from the invariant; refuted |
| C149 | switches to the feasibility problem and back | invariant kept by every operation that does not leave the mode; refuted |
| C150, C151 | cached Jacobian arrays, with out-of-bounds accesses and asserts as outcomes | invariant: arrays are those of the problem posed; exact outcomes; refuted |
| C152 | marked strong-branching solver | frame lemma for the solver objects; refuted |
| C153 | performOa of the feasibility pump with oracle solvers | loop invariant: rows are start rows or cuts, reason why the loop ended; refuted |
| C154 | set_fp_objective | induction over columns: objective = distance minus a constant; converse by a pair of points; refuted |
| C155 | performOa, post_nlp_solve, cutoff update | loop invariant on the list of solutions; absence of failed assertions; refuted |
| C156 | performOa, fixIntegers, generateCuts | loop bound by the limit of sub-MIPs; frame lemma; refuted |
| C157 | generateCuts with the solution count of the search | induction over calls; refuted |
| C158 | generateCuts with saved cuts | induction over calls |
| C159 | solvers with shared information objects: copy, set, start, solve, report | relation to families of solvers, induction over histories |
| C160 | same | same |
| C161 | same, with replacement of the problem in a solver | invariant: one number of columns per family |
| C162 | slot for an NLP solution: store, flag, copy | refinement to the last solution stored |
| C163 | start and end of the search with enable_dynamic_nlp | case analysis over all configurations and sizes |
| C164 | sets of variables with one up: createBranch, branch | induction over the branches; exact characterisation of the points kept |
| C165 | same | same |
| C166 | infeasibility, feasibleRegion of a set | induction over the members |
| C167 | strong branching over all sets at the root, later fixings | invariant: every solution below the cutoff stays in the box and its member's bound is below its value |
| C168 | addNWays | induction over constraints and columns |
| C169 | copy, assignment | createBranch shown to depend on bounds only through the cutoff test |
| C170 | the choice loop of chooseVariable | induction over the tests |
| C171 | strong branching on one set | no step reads outside its arrays |
| C172 | the step of CurvBranchingSolver::solveFromHotStart | from the exact description of the estimator (C138) and the marked-node invariant |
| C173 | setColBounds of the model of interfaces | ownership invariant of C144-C152 |
| C174 | setStrong, mark and unmark in the same model | invariant: solvers held exist, and those of the interface came after the call |
| C175 | get_variables_types, get_variables_linearity, hasLinearObjective on the counts ASL gives | the filled prefix as loop invariant, against the list of the nine groups |
| C176 | getLinearPartOfObjective | exact effect of the two loops; refuted |
| C177 | read_priorities | copies of whole tables |
| C178 | read_priorities, the union of a suffix's values | position arithmetic of pairs of ints; refuted |
| C179 | read_sos, sos_kludge | induction over the sets and within each set |
| C180 | read_obj_suffixes | last mark found, induction |
| C181 | read_convexities with its map | induction over the constraints; refuted for unknown identifiers |
| C182 | read_onoff with its map | induction over the constraints |
| C183 | finalize_solution | cases of the end of the run; refuted for the own file |
| C184 | finalize_solution and TMINLP SolReader as words and numbers of a stream | the reading of a written stream; refuted for ends other than optimal |
| C185 | NamesReader: the vector with its blocks, the map with addresses | invariant: key i is the i-th name; refuted for short names |
| C186 | copyNames | refuted, exact |
| C187 | the test for the extension in both readers | list of characters; refuted for one letter |
| C188 | PerturbInfo | sequences of settings; refuted |
| C189 | hasGeneralInteger | induction over the variables, integrality |
| C190 | the own file of finalize_solution | induction over the values |
| C191 | initialSolve, resolve, set/getWarmStart | every step extends the log of starts; the first entry after a warm start |
| C192 | resolveForRobustness | refuted; what is stored afterwards, induction over the attempts |
| C193 | resolveForCost | refuted; what is stored afterwards, induction over the attempts |
| C194 | all operations on starts | refuted; invariant over all sequences of operations |
| C195 | flushed and empty warm starts | refuted; exact condition |
| C196 | differences of warm starts | refuted; exact condition |
| C197 | WarmStartIterate | refuted; induction over the variables with what was read so far |
| C198 | UpdateStoredIterates | induction over the iterates |
| C199 | BqpdWarmStart | refuted; sequences of copies |
| C200 | getMyOuterApproximation (outer descriptions) | refuted; induction over the entries |
| C201 | SepaTMINLP2OsiLP::get_oas, get_oa, TMINLP2OsiLP::cleanNnz | induction over entries and rows |
| C202 | tangents linked to a switch | refuted; cases on the sides |
| C203 | sampling loops | refuted; induction over the remaining tangents and steps |
| C204 | sampled and refined points | refuted; convexity of the box |
| C205 | SepaTMINLP2OsiLP::extract | refuted; induction over entries and rows |
| C206 | copies of TMINLP2OsiLP | refuted; computation |
| C207 | selection by a second point | refuted; exact condition |
| C208 | tangents at violated points | refuted; exact condition |
| C209 | chords between points, for all rows and grids | refuted three ways; convexity and location in the grid |
| C210 | inner approximation heuristic, MIP solver as an oracle | refuted; from C209 |
| C211 | exit when a chord cannot be built | refuted; exact condition |
| C212 | chords linked to a switch | refuted for variable 0; computation |
| C213 | result of the heuristic | case analysis |
| C214 | GuessHeuristic | refuted without branching method; sum over objects |
| C215 | choice of the MILP solver with Ipopt's registry | refuted; computation |
| C216 | cut frequencies | refuted; induction on the kinds |
| C217 | setupCutGenerators | induction on the kinds |
| C218 | sort_objects with its blocks | refuted; invariants of the loop over the objects |
| C219 | collect_branch_data | case analysis on the kinds of candidates |
| C220 | BM_solve_branches | induction on the branches |
| C221 | do_distributed_SB with oracle order of replies | refuted; all orders of messages give the same table |
| C222 | do_distributed_SB | refuted; counting results |
| C223 | process_SB_results and bbBranch with a correct solver | refuted; invariants of the bounds |
| C224 | try_to_branch | refuted; each step ends in Ok |
| C225 | parameter file | refuted; induction on the file |
| C226 | process_SB_results | induction on the candidates |
| C227 | values of the children | refuted; table after evaluation |
| C228 | failures over processes and nodes | invariant of the transition system |
| C229 | update of pseudo-costs, sender and receiver | refuted; induction on the table |
| C230 | pack and unpack of node data | computation |
| C231 | test_feasibility_hybrid, write_AMPL_solution | refuted; induction on the values |
| C232 | comparison of nodes | refuted; arithmetic |
| C233 | compute_lower_bound | refuted; arithmetic |
| C234 | process_SB_results | invariant of the bounds |
| C235 | lives of sub-MIP solvers and LPs | refuted; invariant over all sequences of calls |
| C236 | ownership of LPs | invariant over all sequences of calls |
| C237 | the array of the solution | refuted; invariant over all sequences of calls |
| C238 | solutions of find_good_sol, optimize | refuted; contract of the MILP solvers |
| C239 | optimal() | refuted; contract of the MILP solvers |
| C240 | lowBound() | contract of the MILP solvers |
| C241 | the loop of find_good_sol | induction on the time left; invariant of the loop |
| C242 | nodeCount() | refuted; cases |
| C243 | optimize_with_lazy_constraints | refuted; cases on the sides of rows |
| C244 | CPLEX parameters over solves | refuted; invariant over all sequences of calls |
| C245 | setLpSolver | cases; frame |
| C246 | QPs posed by strong branching | invariant over all histories |
| C247 | arrays, hot starts, workspaces | invariant over all histories (outcome) |
| C248 | start of a trial | refuted; invariant between mark and unmark |
| C249 | restart frequency | invariant between mark and unmark |
| C250 | states continued by warm starts | refuted; invariant over all histories |
| C251 | enlargement loop | refuted (induction on fuel); bound on doublings |
| C252 | interface after unmark | refuted; invariant |
| C253 | OptimizeTNLP / ReOptimizeTNLP sequences | refuted; invariant over all sequences |
| C254 | status, point, value of a trial | invariant over all histories |
| C255 | Hessian, sizes | invariant over all histories |
| C256 | bad_warm_start_info_ | invariant over all histories |
| C257 | static options | refuted; invariant over all histories |
| C258 | DiverCompare::test by mode, Cbc heap functions as oracles | refuted by a run; exact condition by an invariant over all runs |
| C259 | bestNode with an ordered heap | invariant over all runs, contract of the C++ heap functions |
| C260 | bestNode in the late modes | refuted; exact result over all runs |
| C261 | dive_ as a queue | induction over runs |
| C262 | newSolution, every1000Nodes | induction over runs |
| C263 | diver_ of a copied comparison | refuted; equality of runs |
| C264 | operator= | refuted; exact condition |
| C265 | objects passed to Cbc in a first run | refuted; induction over columns and sets |
| C266 | objects of the continuous solver | direct |
| C267 | generators, heuristics, objects over runs | refuted; induction over runs |
| C268 | special option, strategy, comparison, tree over runs | refuted; induction over runs |
| C269 | limits and clock | direct, after any history |
| C270 | assignSolver and assignLpInterface over runs | refuted; induction over runs |
| C271 | objects_ over runs, destructor | refuted; induction over runs |
| C272 | enable_dynamic_nlp at the root | refuted; exact condition |
| C273 | starting point of option 16 | direct |
| C274 | signal handler over a process | refuted; invariant over actions |
| C275 | signal handler over a process | refuted; invariant over actions |
| C276 | objects_ given to the OA generators | direct, from any state |
| C277 | IpoptSolver as a state machine over calls | direct, from the exact behaviour of a solve |
| C278 | statistics of both solvers over sequences of calls | refuted for filterSQP; invariant over histories |
| C279 | BonminAbortAll in OptimizeTNLP | refuted; exact |
| C280 | ReOptimizeTNLP contract of Ipopt | refuted; invariant over histories gives the exact condition |
| C281 | errorName table | refuted; case analysis over all codes and numbers |
| C282 | OptionsList with allow_clobber, setMinlpDefaults | lookup lemmas, induction on files and calls |
| C283 | output levels | refuted; invariants over histories |
| C284 | statics shared by the FilterSolver objects | invariant over the process, per-object histories |
| C285 | common blocks shared by the FilterSolver objects | refuted; invariant naming the last object that made a cache |
| C286 | rho in cachedInfo::optimize | refuted; direct |
| C287 | BabSetupBase::readOptionsFile(name), readOptionsStream | refuted for every missing file; exact effect of a call |
| C288 | readOptionsFile() and the flag readOptions_ over programs | refuted; induction over the calls with what they reported |
| C289 | the same with use(tminlp), use(nlp), setOptionsAndJournalist | refuted; contents equal a fold over the texts of the program |
| C290 | mayPrintDoc | refuted; bounds per call, exact count for the AMPL set-up |
| C291 | copy constructors and destructor on a heap with deletion | refuted; ownership invariant over all programs, converse for shared objects |
| C292 | copy constructor | refuted; all parts but heuristics compared in the heap |
| C293 | copy constructors | refuted; exact |
| C294 | copy constructors, null pointers | refuted; exact conditions in all states reached without copied objects |
| C295 | option lists of set-ups and solvers | refuted; exact by an invariant on which set-ups share the list with their solver |
| C296 | option lists of set-ups and solvers | invariant: lists of different set-ups are disjoint |
| C297 | Cbc's loop as client of the plain tree and of CbcDiver, over any right subproblem solver | invariant: every point that could still win lies in a pending branch of an open node whose value is a bound for it; 4^size of the root bounds the rounds |
| C298 | the same on CbcProbedDiver | same invariant with the tree's slots; refuted with stop_diving_on_cutoff |
| C299 | the same on CbcDfsDiver, with and without DiverCompare's mode changes | same invariant in the early modes; refuted for the dynamic strategy with a finished search and a wrong answer |
| C300 | the four strategies | from C297-C299 |
| C301 | the loop stopped after any number of rounds | same invariant; refuted for the dynamic strategy |
| C302 | the loop on an arbitrary tree | induction over rounds, nothing assumed of the tree |
| C303 | collections, the cuts they point to and the client's pointers as a heap; every member function of Cuts | refinement to lists of values, both directions, by an invariant counting the holders of each cut; self-insertion refuted |
| C304 | same | frame of the specification, through the refinement |
| C305 | same | the counting invariant: held once iff allocated |
| C306 | same | refuted by inserting a variable twice; exact characterisation |
| C307 | `Ifp_Model`: option lists shared by reference, the solver and its prefix, the members filled from options, over sequences of calls | refuted by an option that is never read; the rule for all others; never-read options keep the constructor's value over all runs |
| C308 | same | refuted by a later setting; invariant kept by all calls that do not touch the options |
| C309 | same | refuted by the write-back of a FilterSQP default; otherwise by the invariant "a setting nobody made is absent", with a lemma on suffixes of names |
| C310 | same | refuted by a second initialize; case analysis of createApplication |
| C311 | same | refuted by a failing Initialize; exact characterisation of what is left |
| C312 | same | refuted by turning the option off; exact; "stays on" by induction over runs |
| C313 | same | case analysis on signs, exact for opposite values |
| C314 | same | refuted by reading after set_linearizer; invariant over calls that read nothing |
| C315 | stacks of wrappers, which calls they hand on and with which flag; a user's problem that keeps the last new point | refuted by two witnesses; invariant over sessions for the other stacks; coverage of the functions needed |
| C316 | the same, all flags set; the full point of a strengthening problem | invariant (the full point is the start with overwritten entries), induction on the session |
| C317 | the same, any flags | exact invariant: evaluations at the last point shown |
| C318 | single rows with quadratic cuts | refuted; partial from C317 |
| C319 | the constructor's five evaluations, given up at the first failure | refuted; partial from C315_partial |
| C320 | the heuristic's Jacobian call | refuted; equivalence |
| C321 | announcements per call | refuted; induction on the stack |
| C322 | the two evaluations of a check | from C317 |
| C323 | RINS over histories of calls | invariant on its interval; window argument; full statement refuted |
| C324 | the same | refuted by a computed search of 19932 calls; invariants (multiple of ten, ten times a power of two) |
| C325 | fix-and-solve's conditions | case analysis |
| C326 | local branching over a search | induction over the calls; refuted |
| C327 | dive and MILP rounding conditions | case analysis, window argument |
| C328 | setupList of the set chooser on its arrays | refinement to two lists (candidates, others), invariant over the sets |
| C329 | the same | from the refinement and the sorter's contract; refuted |
| C330 | compute_usefulness | induction over the members; refuted |
| C331 | learning of unit changes | induction over the observations; refuted |
| C332 | writeBonminOpt as text | induction over the options with a reader of words and comments |
| C333 | makeString and makeNumber | decimal printing and reading of the standard library; refuted at the smallest int |
| C334 | makeLatex | induction over the name; refuted for hyphens |
| C335 | links and anchors of the document | induction over the options; refuted for names equal up to blanks |
| C336 | the HTML table as tags | a stack of open elements, induction over the rows; refuted |
| C337 | the rows of the HTML table | induction over the options |
| C338 | main of bonmin, by the kind of exception | case analysis; refuted |
| C339 | both programs, number of arguments | case analysis; refuted without arguments |
| C340 | storage of a C interface problem: create, any calls, free | invariant over the list of calls; refuted for every solve |
| C341 | files read by the tree manager, packed, unpacked | induction over the bytes; refuted for a zero byte |
| C342 | objects built at the start, resetting them at each node | induction over the columns and over the nodes |
| C343 | frequencies of the generators | arithmetic; refuted for negative options and for options above 1 |
| C344 | pending cuts over any sequence of checks, rounds and expansions | induction over the events; refuted for column cuts |
| C345 | packing and unpacking of cuts, rows made of them | induction over the cuts |
| C346 | calls posing the feasibility problem, functions of the problem posed | induction over the calls; refuted for the Hessian after a switch to local branching |
| C347 | generators, their copies and rounds | induction over the history |
| C348 | limits of local searches over copies | invariant: start and count of each copy; refuted for limits counted from the options |
| C349 | heuristics with a sub-MIP, memory | ownership invariant over the calls; refuted after a throwing initialisation |
| C350 | branching rules: copy, assignment | induction over the history; refuted for the time limit of an assigned rule |
| C351 | parallel program, objects for special ordered sets | refuted as the macro is defined; the objects are characterised |
| C352 | parallel program, core problem | pointwise on the columns; refuted for binary columns |
| C353 | parallel program, pseudo-costs and objects | induction over the columns |

## Trusted base

* Coq 8.16.1's kernel (and `coqc`, the parser and printer that show what was proved).
* `Print Assumptions` is run beneath each theorem.  For **every** theorem listed in MANIFEST.json it prints
  "Closed under the global context": no axiom, neither from the standard library nor of our own.
  (QArith, ZArith, Lia, Lqa of the standard library are used; they need no axiom here.)
* The reading of the C++ code, recorded definition by definition in the comments of the Model files, with the
  simplifications listed per area below.
* The contracts assumed of code outside the repository, listed per area below.

### Modelled, and simplifications, area by area

**Tree** (`src/CbcBonmin/BonDiver.{hpp,cpp}`: CbcDiver, CbcProbedDiver, CbcDfsDiver).  Nodes are what the trees read of
them.  Assumed of Cbc's heap: push adds; top/pop act on the top of a non-empty heap; bestNode discards top nodes with
objective >= cutoff and returns the first one below, or NULL; cleanTree deletes exactly those with objective >= cutoff;
getBestPossibleObjective is the minimum starting from 1e100.  Which node is on top is an arbitrary function.
Not modelled: endSearch, the DiverCompare mode heuristics, re-sorting.

**Quad** (`src/Algorithms/QuadCuts`: BonTMatrix, BonQuadRow, BonQuadCut, BonTMINLP2Quad).  std::sort and iteration order of maps
are oracles constrained to sort.  Not modelled: printing, TMINLP2Quad's copy constructor (it does not copy c_), AddQuadCutFromLinearProgram,
LinearCutsGenerator.

**LinObj** (`BonTMINLPLinObj`), **FP** (`src/Interfaces/BonTNLP2FPNLP`).  Callbacks of the wrapped problem succeed and obey the
array-length contract `nlp_ok`; the wrapped problem ignores the sizes passed to it.

**Prob** (`src/Interfaces/BonTMINLP2TNLP`).  std::vector storage carries allocation and capacity.  Effects of adding and removing
rows are those of BonTMINLP2Quad.cpp.  The interior warm starter (curr_warm_starter_, FilterWarmStart inside) is not modelled.

**OA** (`BonOsiTMINLPInterface.cpp` 1880-2600 getOuterApproximation, getConstraintOuterApproximation, getBendersCut, extractLinearRelaxation;
`BonTMINLP2OsiLP`, `BonOuterApprox.hpp`).  The infinities of Ipopt and of the LP solver are unified; no cut strengthener
(it is area Str), no external linearizer.  CoinPackedVector::insert throws on a repeated index (assumed).

**Oad** (`BonSolverHelp.cpp`, `OaGenerators/BonOaDecBase.cpp`, `BonOACutGenerator2.cpp`, `BonOaFeasChecker.cpp`).  LP, MIP and NLP solvers are
oracles, deterministic in the points visited and the cutoff.  OsiSimpleInteger::feasibleRegion assumed to fix at the nearest integer
within the bounds; SOS feasibleRegion not modelled.  Local-search NLP details, time limits and log output left out.  

**Bqp** (`BonBranchingTQP`).  **Itf** (`BonOsiTMINLPInterface.cpp` solve paths 700-1100, 1749-1795, 2700-2790; `Ipopt/BonIpoptSolver.cpp` status).
No row-cut debugger, no debug solvers, stored warm start valid; numbers of retries are naturals.

**Bab** (`BonCbc.cpp` end of branchAndBound, `BonCbcNlpStrategy.cpp`, `BonCbcNode.cpp`).  The end state of Cbc is a record of what the code reads.

**Nls** (`BonTNLPSolver.cpp` zeroDimension, `Filter/BonFilterSolver.cpp`, `Filter/BonBqpdSolver.cpp` conversions, `Filter/BonFilterWarmStart.cpp`).
The Fortran solvers are oracles; CoinUtils' diff of vectors is a list of changed positions; bounds in zeroDimension are finite.
Not modelled: BqpdSolver::cachedInfo's memory doubling, BqpdWarmStart beyond what FilterWarmStart shares.

**Io** (`BonTMINLP.{hpp,cpp}` data classes, `BonBoundsReader`, `BonStartPointReader`, `BonTNLPSolver.cpp` writeDiffFiles, `BonTMINLP2TNLP.cpp` outputDiffs,
`BonRegisteredOptions`, `BonStdCInterface`, `BonStdInterfaceTMINLP`).  Files are token lists; lines are shorter than 10000 characters;
six-digit printing is an arbitrary function; a real where an int is expected is not a number; bounds in files are finite.
Indeterminate pointers are arbitrary null/non-null bits.

**Brc** (`src/Algorithms/Branching`: BonChooseVariable, BonRandomChoice, BonLpBranchingSolver).  OsiChooseVariable, OsiHotInfo and OsiPseudoCosts are
outside the repository; what is used of them is described in the Model file.  COIN_DBL_MAX is +infinity.  Read but not modelled:
BonQpBranchingSolver, BonStrongBranchingSolver, BonPseudoCosts.

**Str** (`BonCutStrengthener.cpp`).  The small NLP is solved by an oracle, exact where the theorems say so; exit() is `Thrown`; random numbers are an argument.

**Div, Mil** (`src/CbcBonmin/Heuristics`: BonHeuristicDive, DiveFractional, DiveVectorLength, DiveMIP, DiveMIPFractional/VectorLength rules through the rule
argument, BonMilpRounding).  NLP and MILP solvers, sorts, random draws are arguments; howOften and the integer tolerance are parameters; x_sol and g_sol have the lengths of get_nlp_info;
CoinPackedMatrix keeps entries by start and length.

**Acc** (`src/Interfaces/BonOsiTMINLPInterface`: row caches, getColSolution, getRowPrice, getRowActivity, getObjValue, getObjCoefficients, setColSolution, setRowPrice,
bounds, use, build_fake_basis, setDblParam/getDblParam, getConstraintsViolation, getNonLinearitiesViolation, setWarmStart/getWarmStart).  On top of the problem object of the Prob
area.  convertBoundToSense (Osi) is modelled from its documentation; a warm start is an abstract value, validity and conversion are arguments; variable types are not followed; a
pointer returned is the list of values read through it at once.

**Ecp** (`OaGenerators/BonEcpCuts.cpp`, `BonOaNlpOptim.cpp`, `QuadCuts/BonLinearCutsGenerator.cpp` generateCuts, `BonSolverHelp.cpp` installCuts).  LP and NLP solvers, Cgl
generators, the outer approximation and the violation measure are arguments (the last two are modelled in OA and Acc); the LP solver is deterministic in its rows; the violation may
fail (assertion of Acc).  babInfo, babPtr and nlp_ exist.  Left out: bases, messages, the frequency members of the cutting methods (never read by the code).

**Loc** (`CbcBonmin/Heuristics/BonHeuristicRINS.cpp`, `BonHeuristicLocalBranching.cpp`, `BonFixAndSolveHeuristic.cpp`, `BonDummyPump.cpp`, `BonPumpForMinlp.cpp`,
`BonLocalSolverBasedHeuristic.cpp` doLocalSearch; ownership in the copy constructors and destructors of `BabSetupBase` and `BonminSetup`).  The inner branch-and-bound is a function
of the option prefix, the problem and the cutoff.  A heap is a list of live identifiers; deleting one that is not live is the outcome Dangling.  Left out: options, messages, the
contents of strategies and cut generators.

**Fpu** (`CbcBonmin/Heuristics/BonHeuristicFPump.cpp`).  NLP answers, the first index of std::sort, random numbers and the last NLP are arguments; -COIN_DBL_MAX in the store of old
targets is a separate value; double to int casts do not overflow.

**Set** (`Algorithms/BonBabSetupBase.cpp`, `Algorithms/BonBonminSetup.cpp`, object part of `CbcBonmin/BonCbc.cpp`).  Ipopt's OptionsList is modelled as two association lists with the
allow_clobber flag, looked up under prefix+name, then name, then the registered default; the type and range checks of Ipopt and case folding are left out.  Enumerated values are ranks.
Cut generators and heuristics are tags with their parameters.  The time spent in the set-up is an argument.

**Cur** (`Interfaces/BonCurvatureEstimator.cpp` 199-816, `Algorithms/Branching/BonCurvBranchingSolver.cpp` 56-185, hot starts of `Interfaces/BonOsiTMINLPInterface.cpp` 3039-3095).  The linear
solver of Ipopt is an argument that gets the triplets of the Jacobian block and the two right-hand sides; theorems say whether it is only sized or exact.  The user's callbacks succeed;
they may keep the last point and multipliers and believe the flags.  Compound spaces and matrices of Ipopt are lists of triplets.  Left out: option values other than the defaults, printing.

**Dup** (`Interfaces/BonOsiTMINLPInterface.cpp`: constructors, copy, assignment, setModel, use, bounds, switches, solves, linearizer, hot starts, Jacobian arrays; `BonTNLP2FPNLP` parameters).
Objects behind smart pointers are entries of lists that only grow.  Of a problem object only the user's problem, the bounds and the last solution are kept; what the NLP solvers answer is
given with each solve.  Options, statistics, names and the row caches (Acc) are left out; a linearizer is represented by the problem object it was given.

**Pmp** (`OaGenerators/BonFpForMinlp.cpp` performOa, set_fp_objective; `BonOaDecBase.cpp` generateCuts, post_nlp_solve).
MILP solver, NLP solver, distance problem and cuts are oracles that may answer differently each time; what they promise is stated in `honest`.  What performOa does is given with each call
of the frame.  Left out: messages, counts of nodes and iterations, the restoring of the LP (Oad).

**Sec** (`BonAuxInfos.cpp`, `BonBabInfos.cpp`; `BonOsiTMINLPInterface.cpp` end of solveAndCheckErrors; `BonCbc.cpp` 110-122, 457-490, 632-651).
Reference-counted storage is a growing list; what a solve finds is given with it.  For enable_dynamic_nlp only sizes and the outcome of the root are kept.

**Nwy** (`experimental/RobotBonmin/BonNWayObject.cpp/.hpp`, `BonNWayChoose.cpp` setupList, chooseVariable, doStrongBranching; `RobotSetup.cpp` addNWays).
The order made by the sort, the answers of the hot-start solves and the usefulness computed from them are arguments; pseudo-costs are not modelled beyond the index they are stored at.

**Amp** (`src/Interfaces/Ampl/BonAmplTMINLP.cpp` the readers of types, linearity and suffixes, finalize_solution, getLinearPartOfObjective; `sos_kludge.cpp`; `BonSolReader.cpp`; `src/Interfaces/BonColReader.cpp`;
`BonTMINLP.cpp` PerturbInfo and hasGeneralInteger).  Assumed of the AMPL solver library: the order of the groups of variables in a .nl file and the meaning of its counts, that a suffix's values are a union of int and double
arrays, and the layout of the .sol file it writes (words and numbers of the text form).  Of the C++ library: strings up to a length (an argument, at least 15) are kept inside the string object, vectors double.

**Wst** (`src/Interfaces/BonOsiTMINLPInterface.cpp` initialSolve, resolve, resolveForCost, resolveForRobustness, set/getWarmStart; `src/Interfaces/Ipopt/BonIpoptSolver.cpp`, `BonIpoptWarmStart.*`,
`BonIpoptInteriorWarmStarter.cpp`; `src/Interfaces/Filter/BonBqpdWarmStart.cpp`): what each solve is started from, over any sequence of solves.  A solve that gets no start counts as failed.  Whether
duals_init_ still points into x_init_ is left to Prob (C15).  The interior warm starter is modelled by itself: which iterate is used and how it is mapped to new bounds, not how Ipopt uses it.

**Spa** (`experimental/Separable`: BonOuterDescription.cpp, SepaTMINLP2OsiLP; `src/Interfaces/BonTMINLP2OsiLP`).  A row is given by its function and gradient; entries of
different rows do not interact.  Infinities are unified.  Of extract only the constraints.  Not modelled: the inner approximation heuristics, SepaSetup, the commented-out uniform sampling.

**Inn** (`experimental/Separable/SepaHeuristicInnerApproximation.cpp`, `src/CbcBonmin/BonGuessHeuristic.cpp`, `src/Algorithms/BonCbcLpStrategy.cpp`, constructor of BonSubMipSolver.cpp).
Rows and cuts are those of Spa; `exit` is an outcome; the MIP solver is a function of rows and bounds; Ipopt's registry of options is a list of names and defaults, and a read of a name not in it throws.

**Bcp** (`experimental/Bcp`: BM_lp_branch.cpp, and of BM_lp.cpp, BM_tm.cpp, BM_pack.cpp, BM.cpp, BM.hpp what the properties need).  The solver is a function of the bounds; replies of processes arrive in any
order (a permutation); std::sort is any sorter; objects are simple integers on different columns; an infeasible candidate of a feasible column is one the Osi object calls feasible.  Assertions are on or off.
Not modelled: BCP itself, SOS branching, hot starts, cuts (BB_cut) and the hybrid branching (which only throws), start-up and the writing of files beyond the solution.

**Smp** (`src/Algorithms/BonSubMipSolver.{cpp,hpp}`).  LPs live in a heap in which deletion is visible; Cbc and CPLEX are functions of the problem and the parameters, with a contract of correctness where a property needs one; the clock is a function of the
number of runs.  Not modelled: errors of CPLEX other than that of CPXgetmipx, messages, threads, the strategies of Cbc, offset and sense of the objective (which are not passed to CPLEX).

**Hot** (`src/Interfaces/Filter/BonBqpdSolver.{cpp,hpp}` apart from message printing, `src/Algorithms/Branching/BonQpBranchingSolver.cpp`, `src/Interfaces/BonBranchingTQP.cpp` bounds, hot start functions of
`src/Interfaces/BonOsiTMINLPInterface.cpp`).  bqpd is a function of everything it is passed, COMMON blocks included; it is asked to keep sizes, to leave the Hessian alone and to write point, value and pivots.  The QP of a
node is a function of its point and multipliers.  Filter and ordinary NLP solvers are opaque.  Arrays never written are visible; sizes beyond int are exceptions.  Not modelled: the values of grad/Jacobian arrays (part of the QP),
computing times, iteration counts, the debug copies under #ifdef.

**Ord** (`src/CbcBonmin/BonDiver.{hpp,cpp}`: CbcDfsDiver with DiverCompare; `src/CbcBonmin/BonCbc.cpp` 345-375).  Trusted: the
contract of std::push_heap, std::pop_heap and std::make_heap (`heap_library`, with an instance), the order of Cbc's calls at a new
solution (cleanTree, newSolution, setComparison), node comparisons that are strict weak orders (`orders`).  The nodes themselves are those of Tree.

**Bbs** (`src/CbcBonmin/BonCbc.cpp` 33-94, 103-527: set-up of a run, root, interruptions).  Trusted: what the documentation of CbcModel
says about findIntegers, addObjects, addCutGenerator, addHeuristic, assignSolver (written out in `Bbs_Model.v`); the outcome of the root and the
clock are arguments.

**Slv** (`src/Interfaces/Ipopt/BonIpoptSolver.cpp` 25-299, 418-500; `src/Interfaces/Filter/BonFilterSolver.cpp` 38-49, 268-568, 574-580, 640-746 and
`BonFilterSolver.hpp` 111-152: the solver objects over sequences of calls).  Trusted: the documentation of Ipopt's OptionsList (allow_clobber), of Initialize and of
ReOptimizeTNLP (refuses another TNLP); runs of Ipopt and filterSQP are arguments of the calls.  Left out: prefixes of options, journalists, the
contents of warm starts (area Nls).

**Sob** (`src/Algorithms/BonBabSetupBase.cpp` 55-214, 244-347, 646-775, `BonBabSetupBase.hpp` 191-223, `BonBonminSetup.cpp` 58-103, `Ampl/BonAmplSetup.cpp` 14-60:
set-up objects).  Ipopt's OptionsList is abstract (reading a stream, setting an option).  Objects owned by a set-up are cells of a heap in which a deleted cell
is remembered; option lists are reference counted in the code and never deleted in the model.  Left out: the journalist and the registered options, which are
shared by copies; the parts initializeBBB and initializeBHyb add (areas Set, Bbs), which a program adds here one by one.

**Sch** (`src/CbcBonmin/BonCbc.cpp` 305-377, 525, `BonDiver.cpp` 793-855, on top of Tree): a whole search. Bonmin hands the
loop to CbcModel::branchAndBound, so the loop is environment: it is written as the client of the trees in the order Cbc
calls them (cleanTree and the newSolution hook after a better solution, bestNode, push of the parent with a branch left,
solve, push of the child when below the cutoff). Subproblem solver and heuristics are arguments with the contracts
`relax_sound`, `relax_shrinks`, `heur_sound`. The five values of tree_search_strategy are run by the same loop; the heap's
choice is any function (every node comparison). Left out: cuts, strong branching fixings, branching with more than two
ways, tolerance in the test of integrality, the CUTOFF_TOL added at 311 (part of the cutoff given). The answer of the subproblem solver may depend on the round, so a solver with memory (warm starts, cuts) is covered.

**Cts** (`src/Algorithms/QuadCuts/BonQuadCut.hpp` 106-215, `BonQuadCut.cpp` 103-139): collections of cuts over sequences of calls. The
quadratic cuts are cells of a heap, a collection holds pointers, and the client may create cuts, hand them over and delete them. The linear
part (OsiCuts) is a list of values. The loop that inserts one collection into another has fuel, as its bound is read anew in every round.

**Ifp** (`src/Interfaces/BonOsiTMINLPInterface.cpp` 369-445, 447-531, 1734-1740, 2956-3026): how the NLP interface gets and keeps its options,
over sequences of initialize, setSolver, settings in the shared lists, readOptionFile and set_linearizer. Option values are rationals; Ipopt's
OptionsList is a list of settings; constructing and initializing a solver is an oracle on the list (assumed not to touch the settings of the
interface where a theorem says `harmless`). The debugging of other solvers (testOthers_) is only a flag, messages are left out.

**Nwx** (the new-point protocol) — `Nwx_Model.v`: the user's problem as a keeper of the last new point (BonStdInterfaceTMINLP.cpp 240-352), TMINLPLinObj, TMINLP2TNLP, TMINLP2TNLPQuadCuts, TNLP2FPNLP and StrengtheningTNLP as to which evaluation calls they hand on, at which point and with which flag; the sequences of calls of BranchingTQP's constructor, check_solution and MilpRounding. Not modelled: calls for structures (made with the flag false, nothing evaluated), the numbers (other areas), Ipopt's own order of calls (any protocol-respecting order is allowed).

**Whn** (when heuristics act over a search) — `Whn_Model.v`: the conditions at the head of HeuristicRINS, HeuristicLocalBranching, FixAndSolveHeuristic, HeuristicDive and MilpRounding::solution and what they remember between calls. Not modelled here: what they do then (Loc, Div, Mil), Cbc's own decision to call a heuristic (any list of calls is allowed).

**Nwc** (choosing among sets) — `Nwc_Model.v`: BonNWayChoose::setupList on its two arrays, compute_usefulness, the pseudo-cost learning of doStrongBranching. Arguments: the sorter (CoinSort_2, contract: sorts), the root function (pow). Not modelled: the division by a zero residual when a member is at its upper bound, that num_ps_costs_ is not cleared when a second search starts.

**Otx** (texts about the options) — `Otx_Model.v`: writeBonminOpt, makeString, makeNumber, defaultAsString, makeLatex, makeSpaceLess, both writeHtmlOptionsTable, and of writeLatexHtmlDoc the table and the anchors. Argument: the printing of doubles. The reader of the options file is a specification (words, comments), not Ipopt's code; quoted words are not treated. Not modelled: the LaTeX table's layout, Ipopt's OutputLatexDescription.

**App** (programs, life of a C interface problem) — `App_Model.v`: main of BonMin.cpp and of BonNodeSolver.cpp by the kind of exception thrown inside, and the arrays allocated and released by CreateBonminProblem, SetBonminProblemScaling, BonminSolve and FreeBonminProblem over any list of calls. The problem's own blocks are those of `Io_Model.v`. Not modelled: what is printed.

**Bpn** (parallel program: processes, nodes, cuts) — `Bpn_Model.v`: BM_tm::readIpopt, BM_tm::initialize_core (without the matrix; BM_DISREGARD_SOS is a parameter, true in the program as it is), the module data, the objects built in BM_lp::unpack_module_data, initialize_new_search_tree_node, generate_cuts_in_lp, cuts_to_rows, BB_cut::pack and its constructor from a buffer. Arguments: what the generators add and the random numbers. Simplified: OsiSolverInterface::addObjects keeps the list given to it. Not modelled: the parameters of BCP set in unpack_module_data, initialize_core.

**Fps** (calls posing the feasibility problem) — `Fps_Model.v`: the two switchToFeasibilityProblem and two solveFeasibilityProblem of OsiTMINLPInterface over any history, on the configuration of Dup_Model.v and the functions of FP_Model.v.

**Cpy** (copies of generators, heuristics and rules) — `Cpy_Model.v`: constructors and copies of OaDecompositionBase and its four classes, their doLocalSearch and the counting in performOa; constructor, Initialize, copy, assignment and destructor of HeuristicDiveMIP and MilpRounding over a memory of sub-MIPs; constructor, copy and assignment of BonChooseVariable. Arguments: times, solutions found, cuts made, whether the constructor of a sub-MIP throws. Simplified: strategies, options and pseudo-costs are values; shared pointers and messages left out.

### Not modelled

Option registration texts, message printing and log levels (except where they change results, C18),
Apps, floating point rounding, memory exhaustion, threads, time limits (an oracle bit where they matter), exceptions thrown by user callbacks.

## Findings

Places where the code, as modelled, does not do what the property says.  Each has a machine-checked witness (theorem in brackets) unless marked "read".

* Probed-dive tree: with stop_diving_on_cutoff a NULL candidate is pushed on the heap; three-way branching loses the parent (C03).
* Dfs-dive tree: in CloseBound and LimitTreeSize modes every bestNode loses one open node (BonDiver.cpp:602); max_backtracks_in_dive = 0 and small
  max_dive_depth abort on an assert; an exhausted heap is dereferenced as NULL (C04, C05).
* QuadRow(QuadCut) drops the constant term; assigning a linear cut leaves stale positions (C09).  TMat normalisation: full storage loops for ever, merging
  duplicates loses the last group (C10).  TMINLP2Quad::eval_gi returns false for added rows (C47), get_scaling_parameters calls itself (C48).
* TMINLPLinObj: scaling of the new variable/row conditional on flags set on entry, structure query of the new row dereferences NULL (C49).
* TNLP2FPNLP: linearity flags of the two extra rows exchanged (C12); Hessian factor wrong without distance objective (C13); both extra rows: pointers
  advanced twice, out of bounds (C14); cutoff row uses the distance objective (C50).
* TMINLP2TNLP: reset keeps the dual pointer, multipliers without point or added rows replace the start by zeros (C15); stale row activities when m drops to 0 (C52);
  force_fractionnal_sol moves fixed variables (C54); copying after addCuts reads out of bounds (C55); assignment keeps the old solution (C56).
* Outer approximation: small gradient coefficients removed from the objective cut (C17); violation filter depends on log level (C18); wrong-sided compensation in the
  quadratic code (C19); Benders right-hand side overwritten (C20); bounds not compacted after deleteRows (C21); global flag with local bounds (C57); skipped rows (C58).
  Read: `lb > infty` typo at 2043/2507; nNonLinear_ accumulates; TMINLP2OsiLP's copy does not copy rhs_relax_, infty_ and the Jacobian arrays.
* OA decomposition: cutoff equals the upper bound at 0 (C22); relaxIntegers/refixIntegers widen by the tolerance, SOS null (C25); infinite cutoff not restored (C26); endless loop when
  maxSols_/maxLocalSearch_ is reached (C60).
* BranchingTQP: f(x0) missing on LOCAL_INFEASIBILITY (C23); constraint values of the displacement (C61).
* Interface: negative perturbation radius (C24); pretendSucceededNext_ is never reset, stalled solves unreported (C29); 0/0 in resolveForCost, throw loses the solution (C30);
  status not copied (C62); two statuses in no class (C63).
* Bab: stale solution reported SUCCESS in a second run, interrupt reported INFEASIBLE (C27); failure rules not applied below the root and off by one (C28); status left
  "optimal" after an error (C64).
* Filter/Bqpd: crossed bounds declared solved (C33); missing break, unbounded reported infeasible (C35); warm start diffs of different sizes (C67); empty warm start ignored (C68).
* Data classes: SosInfo copy writes into its source (C31); BranchingInfo copy deletes uninitialised pointers (C69); SetPerturbationArray(NULL) dangles (C70); variables fixed at 0/1 are
  "general" (C71).
* Files: bounds file's final newline makes the reader use uninitialised variables, an empty file terminates the program (C32); start file announces missing duals (C72).
* Options: first optionValidForX excludes all others (C43).  C interface: results never delivered, SOS/branching data never stored, two fields read uninitialised (C44); leak for m = 0 (C74).
* Branching: candidate list duplicates and loses objects (C36); random choice ignores priorities (C37); return code overwritten (C38); LP child upper bound set to lower bound (C39);
  pseudo-cost signs and small moves (C45); least-fractional keeps the most fractional (C76); the same for worst-ps-cost (C135); with all candidates trusted the first of the list is branched on in the direction of another object (C136); clone mode returns the parent's solution (C77); error children booked infeasible (C80); look-ahead assert (C81).
  Read: NaN estimate at the root when only one count is zero; arrays sized at construction; exception leaves bounds unrestored; pseudo-costs lost on re-initialisation.
* Cut strengthener: disjunctive cut invalid for general integers (C40); exit(-99) on vanishing derivative (C84).
* Heuristics: tolerance raised to the relaxation's violation, point outside the bounds (C41); endless dive with unbounded integers (C85); column lengths wrong for ungrouped Jacobians (C87);
  MilpRounding uses unsorted coefficients, its no-good cut removes too much (C42); duplicates throw in DiveMIP (C90).
- Cut generators: doEcpRounds aborts on an assertion as soon as it would solve an LP, otherwise returns a left-over value (C101); add_only_violated_oa filters with the first LP
  point in every round (C102); OaNlpOptim's exception leaves the node's bounds in the NLP (C103); LinearCutsGenerator erases cuts of others when the collection is not empty and takes
  `&mycuts[0]` of an empty vector (C106).  Read: OaNlpOptim builds a CoinError for a missing NLP without throwing it; the other constructor leaves solves_per_level_ unset; cutting
  method frequencies are ignored.
- Local-search heuristics: fix-and-solve and the dummy pump always delete their solver twice, RINS leaks its clone (C107); a copied set-up has no heuristics, shares and doubly deletes
  branching objects, and copying with another NLP dereferences null for LP-based algorithms (C108); local branching skips the solution following its own success (C111) and ignores
  its own validation (C112).
- Strong branching by curvature: the sanity check lets large negative residuals pass (C138) and reads trash[-1] without constraints (C139); eval_h is told that the multipliers are not new
  (C140); the objective value stays that of the last trial (C142); variables at active bounds are held only if some row is an equality (C138_exact_partial says so).
- Feasibility pump: rounding of rows sum = 1 ignores the bounds of the variable set to 1 and aborts on negative values (C115; the coefficients are truncated to int, so 1.9 counts as
  1); the perturbation may repeat the previous target (C117); the status of the projections is not looked at (read).
- Set-up: an option given without prefix is overridden by the algorithm's presets (C119); number_strong_branch and number_before_trust overridden by the branching rule (C120); the
  permission of B-iFP's pump is stored where it is not read (C122); frequency 100 installs a MILP cut generator (C124); the pump asked for is left out with general integers (C125).
  Osi's branching rules in LP based algorithms lose priorities and special ordered sets (C126); user pseudo-costs are dropped silently by Bonmin's own rules (C127); RINS's second search
  throws when the problem has special ordered sets (C128); its time limit is not that of the run (C129); the documented prefix local_branch. is never read (C130); a set-up made from an
  interface has no algorithm and cannot be copied (C131); initialising twice keeps the old algorithm and doubles the generators (C132); the default limits
  of the second searches are written under local_solver. only, so RINS, which reads rins., has none (C143).
  Read: readOptionsFile() without argument does nothing once any options file was read, although examples/CppExample expects it to read bonmin.opt.
- Interface as an Osi solver: use() keeps the cached row arrays of the previous problem (C92); after a bound change getColSolution returns the starting point while
  activities, objective and gradient stay those of the last solve (C93, C94); the fake basis marks rows at the upper bound atLowerBound and reads past the activities when a row
  was added (C95); setDblParam lacks a break for the primal tolerance (C96); getConstraintsViolation skips linear rows once the types are known and reads uninitialised or
  foreign memory when rows were added (C97); a refused warm start drops the stored one (C98).
- Interfaces and their copies: a copy has no linearizer (C144); the strong-branching solver is shared by copies (C145, C152); assignment loses bounds, point and mode, and throws when the right
  side is a copy of an interface that has made cuts (C146); setModel and use keep the Jacobian arrays, the linearizer and the solved flag of the old problem (C147); in feasibility mode the
  solvers tried after an error solve the original problem (C148); solveFeasibilityProblem changes the problem switched to (C149); with the local-branching row cuts overrun their arrays
  (C150) and the linear relaxation fails an assert (C151); strong branching by quadratic programs ignores feasibility mode (C152).
- Feasibility pump as a cut generator: ended by a limit it may conclude infeasibility from the optimality of an earlier MILP (C153); a variable at 1 is pushed away from 1 (C154); a solution of value 0
  fails an assertion, as does a pass that makes no cut, which happens for problems without nonlinear rows (C155); an exception for large integers leaves variables fixed (C156).
- The feasibility checker does not count the solutions it hands over, so that the solution count of the search drops (C157).

- Second objective: storage is shared through copies and reused by a later search on the same set-up, which then reports the old solution (C159); with decomposition algorithms the points of the nonlinear
  solver are not seen, only a warning is printed (C160); when the user's function fails its unset value is used (model: Uninit).
- enable_dynamic_nlp: a null dereference for a linear objective and an infeasible root, an access to an empty vector when the root gives no cuts, and a read past the end of the solution in the
  fallback (C161, C163).

- Branching on sets (RobotBonmin): the index of the branch is compared after it was incremented, so below the given depth the branch of one fractional member is lost (C164); bounds_ of a set not
  tested at the root keeps the cutoff of the root, so all its members are fixed when a better solution is found (C167); weights of the first SOS constraint are used for all (C168); arrays are sized by the
  number of sets but indexed by members (C171); option quicky_ has no effect since the inner test repeats the depth condition.
- Strong branching by curvature: the step handed to the estimator is the node's solution minus the child's bound, the opposite of the move; the estimate is even in the step but the choice of active
  constraints is not (C172).

- AMPL: the linear part of the objective sets the wrong entries to 0 and may overrun the array (C176); the suffix "direction" is declared with numbers and read as integers, so directions move to other variables (C178);
  an identifier of a concave constraint that no variable carries stands for variable 0 (C181); file_solution with no solution reads a null pointer (C183); solution files of interrupted runs are not read (C184).
- Names: the keys of the index point to characters that move with the vector (C185); copyNames copies the caller's vector into the reader (C186); "a.nl" is not recognised as having an extension (C187).
- SetPerturbationArray(NULL) deletes the array and keeps the pointer (C188).

- Starting points: with warm starts not exposed (the default) a point given by the caller without multipliers is lost by the first re-solve (C192, C193), and after a rescued failure warm starts stay switched on
  without multipliers, so that every later solve is first refused a start and then done again from the problem's own point (C194).  The empty warm start that the interface hands out itself is accepted back as
  a non-empty one of size 0 and the next resolve fails an assertion (C195).  A difference does not carry the empty flag (C196).
- Interior warm starts: for a variable that gets fixed both multiplier indices advance even if a bound was infinite, so multipliers move to other bounds or are read past the end (C197).
- A flushed BqpdWarmStart keeps the size of its workspace; copying it reads a null pointer (C199).

* Outer descriptions: removing a small coefficient moves the side with the wrong bound (C200); variable 0 is no switch, switched rows with two sides throw (C202); sampling need not
  end (C203) and leaves the bounds (C204); the linear program moves sides for coefficients it keeps (C205); copies of a transformer cannot be used before they are set up again (C206);
  tangents satisfied by the second point are added (C207); a two-sided row with multiplier 0 gives a tangent without sides (C208).

* Inner approximations: the range is clipped to [-1000, 100] and right sides are taken to be 0, so the heuristic returns infeasible points as solutions (C209, C210); a fixed
  nonlinear variable makes it call exit(1) (C211); variable 0 is no switch (C212).  Read: src/CbcBonmin/Heuristics/BonHeuristicInnerApproximation.cpp has an `#endif` too many.
* Best-guess node selection without a branching method uses a null pointer (C214).
* milp_solver = Cbc_Par always throws: probing_cuts is read but its registration is compiled out (C215); unset cut frequencies count as -99 instead of the default (C216).

* Parallel driver (experimental/Bcp): SBNumBranchesInRoot, SBNumBranchesInTree and SBMaxLevel have neither keyword nor default, so every branching step reads memory that was never written (C225); an odd number of
  branches ends in a failed assertion (C224) or, without assertions, uses the side of an earlier node and loses solutions (C223); the assertion on the share of the own process fails whenever others help (C221);
  empty replies stay in the queue (C222); candidates are out of order (C218); values of earlier nodes are handed to children (C227); a solver stopped without status counts as infeasible (C229);
  negative values vanish from hybrid solutions (C231); the order of nodes is not transitive (C232); the hybrid lower bound is not initialised (C233).
  Read: the first object is read when there is none; the -1 of sort_objects is ignored; without a fractional variable try_to_branch throws "Couldn't branch!"; the index of a node, not its level, is compared with SBMaxLevel;
  branchData is leaked; binary variables become integer ones in initialize_core; unpack_module_data uses SOS data without a test for NULL; PreferHigh = 0, the default, picks the smallest degradation.

* A copy of a sub-MIP solver shares the LP that was given to the original by setLpSolver and uses it after it has been deleted [C235_refuted].
* The array of the last solution of a sub-MIP solver is not made larger when the problem gets columns (loadProblem through solver()); the next solve writes beyond its end [C237_refuted].
* When CPLEX ends with CPXMIP_UNBOUNDED or CPXMIP_DETTIME_LIM_INFEAS, the error of CPXgetmipx is lost (the status tested is that of the call before) and getLastSolution() returns an array never written, or the previous solution [C238_refuted, C238_stale].
* CPXMIP_INForUNBD counts as a proof of optimality without solution, also for unbounded problems [C239_refuted].
* find_good_sol with CPLEX reports twice the number of nodes [C242_refuted].  Read: nodeCount() and iterationCount() are not initialised by the constructors.
* optimize_with_lazy_constraints gives equations and ranges to CPLEX as '<=' and also puts them back as such, so the problem is relaxed for good; the branch for equations cannot be reached [C243_refuted, C243_lost].
* The limits on solutions and nodes set by find_good_sol stay for later calls of optimize with CPLEX [C244_refuted].
  Read: the strategy with preprocessing made by optimize is never given to Cbc.

- C248: with the defaults, after a trial that lost its factors the next trials do not start from the marked state (cold, and then from that one until the hot start is copied again); with `reinit_freq` > 0 trials start
  from one another by design, and with the default 0 the hot start is copied back only if the counter of pivots, which counts the solve of the mark, is positive.
- C250: the common blocks are put back only together with the arrays; with `reinit_freq` > 0, any other QP solved between two trials (filterSQP uses bqpd too) leaves its blocks to a warm start.
- C251: the workspace is enlarged by a multiple of the number of non-zeros of gradient and Jacobian; when there is none the loop repeats the same call for ever.  `(int)(fillin_factor*amax)` also overflows after
  some thirty doublings (an exception in the model).
- C252: after strong branching the interface has the point and objective value of the last trial and zero multipliers.  The QP of a second mark without solving the node again is built from them.
- C253: OptimizeTNLP with a cache whose warm start flag was left on (ReOptimizeTNLP after lost factors) ignores the problem it is given.
- C257: `m0de_` and `reinit_freq_` are static: options of the last solver made apply to all.

- C258: `dfs-dive-dynamic` throws "Unknown mode for comparison" when a solution is found in the breadth-first phase with two or more
  nodes open: cleanTree pushes the nodes on the heap before newSolution leaves the phase.
- C260: in the late phases bestNode calls CbcTree::bestNode and does not use the node: the best open node is lost for ever (it is
  neither explored nor deleted) and the second best explored.
- C263: the copy of a DiverCompare keeps the pointer to the tree of the original.
- C264: CbcDfsDiver::operator= assigns maxDiveDepth_ to itself.

- C265: with pseudo-costs for the up branches but none for the down branches (two separate AMPL suffixes) downPsCosts[iCol] dereferences NULL.
- C267, C268, C270: a second run on the same Bab keeps cut generators, heuristics, SOS and extra objects of the first one; a special option 0
  or the heap-only tree does not undo earlier choices; the earlier generators keep an LP solver that has been deleted; with priorities or
  directions, the objects left over are read at priorities[-1].
- C271: the exception for an unsupported object leaves nObjects_ set and objects_ not filled in; the destructor deletes the unset pointers.
- C272: enable_dynamic_nlp with a linear objective and an unsolved root dereferences NULL; without linear cuts &mycuts[0] of an empty vector.
- C274, C275: currentBranchModel and BonminInteruptedOnce are never reset: an interruption after the Bab is gone uses a deleted model, and after
  one interruption no later run in the process searches.

- C278: cachedInfo::initialize sets istat[0] fourteen times instead of istat[i]; IterationCount reads istat[1].
- C279: an interrupt during a solve makes the solver report Infeasible_Problem_Detected, for this and all later problems of the process.
- C280: resolveForRobustness enables warm starts and the next initialSolve does not disable them; solving the feasibility problem with the same
  object then calls ReOptimizeTNLP with another TNLP (Ipopt: INVALID_WARMSTART).
- C281: errorName(6) is "Maximum iterations exceeded" for Feasible_Point_Found; Maximum_CpuTime_Exceeded and newer codes throw a CoinError.
- C283: FilterSolver shadows default_log_level_, which no constructor sets; OptimizeTNLP rebuilds the cache and with it the forced level.
- C285, C286: filterSQP's tolerances live in common blocks written only when a cache is made; rho_init is read and then overwritten by 10.
- C287, C288: a missing option file is not reported, counts as read and so suppresses bonmin.opt; MyBonmin.cpp's second readOptionsFile() never reads anything.
- C289: initialize(nlp) drops everything read or set before; initializeOptionsAndJournalist empties the list but leaves it marked as read.
- C290: the documentation is printed once per source of options and twice by the AMPL set-up.
- C291: objects() are shared by copies (the result of clone() is dropped) and deleted by every destructor; LocalSolverBasedHeuristic deletes such a copy after each local search.
- C292, C293: the loops that should copy heuristics run over the new empty list; the copy of a B-BB set-up has two different solvers.
- C294: the message handler is passed to continuousSolver_ while it is NULL: before initialisation, and onto another NLP for every algorithm but B-BB.
- C295: the solver of a copy has its own option list; options set on the copy do not reach it.
- C298: with stop_diving_on_cutoff a whole probed-dive search ends in a null access as soon as a node alone on the dive has a guess at or above the cutoff.
- C299, C301: dfs-dive-dynamic throws away one open node per bestNode after the fifth solution; the search then ends normally with a wrong optimum (12 instead of 0 in the witness), or in a null access.
- C303: inserting a collection of cuts that has quadratic cuts into itself never ends: the loop of `Cuts::insert(const Cuts &)` compares with the size of the vector it is growing.
- C306: `Cuts::insert(QuadCut * &)` accepts a null pointer, and leaves one in the variable it was given; a collection that got one is dereferenced as soon as it is copied.
- C307: the options dynamic_def_cutoff_decr, coeff_var_threshold, first_perc_for_cutoff_decr and second_perc_for_cutoff_decr of the interface are registered and documented but never read; setting them has no effect.
- C309: with FilterSQP, reading the options writes `prefix + resolve_on_small_infeasibility` = 1e-6 into the user's list when the option was not given; a later setting without the prefix is then ignored.
- C308, C310: `OsiTMINLPInterface::initialize` on an interface that has a solver ignores the options and the prefix it is given.
- C311: if the NLP solver's Initialize returns false, createApplication throws but leaves the solver in place; a second initialize succeeds without having read the options of the interface.
- C312: cut strengthening cannot be turned off again through the options once it was on.
- C314: the linearizer keeps the tolerances of the time at which it was set; reading options later does not reach it.
- C315, C317: with the objective moved to the constraints (`enable_dynamic_nlp` and a nonlinear objective, BonBabSetupBase.cpp 252-257) the objective of the problem handed to Ipopt is one variable and TMINLPLinObj::eval_f does not tell the user's problem about the new point. An order of evaluations Ipopt uses at trial points (objective with `new_x` true, then constraints with `new_x` false) then evaluates the user's objective and constraints at the previous point if the user's problem relies on `new_x`, as every problem given through the C interface does. StrengtheningTNLP has the same defect.
- C318: TMINLP2TNLPQuadCuts::eval_gi and eval_grad_gi of quadratic rows do not announce a new point (and return false although they computed the value).
- C319: for the same reason as C315, BranchingTQP's Hessian, constraints and Jacobian are of another point.
- C320: MilpRounding asks for the Jacobian with `new_x` false without having announced the point. Only the linear rows are used, so that the effect is limited to a user's problem that was never shown any point (the C interface then hands the user's function a NULL pointer).
- C321: the feasibility pump's cutoff constraint announces each new point twice.
- C323: RINS may act at every opportunity without ever searching; its interval still doubles, as after a failed search.
- C324: once RINS's interval has reached its cap 10000, successes halve it to odd numbers (625, 39, 19), and attempts may be two nodes apart although the interval never goes below ten.
- C326: local branching counts a solution it returned as accepted; if the search rejects it, the next solution of others is skipped. howOften_ of local branching and numberSolutions_ of RINS have no effect.
- C329: in the chooser for sets, the first set of a priority is a candidate whatever its usefulness, later ones only if it is positive; with negative values the first is not the best.
- C330: cutoff_multiplier multiplies the cutoff itself, so with a negative cutoff the value for closed branches is below the cutoff and usefulness is a power (or multiple) of one negative number.
- C331: with geometrical means the product for a set not tried at the root starts at 0 and stays 0.
- C333: the smallest int as default would be written as -2147483647.
- C334: makeLatex writes `\-` for a hyphen, which LaTeX does not show.
- C335: categories that differ in blanks or underscores only share an anchor.
- C336: writeHtmlOptionsTable closes a row that is not open before closing the table; for a kind of category it also opens the table twice and closes it once.
- C338: after an error of one of the expected kinds bonmin ends with status 0.
- C339: the node solver called without argument takes the length of a null string; bonmin without argument does when it reports an unknown exception.
- C340: every BonminSolve leaves three to seven arrays allocated.
- C341: the LP processes of the parallel program take the .nl content through c_str(), so a binary .nl file is cut at its first zero byte.
- C343: the parallel program compares the frequency option of a generator to a random number in (0,1]: generators with a negative option (the default for the MILP cuts) are never asked, others at every node.
- C344: column cuts are dropped; cuts_to_rows drops what the feasibility check left pending.
- C345: the bounds BCP keeps for a cut are not part of what is sent.
- C346: after a switch to local branching the Hessian of the objective has the weight (1-lambda)*sigma of the last earlier pump call (0 by default) although the objective is the user's.
- C348: the time limit of a decomposition starts again at every copy of the generator.
- C349: an initialisation of an existing MIP diving or rounding heuristic that throws leaves a pointer to its released sub-MIP; deleting the heuristic releases it again.
- C350: assigning a branching rule keeps the time limit, and its starting time, of the rule assigned to.
- C351: BM.hpp 22 defines BM_DISREGARD_SOS, so the parallel program prints a message and ignores special ordered sets: a problem whose only discrete structure is such sets has no branching objects.
- C352: in BM_tm::initialize_core (BM_tm.cpp 115-116) the test for integer columns follows the one for binary columns and overwrites it, so no core variable is ever declared binary.

## Seeded bugs

`seeded/LOG.jsonl` has one line per wrong program tried: the definition edited, the edit, the claim it breaks, the theorems that then fail to prove, and the theorems tightened
because of it.  The edits are made on a copy of the model outside /verif; every file depending on the edit is recompiled, a lemma that fails is admitted in the copy and
`Print Assumptions` then shows which property theorems depend on it.
