{"id": "C01", "title": "P-minimal: everything in the front is Pareto-optimal, at any time", "statement": "With enumeration off, after any sequence of `solve` calls on a `PMinimal` solver - each with arbitrary limits, interrupted or not, with a logger that may fail - every point of `pareto_front()` is a Pareto-optimal cost vector of the instance and its stored solution extends to a feasible assignment with exactly that cost.", "quantifier": "all instances, objectives, SAT-oracle behaviours, objective encodings, limits, interruption points, logger failures and histories of solve calls", "why_tests_cant": "SAT answers, models and interruption points are chosen by the environment; a test sees one run of one solver build", "anchors": ["core/src/algs/pminimal.rs: Solve::solve, alg_main, p_minimization", "core/src/algs.rs: yield_solutions, Kernel"]}
{"id": "C02", "title": "P-minimal: a finished run has the complete front, each point once", "statement": "With enumeration off, if the first `solve` on a `PMinimal` solver returns Done, the cost vectors in `pareto_front()` are exactly the Pareto-optimal cost vectors of the instance, without repetition (none iff the instance is infeasible).", "quantifier": "all instances, SAT-oracle behaviours and encodings", "why_tests_cant": "completeness is a statement about all feasible assignments of all instances", "anchors": ["core/src/algs/pminimal.rs: alg_main, p_minimization, dominated_block_clause"]}
{"id": "C03", "title": "P-minimal terminates", "statement": "Without limits, interrupts and logger failures `PMinimal::solve` returns Done after finitely many oracle calls, for every behaviour of the SAT oracle; the bound on the number of loop iterations depends on the instance only.", "quantifier": "all instances and oracle behaviours", "why_tests_cant": "non-termination on some oracle schedule is not observable by finite testing", "anchors": ["core/src/algs/pminimal.rs: alg_main, p_minimization"]}
{"id": "C04", "title": "Lower-bounding: everything in the front is Pareto-optimal, at any time", "statement": "Same claim as C01 for `LowerBounding`.", "quantifier": "all instances, oracle behaviours (including arbitrary unsatisfiable cores), encodings, limits, interruptions, histories", "why_tests_cant": "cores are chosen by the oracle", "anchors": ["core/src/algs/lowerbounding.rs: alg_main, harvest, update_fence"]}
{"id": "C05", "title": "Lower-bounding: a finished run has the complete front, each point once", "statement": "Same claim as C02 for `LowerBounding`.", "quantifier": "all instances, oracle behaviours, encodings", "why_tests_cant": "as C02", "anchors": ["core/src/algs/lowerbounding.rs: alg_main, harvest, update_fence"]}
{"id": "C06", "title": "Lower-bounding terminates", "statement": "Same claim as C03 for `LowerBounding`, for every choice of (also non-minimal) cores returned by the oracle.", "quantifier": "all instances and oracle behaviours", "why_tests_cant": "as C03", "anchors": ["core/src/algs/lowerbounding.rs: alg_main, update_fence"]}
{"id": "C07", "title": "BiOptSat: everything in the front is Pareto-optimal, at any time during the first run", "statement": "For two objectives, with enumeration off, at every exit of the first `solve` on a `BiOptSat` solver every point in `pareto_front()` is Pareto-optimal and attained by its stored solution.", "quantifier": "all bi-objective instances, oracle behaviours, encodings, limits, interruptions", "why_tests_cant": "as C01", "anchors": ["core/src/algs/bioptsat.rs: bioptsat", "core/src/algs.rs: linsu, linsu_yield"]}
{"id": "C08", "title": "BiOptSat: a finished run has the complete front in lexicographic order", "statement": "If the first `BiOptSat::solve` returns Done, the reported cost vectors are exactly the Pareto-optimal ones, each once, and they are reported with strictly increasing first and strictly decreasing second objective.", "quantifier": "all bi-objective instances, oracle behaviours, encodings", "why_tests_cant": "as C02", "anchors": ["core/src/algs/bioptsat.rs: bioptsat"]}
{"id": "C09", "title": "BiOptSat terminates", "statement": "Same claim as C03 for `BiOptSat` (without core boosting).", "quantifier": "all bi-objective instances and oracle behaviours", "why_tests_cant": "as C03", "anchors": ["core/src/algs/bioptsat.rs: bioptsat", "core/src/algs.rs: linsu"]}
{"id": "C10", "title": "All algorithms agree", "statement": "Finished runs of `PMinimal`, `LowerBounding` and (for two objectives) `BiOptSat` on the same instance report the same set of cost vectors, whatever oracle and encodings each of them uses.", "quantifier": "all instances, pairs of oracles/encodings/enumeration options", "why_tests_cant": "a property of pairs of arbitrary runs", "anchors": ["core/src/algs/pminimal.rs", "core/src/algs/lowerbounding.rs", "core/src/algs/bioptsat.rs"]}
{"id": "C11", "title": "Reported solutions are feasible for the original instance", "statement": "Every solution stored in any non-dominated point assigns exactly the original variables, extends to a feasible assignment of the constraints and has exactly the reported objective values - under all enumeration options.", "quantifier": "all instances, options, oracle behaviours, exit points", "why_tests_cant": "as C01", "anchors": ["core/src/algs.rs: yield_solutions", "core/src/types.rs: NonDomPoint"]}
{"id": "C12", "title": "Solution enumeration is exact", "statement": "With `EnumOptions::Solutions(None)` and the default blocking clause, a finished run stores at every Pareto point every assignment of the original variables that extends to a feasible assignment with that cost, exactly once.", "quantifier": "all instances, oracle behaviours, algorithms", "why_tests_cant": "ranges over all solutions", "anchors": ["core/src/algs.rs: yield_solutions, default_blocking_clause"]}
{"id": "C13", "title": "Solution enumeration respects its per-point limit", "statement": "With `Solutions(Some(k))` or `PMCSs(Some(k))` every Pareto point of a finished run carries at most max(k,1) solutions; with `Solutions(Some(k))` they are pairwise distinct and number min(max(k,1), number of optimal solutions).", "quantifier": "all instances, k, oracle behaviours", "why_tests_cant": "as C12", "anchors": ["core/src/algs.rs: yield_solutions"]}
{"id": "C14", "title": "Pareto-MCS enumeration", "statement": "If all objective literals are over original variables, `PMCSs(None)` on a finished run yields at each Pareto point a set of solutions whose true-objective-literal sets are pairwise not nested in later ones and such that every optimal assignment's true-literal set contains one of them; the reported front is the true one.", "quantifier": "all such instances, oracle behaviours", "why_tests_cant": "as C12", "anchors": ["core/src/algs.rs: block_pareto_mcs, yield_solutions"]}
{"id": "C15", "title": "PMCS enumeration with relaxation variables loses Pareto points (refutes: the front does not depend on the enumeration option)", "statement": "The front reported by a finished run should not depend on the enumeration option. This is FALSE for PMCS enumeration when soft clauses were relaxed with fresh variables: a finished run can omit Pareto points.", "quantifier": "exists an instance (negative result)", "why_tests_cant": "needs the relaxation path together with PMCS enumeration, which no test combines", "anchors": ["core/src/algs.rs: yield_solutions, block_pareto_mcs", "core/src/prepro.rs: clausal, process_objective"]}
{"id": "C16", "title": "Limits are respected", "statement": "In one `solve` call with limits (p,s,c,o): at most p points, s solutions, c candidates and o counted oracle calls are recorded in the statistics on top of what was there, and a run stopped by a limit reports that limit's reason exactly when the corresponding count was reached.", "quantifier": "all instances, algorithms, limit combinations (positive), oracle behaviours", "why_tests_cant": "as C01", "anchors": ["core/src/algs.rs: log_candidate, log_oracle_call, log_solution, log_non_dominated, start_solving", "core/src/options.rs: Limits"]}
{"id": "C17", "title": "A zero limit passed through the API underflows", "statement": "A limit of 0 should stop the run at once. It does not: `Some(0)` panics (debug) or wraps (release) on the first counted event; the command line maps 0 to no limit.", "quantifier": "exists a run (negative) / all CLI values", "why_tests_cant": "boundary value not covered", "anchors": ["core/src/algs.rs: log_*", "src/cli.rs: none_if_zero, From<LimitArgs>"]}
{"id": "C18", "title": "Statistics match the front", "statement": "At every exit of every solve call the non-dominated counter equals the number of points in the front (enumeration off), the solution counter equals the number of stored solutions, and the solve-call counter the number of solve calls; with enumeration this holds whenever the call was not stopped between solutions. The numbers of objectives, of objectives with literals and of clauses in the statistics are those of the instance after every history, core boosting included.", "quantifier": "all instances, algorithms, exits, histories", "why_tests_cant": "needs every crash/exit point", "anchors": ["core/src/algs.rs: log_*, yield_solutions", "core/src/lib.rs: Stats"]}
{"id": "C19", "title": "Interrupts stop the solver", "statement": "If the interrupt flag is raised before a `solve` call and stays raised, the call returns Terminated(Interrupted) (or a logger error), performs at most one oracle call and leaves the front unchanged; a flag raised during the run never corrupts the front.", "quantifier": "all instances, algorithms, all points at which the flag can be raised", "why_tests_cant": "interruption points are a schedule", "anchors": ["core/src/algs.rs: check_termination, solve_assumps, Interrupter"]}
{"id": "C20", "title": "The front only grows", "statement": "Every solve call of every algorithm leaves the previously reported points as an unchanged prefix of the front.", "quantifier": "all histories", "why_tests_cant": "ranges over histories", "anchors": ["core/src/types.rs: ParetoFront::extend", "core/src/algs.rs: yield_solutions"]}
{"id": "C21", "title": "No panic", "statement": "No run of the three algorithms on a well-formed instance with positive limits panics: no unwrap on an encoding error, no debug assertion, no subtraction underflow, no query of a solver without a model, no cost conversion overflow when objective ranges fit isize.", "quantifier": "all instances, options, oracle behaviours, exits", "why_tests_cant": "absence of panics over all runs", "anchors": ["core/src/algs.rs", "core/src/algs/pminimal.rs", "core/src/algs/lowerbounding.rs", "core/src/algs/bioptsat.rs"]}
{"id": "C22", "title": "Reported costs are the user's objective values", "statement": "For an objective given by literal/weight pairs (distinct literals) and an integer offset, the reported cost of a solution is offset plus the sum of the weights of its true literals, whichever of the three internal representations the objective got. Reporting a cost panics exactly if the weighted sum or the reported value is not a signed 64-bit integer; it never wraps.", "quantifier": "all literal/weight lists, offsets, assignments", "why_tests_cant": "all weights and signs", "anchors": ["core/src/types.rs: Objective::new, ObjIter", "core/src/algs.rs: externalize_internal_costs, get_cost_with_heuristic_improvements"]}
{"id": "C23", "title": "Duplicate literals change an objective", "statement": "`Objective::new` should count every given pair. This is FALSE for duplicate literals with different weights: only the last weight survives; it is proved for distinct literals and for equal weights.", "quantifier": "all lists of distinct literals / exists (negative)", "why_tests_cant": "input validation corner", "anchors": ["core/src/types.rs: Objective::new"]}
{"id": "C24", "title": "The default blocking clause excludes exactly one assignment", "statement": "The default blocking clause for a solution is falsified by a total assignment iff that assignment agrees with the solution on all its assigned variables.", "quantifier": "all (partial) solutions, all assignments", "why_tests_cant": "all assignments", "anchors": ["core/src/algs.rs: default_blocking_clause"]}
{"id": "C25", "title": "The Pareto-MCS blocking clause excludes exactly the supersets", "statement": "The Pareto-MCS blocking clause of a solution is never tautological (no panic) and is falsified exactly by the assignments that make all objective literals true that are true in the solution.", "quantifier": "all objective lists, solutions, assignments", "why_tests_cant": "all assignments", "anchors": ["core/src/algs.rs: block_pareto_mcs"]}
{"id": "C26", "title": "Core boosting finds the ideal point", "statement": "Core boosting reports infeasible (false) iff the instance is infeasible; otherwise for every objective the derived lower bound is the exact single-objective optimum of that objective.", "quantifier": "all instances, oracle behaviours (cores), options", "why_tests_cant": "cores are chosen by the oracle", "anchors": ["core/src/algs/coreboosting.rs: core_boost", "core/src/algs/coreguided.rs: oll"]}
{"id": "C27", "title": "Core boosting does not change the front", "statement": "Running core boosting (with merge or rebase, with or without oracle reset) before P-minimal or lower-bounding yields exactly the Pareto front of the instance.", "quantifier": "all instances, oracle behaviours", "why_tests_cant": "as C02", "anchors": ["core/src/algs/coreboosting.rs: core_boost, MergeOllRef::merge", "core/src/algs/pminimal.rs: core_boost", "core/src/algs/lowerbounding.rs: core_boost"]}
{"id": "C28", "title": "BiOptSat after core boosting can run forever", "statement": "Core boosting should not affect termination. This is FALSE for BiOptSat when core boosting leaves a constant objective encoding with a positive constant: the run never finishes (release) or fails an assertion (debug).", "quantifier": "exists an instance (negative result); for all fuel", "why_tests_cant": "non-termination", "anchors": ["core/src/algs/bioptsat.rs: bioptsat", "core/src/algs.rs: linsu", "core/src/algs/coreboosting.rs: merge", "core/src/types.rs: ObjEncoding::Constant"]}
{"id": "C29", "title": "Core boosting after solving is rejected without effect", "statement": "`core_boost` after any `solve` call returns an error and changes neither front, clauses nor statistics.", "quantifier": "all states reachable by histories", "why_tests_cant": "all histories", "anchors": ["core/src/algs/pminimal.rs: core_boost", "core/src/algs/lowerbounding.rs: core_boost", "core/src/algs/bioptsat.rs: core_boost"]}
{"id": "C30", "title": "Oracle reset preserves the problem", "statement": "After `reset_oracle` the solver's clause set is exactly the original one and the next fresh variable is above every variable of the instance; without stored CNF the reset is rejected.", "quantifier": "all states", "why_tests_cant": "all states", "anchors": ["core/src/algs.rs: reset_oracle", "core/src/types.rs: VarManager::forget_from"]}
{"id": "C31", "title": "Soft clauses are translated faithfully", "statement": "Translating soft clauses into objective literals preserves the Pareto front: an assignment of the original variables is optimal with given violated-weight costs iff it extends to an optimal assignment of the translated instance with the same costs; equal soft clauses of several objectives share one relaxation literal.", "quantifier": "all lists of soft clauses, weights and hard clauses", "why_tests_cant": "all instances", "anchors": ["core/src/prepro.rs: process_objective, to_clausal"]}
{"id": "C32", "title": "Reindexing preserves the instance up to renaming", "statement": "Reindexing maps variables injectively, satisfying assignments of the reindexed instance correspond to those of the original, and the reported costs agree - provided no objective has all weights equal to some w<>1.", "quantifier": "all instances", "why_tests_cant": "all instances", "anchors": ["core/src/prepro.rs: reindexing", "core/src/types.rs: Reindexer"]}
{"id": "C33", "title": "Reindexing changes reported costs", "statement": "Reindexing should preserve reported costs. This is FALSE when all weights of an objective equal some w<>1: reported costs are divided by w.", "quantifier": "exists an instance (negative result)", "why_tests_cant": "no test uses reindexing", "anchors": ["core/src/prepro.rs: reindexing", "core/src/types.rs: ObjIter, Objective::new"]}
{"id": "C34", "title": "Reindexed solutions map back", "statement": "Applying the reverse map to a solution of the reindexed instance, as done before printing, gives the corresponding assignment of the original variables that occur in the instance and nothing for others.", "quantifier": "all instances and solutions", "why_tests_cant": "all instances", "anchors": ["src/main.rs: post_solve", "core/src/types.rs: Reindexer::reverse"]}
{"id": "C35", "title": "Fresh variables are fresh", "statement": "Any sequence of variable-manager operations keeps new variables distinct from each other and from all previously used ones (until explicitly forgotten), and max_var is the last one handed out. Claiming variables reports whether the next variable was raised. The maximum original variable stays at most the maximum encoded one, which stays in use, as long as no variables are given back.", "quantifier": "all operation sequences", "why_tests_cant": "all histories", "anchors": ["core/src/types.rs: VarManager"]}
{"id": "C36", "title": "Linear SAT-UNSAT search returns the minimum", "statement": "The linear search used by BiOptSat returns None iff the current clauses are unsatisfiable under the base assumptions, and otherwise the minimum of the objective under them together with an assignment attaining it, given a valid lower bound.", "quantifier": "all clause sets, assumptions, bounds, oracle behaviours", "why_tests_cant": "as C01", "anchors": ["core/src/algs.rs: linsu, linsu_yield"]}
{"id": "C37", "title": "The P-minimal cut excludes exactly the weakly dominated assignments", "statement": "The clause added for a candidate's costs is implied by 'some objective is better than the candidate' (over exact encodings) and implies it; so exactly the assignments weakly dominated by the candidate are removed.", "quantifier": "all costs, encodings, offsets, assignments", "why_tests_cant": "all assignments", "anchors": ["core/src/algs/pminimal.rs: dominated_block_clause, tmp_block_dominated"]}
{"id": "C38", "title": "The fence of lower-bounding only rises and never skips a solution", "statement": "Each refinement of the fence strictly raises the bound of at least one objective and lowers none, and skips only values the objective cannot take.", "quantifier": "all cores and fences", "why_tests_cant": "cores are chosen by the oracle", "anchors": ["core/src/algs/lowerbounding.rs: update_fence"]}
{"id": "C39", "title": "Resuming after an early stop can lose Pareto points", "statement": "A solver stopped by a limit and continued should finally report the complete front. This is FALSE (enumeration off): a candidate blocked before it was reported is lost.", "quantifier": "exists a history (negative result)", "why_tests_cant": "needs a two-call history with a stop at a specific point", "anchors": ["core/src/algs/pminimal.rs: p_minimization, solve"]}
{"id": "C40", "title": "Resuming with enumeration can report a dominated point", "statement": "Points reported in enumeration mode should be Pareto-optimal also after a resumed early stop. This is FALSE: after a stop inside enumeration the blocked optimal solution is lost and a dominated cost vector can be reported as Pareto-optimal.", "quantifier": "exists a history (negative result)", "why_tests_cant": "needs a two-call history", "anchors": ["core/src/algs.rs: yield_solutions", "core/src/algs/pminimal.rs"]}
{"id": "C41", "title": "Solving again after Done changes nothing for P-minimal", "statement": "With enumeration off, calling `PMinimal::solve` or `LowerBounding::solve` again after Done leaves the front unchanged and returns Done again.", "quantifier": "all instances, oracle behaviours", "why_tests_cant": "histories", "anchors": ["core/src/algs/pminimal.rs: solve", "core/src/algs/lowerbounding.rs: solve"]}
{"id": "C42", "title": "BiOptSat reports a point twice when solved again", "statement": "A second `BiOptSat::solve` after Done should leave the front unchanged. This is FALSE: the last point can be reported again.", "quantifier": "exists a history (negative result)", "why_tests_cant": "two-call history", "anchors": ["core/src/algs/bioptsat.rs: bioptsat"]}
{"id": "C43", "title": "Routine log events are balanced", "statement": "In the log of any run, routine ends never exceed routine starts (so the terminal logger's stack never underflows), and in a finished P-minimal or lower-bounding run starts and ends match.", "quantifier": "all runs and exits", "why_tests_cant": "all schedules", "anchors": ["core/src/algs.rs: log_routine_start, log_routine_end", "src/cli.rs: CliLogger"]}
{"id": "C44", "title": "BiOptSat leaves a routine open on infeasible instances", "statement": "A finished run should close every routine it logged. This is FALSE for BiOptSat on infeasible instances.", "quantifier": "exists an instance (negative result)", "why_tests_cant": "log balance is not tested", "anchors": ["core/src/algs/bioptsat.rs: bioptsat"]}
{"id": "C45", "title": "OLL reformulation preserves the objective", "statement": "After core-guided reformulation, for every solution of the instance that satisfies the totalizer definitions the objective value equals the reformulation offset plus the weighted remaining reformulated literals (counting totalizer outputs), and the offset is a valid lower bound.", "quantifier": "all objectives, sequences of cores, assignments", "why_tests_cant": "cores are chosen by the oracle", "anchors": ["core/src/algs/coreguided.rs: oll, Inactives, ReformData"]}
{"id": "C46", "title": "Input constraint numbering matches the proof checker", "statement": "Constraint ids assigned while translating the input run through 1..n with an equality taking two ids, and the declared number of constraints equals the total.", "quantifier": "all constraint lists", "why_tests_cant": "all lists", "anchors": ["core/src/prepro.rs: to_clausal"]}
{"id": "C47", "title": "The order loaded in the proof is Pareto dominance", "statement": "The pseudo-Boolean order definition written to the proof holds between two assignments iff the first is at least as good as the second in every objective (reported costs); it is reflexive and transitive, and the written transitivity derivation is a valid cutting-planes refutation.", "quantifier": "all objective lists and assignments", "why_tests_cant": "all assignments", "anchors": ["core/src/algs/proofs.rs: objectives_as_order"]}
{"id": "C48", "title": "Objective-bound reifications mean what they say", "statement": "The literal introduced in the proof for 'objective >= value' is true exactly for the assignments in which the objective reaches the value, for every assignment satisfying its two definitions; both definition lines are accepted by the checker, and asking for the same bound again reuses the literal without writing anything.", "quantifier": "all objectives, values, assignments", "why_tests_cant": "all assignments", "anchors": ["core/src/algs/proofs.rs: get_obj_bound_constraint"]}
{"id": "C49", "title": "The certified P-minimal cut follows from its two premises", "statement": "For every found solution whose extension satisfies the proof's constraints, all lines written to certify its cut are accepted by the proof checker, the cut is implied by the mapping line and the exclusion line, exactly the solution is excluded, no other constraint is lost, the cut is false for the solution and true for every assignment that is strictly better in some objective (unit weight one at the lower bound, see C64).", "quantifier": "all checker states, objectives, encodings with strict definitions, witnesses and costs", "why_tests_cant": "all assignments, histories of cuts and objectives", "anchors": ["core/src/algs/proofs.rs: certify_pmin_cut"]}
{"id": "C50", "title": "Clause ids of the SAT solver and the proof stay aligned", "statement": "As long as every clause handed to the SAT solver goes through the certifying collector, mapping a solver clause id gives the proof id recorded for that clause and no lookup fails; one clause added outside it breaks the alignment. In particular, with proof logging the enumeration of solutions fails: P-minimal and lower-bounding panic when the first candidate is blocked, whatever the limit on the solutions per non-dominated point.", "quantifier": "all interleavings of original and derived clauses", "why_tests_cant": "all event sequences", "anchors": ["cadical-veripb-tracer/src/lib.rs: ConstraintMapper, CadicalTracer, CadicalCertCollector"]}
{"id": "C51", "title": "File format inference", "statement": "With inference on, the parser chosen depends only on the last extension after stripping one compression extension: DIMACS for mcnf/bicnf/wcnf/cnf/dimacs, OPB for opb/mopb/pbmo, and an error otherwise.", "quantifier": "all paths", "why_tests_cant": "all strings", "anchors": ["core/src/prepro.rs: parse, FileFormat"]}
{"id": "C52", "title": "Errors and terminations propagate unchanged", "statement": "The `?` operator on MaybeTerminated/MaybeTerminatedError returns exactly the first non-Done outcome of a sequence of steps and never runs later steps.", "quantifier": "all sequences of fallible steps", "why_tests_cant": "all sequences", "anchors": ["core/src/termination.rs"]}
{"id": "C53", "title": "Pareto-front conversion keeps costs and counts", "statement": "Converting all solutions of a front (e.g. for reindexing) keeps the points, their order, costs and number of solutions.", "quantifier": "all fronts and conversion functions", "why_tests_cant": "all inputs", "anchors": ["core/src/types.rs: ParetoFront::convert_solutions, NonDomPoint::convert_solutions"]}
{"id": "C54", "title": "Routine messages on the terminal are symmetric", "statement": "For any nesting depth option, the terminal logger prints an end message for a routine iff it printed its start message, for well-nested routine events.", "quantifier": "all well-nested event sequences and verbosity levels", "why_tests_cant": "all sequences", "anchors": ["src/cli.rs: CliLogger"]}
{"id": "C55", "title": "Enumeration does not change the front", "statement": "With solution enumeration (any limit) a finished run of any algorithm has exactly the Pareto front of the instance, each point once.", "quantifier": "all instances, oracle behaviours", "why_tests_cant": "as C02", "anchors": ["core/src/algs.rs: yield_solutions", "core/src/algs/pminimal.rs: tmp_block_dominated"]}
{"id": "C56", "title": "An objective whose weights are all zero corrupts the front", "statement": "A finished run should report no dominated point, whatever the weights. This is FALSE if all weights of a non-empty objective are 0: the objective is treated as unweighted with unit weight 0, the solver minimises the number of its true literals, and points are reported that another reported point dominates in the user's costs.", "quantifier": "exists an instance (negative result)", "why_tests_cant": "The configuration looks degenerate and is never exercised; the positive theorems need the exact side condition.", "anchors": ["core/src/types.rs Objective::new", "core/src/algs.rs externalize_internal_costs"]}
{"id": "C57", "title": "The pipeline reports the Pareto front of the parsed problem", "statement": "Translating a parsed problem, optionally reindexing it, solving it with any of the three algorithms and mapping the solutions back prints, if the run finishes, exactly the Pareto front of the parsed problem (pseudo-Boolean constraints, weighted soft clauses), each point once; every printed solution, however its unassigned variables are completed, satisfies the parsed constraints and has the printed costs; a run that stops early prints a subset with the same guarantees. Needs, with reindexing, that no objective has one common weight other than 1.", "quantifier": "all parsed problems, algorithms, options, oracle behaviours, limits, interrupts", "why_tests_cant": "Composition of translation, reindexing, search and back-mapping over all inputs.", "anchors": ["src/main.rs: sub_main, run!, post_solve", "core/src/prepro.rs: to_clausal, reindexing"]}
{"id": "C58", "title": "Enumeration with reindexing prints a solution twice", "statement": "Each solution of a point should be printed once. This is FALSE with reindexing: all encoded variables become original ones, so solutions that differ only in auxiliary variables are enumerated separately and printed identically.", "quantifier": "exists a problem (negative result)", "why_tests_cant": "Needs an auxiliary variable that is not determined by the original ones.", "anchors": ["core/src/prepro.rs: reindexing", "src/main.rs: post_solve"]}
{"id": "C59", "title": "Reindexing panics on instances without variables", "statement": "Reindexing an instance panics exactly when no variable occurs in its clauses and objectives, although such an instance has a (trivial) Pareto front that is printed without reindexing.", "quantifier": "all instances", "why_tests_cant": "Degenerate input; the equivalence ranges over all instances.", "anchors": ["core/src/prepro.rs: reindexing (max_var().unwrap())"]}
{"id": "C60", "title": "Forgetting or adding variables corrupts a reindexer", "statement": "reverse should invert reindex. This holds for every sequence of reindex calls, but is FALSE after forget_from, which keeps one reverse entry too many, so that all later reverse lookups are shifted up, and FALSE after new_var, which adds no reverse entry, so that later ones are shifted down. forget_from does keep both directions for the variables with smaller images and hands the forgotten numbers out again; a variable from new_var is different from the image of every variable.", "quantifier": "all sequences of reindex calls; exists a sequence with forget_from (negative result)", "why_tests_cant": "Off-by-one only visible in sequences that forget and then reindex again.", "anchors": ["core/src/types.rs: Reindexer::forget_from, new_var, reindex, reverse"]}
{"id": "C61", "title": "A higher verbosity only adds lines", "statement": "For any sequence of log events, the lines the terminal logger prints at a lower verbosity are a subsequence of those it prints at a higher one (other options equal). An event is printed exactly if it was asked for by its own option or by a high enough verbosity: non-dominated points from level 1; candidates, the ideal point, fences (lower-bounding only), cores and core exhaustion from level 2; oracle calls from level 3.", "quantifier": "all event sequences, log options and verbosity levels", "why_tests_cant": "all event sequences and option combinations", "anchors": ["src/cli.rs: From<LogArgs> for LoggerConfig, CliLogger"]}
{"id": "C62", "title": "The logged derivation of a learned clause gives exactly that clause", "statement": "When the SAT solver learns a clause by a chain of resolution steps over clauses without repeated literals, the cutting-planes line written to the proof evaluates to a constraint satisfied by exactly the assignments that satisfy the clause. Superfluous antecedents or repeated literals break this.", "quantifier": "all clauses, all resolution chains of any length, all proof states", "why_tests_cant": "all chains of any length", "anchors": ["cadical-veripb-tracer/src/lib.rs: write_derived, add_derived"]}
{"id": "C63", "title": "An accepted proof certifies the whole front", "statement": "If the checker accepts a proof for the instance and the proof ends with a contradiction, every feasible assignment is weakly dominated by a feasible solution that was excluded in the proof, and every Pareto-optimal cost vector is the cost of an excluded solution.", "quantifier": "all clause lists, objective lists and proofs (any length, any lines)", "why_tests_cant": "quantifies over all proofs and all assignments", "anchors": ["core/src/algs/proofs.rs: init_proof, objectives_as_order, certify_pmin_cut"]}
{"id": "C64", "title": "The proof for a solution at the lower bound ignores the unit weight", "statement": "Certifying the cut of a solution whose cost equals the lower bound from core boosting should produce accepted lines. This is FALSE for objectives with a common weight other than one: the derivation adds the reformulation constraint without multiplying it by the unit weight and does not reach a contradiction.", "quantifier": "exists an instance (negative result); for unit weight one the positive statement is C49", "why_tests_cant": "needs proof logging, core boosting and a common weight together", "anchors": ["core/src/algs/proofs.rs: certify_pmin_cut (proof goal for cost at lower bound)"]}
{"id": "C65", "title": "The objective reformulation of core boosting is derived in the proof", "statement": "With proof logging, when core boosting ends every line it wrote is accepted by the checker and the reformulation constraint it leaves in the proof says exactly: the objective is at least the lower bound that core boosting reports plus the weights of the remaining (and, for the exact reformulation, not yet built) totalizer outputs and literals that are true. This holds without core exhaustion; with core exhaustion the reformulation adds the wrong half of the output definition, and the constraint written says nothing.", "quantifier": "every objective with distinct literals, every sequence of cores (unit or not, over literals and totalizer outputs, with any weights), every interleaving of cores, reformulations of cores and other proof lines, exact or inexact reformulation", "why_tests_cant": "the order and shape of cores depends on the SAT solver; a wrong coefficient or id only shows in one of unboundedly many histories, and the checker only rejects later lines", "anchors": ["core/src/algs/coreguided.rs: oll", "core/src/algs/coreguided.rs: exhaust_core", "core/src/algs/coreguided.rs: OllReformulation", "core/src/algs/coreguided.rs: ReformData"]}
{"id": "C66", "title": "Proof: a reified bound is a faithful, conservative definition", "statement": "When the clause blocking dominated solutions needs more than one assumption to bound an objective below a value, the proof logger introduces a new literal. For every encoding with its output definitions in the proof, all lines written are accepted by the proof checker, every clause handed to the SAT solver is in the proof under the id it is registered with, every assignment satisfying the proof so far still extends to one, and in every such extension the new literal is true exactly if the objective is below the value.", "quantifier": "all weighted objectives, encodings with and without buffered inputs, values, numbers of assumptions and proof states", "why_tests_cant": "a wrong divisor, literal or hint is only rejected by the checker for particular weights and numbers of outputs; a definition that is not conservative would silently cut off solutions", "anchors": ["core/src/algs/proofs.rs: certify_assump_reification, get_obj_bound_constraint", "core/src/algs/pminimal.rs: dominated_block_clause"]}
{"id": "C67", "title": "Proof: lower bounds found by linear search are certified", "statement": "When solution-improving search proves that an objective cannot go below a cost under its base assumptions, the core returned by the SAT solver is turned into a clause of the proof saying that a base assumption is false or the cost is at least that value. For every core over base assumptions and bound literals that contains a bound literal (a core that is a single bound literal has to be the one for the cost; any other core would contradict the solution already found) the lines are accepted, the returned id is that clause, and every assignment satisfying the proof and the base assumptions has at least that cost. With buffered inputs this needs the output variables to be in ascending order of their values; a counterexample is proved where they are not.", "quantifier": "all weighted objectives, encodings with and without buffered inputs, base assumptions, cores (any subset of the assumptions) and proof states", "why_tests_cant": "depends on which literals the SAT solver happens to return in the core and on the order in which encoding outputs were created", "anchors": ["core/src/algs/proofs.rs: linsu_certify_lower_bound", "core/src/algs.rs: linsu_yield"]}
{"id": "C68", "title": "Proof: blocking a candidate is certified", "statement": "When P-minimal without enumeration blocks a candidate, the proof lines written (one reification per objective with several assumptions, the cut of the solution, the blocking clause) are all accepted by the proof checker; every clause handed to the SAT solver, the blocking clause in particular, is in the proof under the id it is registered with; the candidate is excluded exactly once; and every assignment that satisfies the proof so far and is better than the candidate in some objective still extends to one satisfying the new proof. With an encoding whose only assumption is a buffered input the blocking clause is not accepted; a counterexample is proved.", "quantifier": "all numbers of objectives, costs, witnesses, encodings with and without buffered inputs, and proof states reached so far", "why_tests_cant": "acceptance depends on weights, on what is buffered in the encodings and on which bounds were already defined in the proof; a non-conservative line would silently remove Pareto-optimal solutions", "anchors": ["core/src/algs/pminimal.rs: p_minimization, dominated_block_clause", "core/src/algs/proofs.rs: certify_pmin_cut, certify_assump_reification"]}
{"id": "C69", "title": "Proof: an iteration of BiOptSat is certified", "statement": "When BiOptSat logs a proof, the lines it writes after minimising both objectives (the cut of the solution, the shortened lower bound on the decreasing objective, the cut that is added, the unit clauses bounding the decreasing objective) are all accepted by the proof checker; each unit clause handed to the SAT solver is in the proof under the id it is registered with; no assignment satisfying the proof is lost; what is left is better in the decreasing objective; and the next value of the increasing objective is a certified lower bound for the next iteration. In the last iteration the constraint given as the reason for unsatisfiability is contradictory. Three counterexamples are proved: a constant increasing objective panics, buffered inputs of the increasing objective give a rejected line, and buffered inputs that are encoded between the lower bound and the cut give a clause that is registered with the wrong constraint.", "quantifier": "all pairs of objectives, costs, encodings and outputs, with and without buffered inputs of the decreasing objective, and all proof states reached so far", "why_tests_cant": "whether the lines are accepted depends on the number of outputs, the weights and what is buffered at this moment; proofs are checked by an external tool only on a few instances", "anchors": ["core/src/algs/bioptsat.rs: bioptsat", "core/src/algs/proofs.rs: certify_pmin_cut, get_obj_bound_constraint", "core/src/types.rs: ObjEncoding::output_proof_details"]}
{"id": "C70", "title": "Proof: the proof of a whole P-minimal run", "statement": "Take any run of P-minimal (or of lower-bounding, which writes the same lines) with proof logging and without enumeration: the proof file starts with the header, and then, in any order and any number, the solver derives and deletes clauses, encodings introduce output variables, and candidates that no earlier candidate weakly dominates are blocked. At every point of the run the proof written so far is accepted by the proof checker, the excluded solutions are exactly the blocked candidates, which are solutions of the instance, and every clause handed to the solver is or was in the proof under its id. A solution of the instance that no blocked candidate weakly dominates is never lost: it extends to the variables of the encodings and the proof such that everything in the proof holds, and blocking it later succeeds without a panic. Every solution the solver returns that satisfies the handed clauses is better than every blocked candidate in some objective, so no blocked candidate is found again. When the solver has derived the contradiction, every Pareto-optimal point is the cost of a blocked candidate.", "quantifier": "all instances, numbers of objectives, encodings, runs of any length, interleavings of solver and algorithm", "why_tests_cant": "the invariant has to survive every interleaving of clause learning, deletion, encoding extension and blocking; proofs of a few test instances exercise a handful of them", "anchors": ["core/src/algs/pminimal.rs: p_minimization, dominated_block_clause", "core/src/algs/proofs.rs: certify_pmin_cut, certify_assump_reification, get_obj_bound_constraint", "cadical-veripb-tracer/src/lib.rs"]}
{"id": "C71", "title": "Proof: the proof of a whole BiOptSat run", "statement": "Take any run of BiOptSat with proof logging, without core boosting, lookup of known points and buffered inputs of the encodings: the proof file starts with the header, and then, in any order and any number, the solver derives and deletes clauses, encodings introduce output variables, linear search certifies a lower bound on either objective, and iterations certify the cut of a new solution and bound the decreasing objective. At every point of the run the proof written so far is accepted by the proof checker, the excluded solutions are exactly those of the iterations, and every clause handed to the solver is or was in the proof under its id. A solution of the instance that no solution of an iteration weakly dominates is never lost: it extends to the variables of the encodings and the proof such that everything in the proof holds, and an iteration with it, if its increasing objective is below its maximum, succeeds without a panic (at the maximum the code panics when the decreasing objective is above its lower bound: C71_maximum_refuted) and hands the assumptions of the next smaller bound to the solver. Every solution the solver returns that satisfies the handed clauses is smaller in the decreasing objective than all solutions before. The last iteration, with the decreasing objective at its lower bound, ends with a contradictory constraint under the id given in the conclusion, and then (or when the solver has derived the contradiction) every Pareto-optimal point is the cost of a solution of an iteration.", "quantifier": "all instances with two objectives, encodings, runs of any length, interleavings of solver and algorithm, where the solver does not delete the bounds linear search returned", "why_tests_cant": "each iteration uses constraints of the iteration before, so acceptance of the last line depends on the whole history; proofs of a few test instances exercise a handful of histories", "anchors": ["core/src/algs/bioptsat.rs: bioptsat, linsu", "core/src/algs/proofs.rs: certify_pmin_cut, linsu_certify_lower_bound, get_obj_bound_constraint", "core/src/types.rs: ObjEncoding::output_proof_details", "cadical-veripb-tracer/src/lib.rs"]}
{"id": "C72", "title": "Proof: the proof of a whole run after core boosting", "statement": "Take any run with proof logging in which core boosting comes first: the solver finds cores, their totalizers introduce outputs, cores are reformulated, and for some of the objectives, one after the other, the lower bound and the reformulation constraint found are stored; then the encodings are built over what remains of the objectives, possibly over outputs of the totalizers, and P-minimal (or lower-bounding) without enumeration, or BiOptSat, searches as in C70 and C71. The lines written while reformulating an objective, deletions included, leave the proof accepted, and the bound and the constraint stored for the objective are what the later lines rely on. At every point of the run the proof written so far is accepted by the proof checker, the excluded solutions are exactly the blocked candidates, and every clause handed to the solver is or was in the proof under its id. A solution that no blocked candidate weakly dominates is never lost and can be blocked without a panic, the solver does not return a blocked candidate again, and when the contradiction is derived every Pareto-optimal point is the cost of a blocked candidate.", "quantifier": "all instances, objectives, sequences of cores and reformulations (without core exhaustion), encodings, runs of any length, interleavings of solver and algorithm", "why_tests_cant": "what core boosting derives and deletes has to fit with every later line of the search; a deleted or misnumbered constraint only shows when a later candidate happens to need it", "anchors": ["core/src/algs/coreboosting.rs: core_boost", "core/src/algs/coreguided.rs: oll", "core/src/algs/pminimal.rs: p_minimization", "core/src/algs/bioptsat.rs: bioptsat", "core/src/algs/proofs.rs: certify_pmin_cut"]}
{"id": "C73", "title": "Proof: the front reported with proof logging is the Pareto front and its points are certified", "statement": "Take any run of P-minimal or lower-bounding with proof logging and without enumeration, optionally after core boosting: solutions are found, blocked in the proof and for the solver, improved until the solver reports that nothing weakly dominates the last candidate, and then yielded. At every point of the run the proof written so far is accepted, every reported point is Pareto-optimal, its solution is a solution of the instance with exactly the reported costs and is one of the solutions excluded in the proof, and no point is reported twice. When the algorithm returns because the solver has no further solution, the reported points are exactly the Pareto front. Blocking the solution found and reporting a candidate that cannot be improved never fail, and no two blocked candidates have the same costs.", "quantifier": "all instances, objectives, encodings, core boosting runs, answers of the solver, interleavings of solver, encodings and algorithm, runs of any length", "why_tests_cant": "that the clauses written to the proof and handed to the solver never cut off a better solution depends on the whole history of the run; a wrong point or a lost one needs a particular sequence of answers of the solver", "anchors": ["core/src/algs/pminimal.rs: alg_main, p_minimization, enforce_dominating", "core/src/algs/lowerbounding.rs: alg_main", "core/src/algs.rs: yield_solutions", "core/src/algs/proofs.rs: certify_pmin_cut"]}
{"id": "C74", "title": "Proof: the front reported by BiOptSat with proof logging is the Pareto front and its points are certified", "statement": "Take any run of BiOptSat with proof logging and without enumeration, optionally after core boosting: a solution is found, the increasing objective is minimised by linear search, then the decreasing objective for that value, the solution is yielded, and the iteration is recorded in the proof. At every point of the run the proof written so far is accepted, every reported point is Pareto-optimal, its solution is a solution of the instance with exactly the reported costs, it is excluded in the proof by the time the next search starts, and the points are reported from left to right, none twice. When the algorithm returns, the reported points are exactly the Pareto front and the proof contains a contradiction. Linear search only ever finds better solutions and never loses the value of the increasing objective, and yielding, the iteration after it and the conclusion never fail.", "quantifier": "all instances, pairs of objectives, encodings, core boosting runs, answers of the solver, interleavings of solver, encodings and algorithm, runs of any length", "why_tests_cant": "the contradiction at the end rests on all cuts and bounds of the earlier iterations; an iteration that loses or repeats a point needs a particular sequence of answers of the solver", "anchors": ["core/src/algs/bioptsat.rs: alg_main", "core/src/algs.rs: linsu, yield_solutions", "core/src/algs/proofs.rs: linsu_certify, certify_pmin_cut"]}
{"id": "C75", "title": "Proof logging does not change the result, and runs with proof logging are bounded", "statement": "When an algorithm returns without proof logging and an algorithm returns with proof logging on the same instance, with or without core boosting, whatever the two algorithms, options, encodings and answers of the solver, both report the same cost vectors, each once. A run of P-minimal or lower-bounding with proof logging changes its place in the algorithm (solution found, candidate blocked, point yielded) at most 3 N + 1 times, where N is the product over the objectives of one plus the sum of the weights. A run of BiOptSat with proof logging reports at most one plus the smaller of the two sums of weights points, and changes its place at most (points + 1) (t0 + t1 + 4) times, where t0 and t1 are the sums of weights.", "quantifier": "all instances, objectives, encodings, options, core boosting runs, answers of the solver, runs of any length", "why_tests_cant": "two runs with different solvers and options are compared, for all instances; the bound must hold for all answers of the solver", "anchors": ["core/src/algs/pminimal.rs: alg_main", "core/src/algs/lowerbounding.rs: alg_main", "core/src/algs/bioptsat.rs: alg_main", "core/src/algs.rs: linsu, p_minimization"]}
{"id": "C76", "title": "Continuing a stopped run", "statement": "Enumeration off. If every earlier call of `solve` of P-minimal or lower-bounding on a solver returned, or was stopped by the limit on reported points or on solutions, then a call that returns leaves exactly the Pareto front in the solver, each cost vector once. Whatever happened before, an undisturbed call without limits returns. So the front can be asked for in batches of k points: every call but the last is stopped by its limit with exactly k more points, the last one returns with the whole front. BiOptSat can be stopped for any reason at any time and continued: when a call returns, the reported cost vectors are exactly the Pareto front, though a vector may be reported several times. BiOptSat in batches of one point each is FALSE: it reports the first point again and again.", "quantifier": "all instances, encodings, options without enumeration, answers of the solver, histories of calls of any length with any limits", "why_tests_cant": "histories with stops at arbitrary places for arbitrary instances", "anchors": ["core/src/algs/pminimal.rs: alg_main", "core/src/algs/lowerbounding.rs: alg_main", "core/src/algs/bioptsat.rs: alg_main", "core/src/algs.rs: yield_solutions, log_non_dominated, log_solution"]}
{"id": "C77", "title": "The exit status of the binary", "statement": "If a front was printed the exit status is 0; status 1 means that a message could not be written to standard error; status 101 means a panic. With a working standard error and proper input the status is always 0. A script expects that status 0 means that the complete front was printed. This is FALSE: the status is also 0 when the run ended with an error (BiOptSat on a problem with one objective), when the front could not be written, and when a limit stopped the run.", "quantifier": "all command lines, problems, encodings, answers of the solver and failing writes; the negative results give runs", "why_tests_cant": "ranges over all inputs and all places where a write can fail", "anchors": ["src/main.rs: main, sub_main, handle_termination, post_solve", "src/cli.rs: error, log_termination, print_pareto_front"]}
{"id": "C78", "title": "Proof logging from the parsed problem on", "statement": "With proof logging, the translation of the parsed problem to clauses gives the same instance (or the same failure) as without. The lines it writes are accepted by the checker starting from the constraints of the problem, exclude no solution, and every clause handed to the solver is in the proof under the id handed over with it. Continuing with P-minimal, lower-bounding or BiOptSat, optionally after core boosting: at any time the whole proof is accepted and every reported point is Pareto-optimal for the problem as it was read, with one solution of that problem, no cost vector twice; when the algorithm returns, exactly the Pareto front of the problem as it was read is reported and the proof contains a contradiction. Reindexing together with proof logging never yields an instance. For the last part the certified encoder has to be strict: the constraints it adds to the proof must follow from its clauses. Without that it is FALSE that a solution of the clauses extends to the constraints of the proof.", "quantifier": "all parsed problems, pseudo-Boolean encoders with certificates satisfying the stated contract, objective encodings, solver answers and interleavings of proof lines", "why_tests_cant": "ranges over all problems and all runs; a test checks the proof of one run with one encoder", "anchors": ["core/src/prepro.rs: to_clausal, n_constraints", "core/src/algs/proofs.rs: init_proof, new_cert", "src/main.rs: sub_main", "core/src/algs.rs: yield_solutions"]}
{"id": "C79", "title": "The self-check of the Pareto front", "statement": "With the feature `check-non-dominance` (debug builds), pushing a point to the Pareto front is accepted exactly if its cost vector is new and neither dominates nor is dominated by a point of the front. The check never fires in any history of calls of P-minimal or lower-bounding without enumeration, nor in the first call of any algorithm with any enumeration, however the calls end. It is FALSE that it never fires: calling BiOptSat twice, or continuing a stopped enumeration of P-minimal, trips it. It is also FALSE that an extended front contains no dominated or repeated points: points handed over in one call are not compared with each other.", "quantifier": "all cost vectors of equal length, instances, encodings, options, solver answers, histories of calls; the negative results give runs", "why_tests_cant": "the check runs on the points of a run; that it cannot fire ranges over all instances and histories", "anchors": ["core/src/types.rs: extend (impl Extend for ParetoFront)", "core/src/algs.rs: yield_solutions"]}
{"id": "C80", "title": "Solving after core boosting that was stopped", "statement": "Core boosting may be stopped by an interrupt or a failing logger anywhere (while searching for cores, after the oracle reset, while the encodings are put together), or answer that there is no solution, any number of times; going on with solve afterwards still gives exactly the Pareto front, a sound front when stopped, terminates when undisturbed and enumerates all solutions, and calling core boosting again gives right answers. For a stopped core boosting with oracle reset this needs that no variables were reserved for the encodings and that earlier core boostings reset the oracle too. Without that it is FALSE: with reserved variables, stopping right after the reset makes P-minimal return normally with a dominated point and optimal points missing; a reset stopped after a completed core boosting without reset makes BiOptSat miss points.", "quantifier": "all instances with distinct objective literals, encodings, options, sequences of core boostings, solver answers, places where each is stopped, histories of later calls; the negative results give runs", "why_tests_cant": "the place where core boosting is stopped and the number of attempts are unbounded, and what counts is the result of a later call", "anchors": ["core/src/algs/coreboosting.rs: core_boost, reset_oracle, merge", "core/src/algs/pminimal.rs: core_boost", "core/src/algs/lowerbounding.rs: core_boost", "core/src/algs/bioptsat.rs: core_boost", "core/src/types.rs: VarManager::forget_from"]}
{"id": "C81", "title": "An interrupt is final", "statement": "The flag set by an interrupt is never taken back. Once a call of solve or of core boosting has been stopped by the interrupt, whatever calls came before it, the Pareto front after that call is the front for good: no later call of solve or core boosting changes it. Every later solve is stopped with the interrupt (or a logger or oracle error that comes first), asks the oracle at most once and reports nothing new; later core boosting never returns an answer.", "quantifier": "all instances, options, encodings, algorithms, histories of calls before and after, oracle answers (right or wrong), loggers, limits and the moment the flag is raised", "why_tests_cant": "the moment of the interrupt and the calls before and after it are unbounded", "anchors": ["core/src/algs.rs: Interrupter::interrupt, check_termination, term_flag", "core/src/algs/coreboosting.rs: core_boost", "core/src/algs/coreguided.rs: oll"]}
{"id": "C82", "title": "Preprocessing with MaxPre", "statement": "With preprocessing switched on (feature `maxpre`), whatever the binary prints is right for the problem as it was read: every printed cost vector is Pareto-optimal, none is printed twice, and every printed (reconstructed) solution satisfies the constraints at exactly these costs, however its unassigned variables are set. A finished run prints exactly the Pareto front, so the same cost vectors as without preprocessing. Undisturbed runs finish. This assumes that MaxPre returns unit soft clauses, that its reconstruction never worsens a solution and that it keeps an at least equally good solution for every solution; and that no objective variable it returns is above all variables of the clauses. Without the last condition it is FALSE: the number of variables is taken from the clauses only, so variables are handed out twice and all three algorithms print dominated points.", "quantifier": "all parsed problems, constraint encoders, MaxPre runs meeting the stated contract, objective encodings, algorithms, options, solver answers, interrupts; the negative result gives a problem", "why_tests_cant": "ranges over all problems and everything the external preprocessor may do to them", "anchors": ["core/src/prepro.rs: max_pre, constraints_to_clausal", "src/main.rs: sub_main, post_solve", "core/src/types.rs: VarManager::new"]}
{"id": "C83", "title": "Inprocessing with MaxPre after core boosting", "statement": "Core boosting with inprocessing (feature `maxpre`) hands MaxPre an instance that is equivalent to the user's: its soft clauses are units, its solutions are solutions of the user's instance whose costs are at most what the handed instance says, every solution of the user extends to one of the handed instance with exactly its costs, and the Pareto-optimal cost vectors are the same (up to offset and unit of each objective). So with a correct MaxPre, a reconstructed solution of MaxPre's instance would be feasible at no higher costs, and no solution is lost. What the solver does with MaxPre's answer is FALSE in two ways: solutions are never reconstructed, so that every algorithm reports solutions that violate the instance; and an objective that core boosting or MaxPre leaves without soft clauses gets no encoding, after which BiOptSat panics in core boosting and P-minimal and lower-bounding panic when solving.", "quantifier": "all instances with distinct objective literals, algorithms, options, core boosting runs, solver answers, totalizer databases and MaxPre runs meeting the stated contracts; the negative results give instances and MaxPre runs, for every algorithm", "why_tests_cant": "ranges over all instances, all ways core boosting may reformulate the objectives and everything the external preprocessor may do", "anchors": ["core/src/algs/coreboosting.rs: inprocess", "core/src/algs/pminimal.rs: core_boost", "core/src/algs/lowerbounding.rs: core_boost", "core/src/algs/bioptsat.rs: core_boost"]}
{"id": "C84", "title": "Solution tightening only improves the solution", "statement": "With the feature `sol-tightening`, the solution and the costs that are read off after a satisfiable solver call have been improved by flipping objective literals in the solver. The result is a solution of the instance; the costs the algorithm continues with are no worse in any objective than those of the solution the solver had found, and the solution returned is no worse than these costs. If no literal is in two objectives, or without tightening, the costs are exactly those of the returned solution, and so are costs that no solution improves on (in particular Pareto-optimal ones). The tightening never panics. That the costs are always those of the returned solution is FALSE: with shared literals a later objective may flip a literal that an earlier one has been charged for, so that the vector is the cost of no solution.", "quantifier": "all instances with distinct literals and positive weights in each objective, all models of the solver and all flip answers that keep the model a model with the other objective variables unchanged", "why_tests_cant": "ranges over all instances, models and sequences of granted and refused flips", "anchors": ["core/src/algs.rs: get_cost_with_heuristic_improvements, get_solution_and_internal_costs"]}
{"id": "C85", "title": "A stopped run can be continued after core boosting", "statement": "After any number of completed or stopped calls to core boosting, the algorithm can be solved in several calls. With P-Minimal and Lower-Bounding a call that returns normally, after calls that returned or were stopped by the limit on points or solutions, leaves exactly the Pareto front of the instance as the user gave it, each point once and with solutions of that cost; with a limit of k points per call every call but the last adds exactly k points. With BiOptSat a call that returns normally, after calls stopped in any way, leaves exactly the Pareto-optimal costs. For all three, whatever stopped the calls before, a call without limits in which nothing fails or interrupts returns normally.", "quantifier": "all instances with distinct literals, all histories of boosting calls with their options, all histories of solving calls with their limits, interrupts and logger failures, all correct solvers and encodings", "why_tests_cant": "ranges over all instances, all points at which boosting and solving calls can be stopped, and all lengths of the history", "anchors": ["core/src/algs/coreboosting.rs: core_boost", "core/src/algs/pminimal.rs: solve", "core/src/algs/lowerbounding.rs: solve", "core/src/algs/bioptsat.rs: solve", "core/src/algs.rs: Solve, CoreBoost"]}
{"id": "C86", "title": "The printed Pareto front can be read back", "statement": "The text the command line prints for the Pareto front determines the front: a reader written from the format (blocks >>>>> and <<<<<, a line with costs and number of solutions per point, lines starting with v for solutions) gets from it, for every point in the order of the front, its costs, the number of its solutions and, if solutions are printed, all of them; hence two fronts with the same text have the same costs, numbers of solutions and printed solutions. Reading the text of a run gives points of the Pareto front of the problem in the file, each once, and all of them if the run was not stopped early; the printed solutions have the printed costs.", "quantifier": "all fronts (any number of points, objectives, solutions and variables, any integer costs), with and without printed solutions; all instances, arguments and correct solvers for the last part", "why_tests_cant": "ranges over all fronts and integers; that the format is unambiguous is a statement about pairs of fronts", "anchors": ["src/cli.rs: print_pareto_front, print_non_dom, VecPrinter, start_block, end_block", "src/main.rs: post_solve"]}
{"id": "C87", "title": "Solving after harmless inprocessing is correct", "statement": "When core boosting with inprocessing returns normally, MaxPre has kept the clauses, added only implied clauses over the same variables and returned the soft clauses in some order, and core boosting left soft clauses for every objective, then the solver still solves the user's instance: if inprocessing answers that there is no solution, there is none; otherwise the bounds it keeps are the least values of the objectives, a later call of solve that returns normally leaves exactly the Pareto front of the instance as the user gave it with solutions of these costs (all of them if enumeration is on), a call that is stopped leaves only correct points and stops only for a documented reason, and an undisturbed call returns (for BiOptSat: if no objective has the same non-zero cost in all solutions). Inprocessing itself stops early only for documented reasons (except on infeasible instances with core minimization or trimming) and returns if undisturbed. It is refused, without changing anything, after solve has been called, and it never succeeds when the original clauses were not stored. An attached logger is told the sizes of the instance before and after. If the outputs of a totalizer that MaxPre left are not consecutive, inprocessing panics; otherwise the new encoding starts at the first one left and keeps the weight. (It does not always end at the last one left: if two or more outputs were removed at the end, all of them but the last are still counted.)", "quantifier": "all instances with distinct literals, all such MaxPre results, all correct solvers, cores, encodings and totalizer databases that keep their variables when reset, all options, limits, interrupts and logger failures", "why_tests_cant": "ranges over all instances, all cores the solver may return, all answers of MaxPre of this kind, and all points at which a run can be stopped", "anchors": ["core/src/algs/coreboosting.rs: inprocess", "core/src/algs/pminimal.rs: core_boost", "core/src/algs/lowerbounding.rs: core_boost", "core/src/algs/bioptsat.rs: core_boost"]}
{"id": "C88", "title": "A stopped run reports the beginning of the full run, and a logger changes nothing", "statement": "Run a solver twice from the same state, the second time with larger or no limits and without the interrupts, oracle failures and logger failures that hit the first. If the second run returns normally, what the first run reports is the beginning of what the second reports: the same Pareto points in the same order with the same solutions, where only the last point of the first run may have fewer of its solutions. If the first run returns normally, the second does too and ends in the same state with the same statistics. The same holds for histories that mix solving, core boosting and inprocessing. A logger that does not fail changes neither the outcome of a call nor the front, the statistics or any later call, wherever in a history of calls it is attached or detached. (If the less limited run is itself interrupted it can report less than the more limited one: an interrupt during enumeration drops the point that is being enumerated.)", "quantifier": "all instances, states, options, limits, oracles, encodings, interrupts and failures, and all histories of calls", "why_tests_cant": "ranges over all pairs of runs and every point at which the first can be stopped", "anchors": ["core/src/algs.rs: yield_solutions, check_termination, log_solution, log_candidate, log_oracle_call", "core/src/algs/pminimal.rs: alg_main", "core/src/algs/lowerbounding.rs: alg_main", "core/src/algs/bioptsat.rs: alg_main", "core/src/algs/coreboosting.rs: core_boost, inprocess"]}
{"id": "C89", "title": "Solution tightening changes neither what is reported nor whether the solver ends", "statement": "Solve with the feature that tightens solutions by flipping objective literals. Whatever flips the SAT solver grants (as long as they keep the clauses and the assumptions of the query), every reported point is optimal at any exit and after any history of calls, a finished first call has exactly the Pareto front (in order with BiOptSat; with all solutions when these are enumerated), later calls keep it (P-minimal, LowerBounding), an undisturbed call without limits finishes, and no call panics; all this also after any number of core boostings, completed or stopped. If no literal is in two objectives, and with BiOptSat always, every call does what a call without the feature does for some other correct SAT solver, with the same interrupts, limits and loggers: same result, front, statistics and state afterwards. With the option 'never', P-minimal and LowerBounding run exactly as without the feature; BiOptSat ignores the option. Weights are positive and the literals of an objective are distinct. With a literal in two objectives a logged candidate can have costs that no solution has; the reported points are right all the same.", "quantifier": "all instances, options, limits, oracles, grants of flips, encodings and histories of calls", "why_tests_cant": "which flips the SAT solver grants depends on its internals; the claim ranges over all of them at every query of every history", "anchors": ["core/src/algs.rs: get_solution_and_internal_costs, get_cost_with_heuristic_improvements", "core/src/options.rs: HeurImprWhen::wanted", "core/src/algs/pminimal.rs: alg_main, p_minimization", "core/src/algs/lowerbounding.rs: harvest", "core/src/algs/bioptsat.rs: bioptsat"]}
{"id": "C90", "title": "What the logger is told is true", "statement": "Attach and detach loggers and call solve in any order, with any limits, interrupts and failing loggers. Every candidate handed to a logger has the objective values of some solution of the instance. Every non-dominated point handed to a logger is in the reported front, with valid solutions of exactly its costs: no call ends after telling the logger of a point and without reporting it. Without enumeration every such point is Pareto-optimal. With a logger attached from the start and never detached, the points handed to it are exactly the reported front, in the same order and with the same solutions. All this also after any number of core boostings, completed or stopped (optimality there: P-minimal and LowerBounding).", "quantifier": "all instances, algorithms, options, positive limits, oracles, encodings, exits and histories of calls", "why_tests_cant": "must hold at every point at which a limit, an interrupt or a failing logger can end a call, for every behaviour of the SAT oracle", "anchors": ["core/src/algs.rs: log_candidate, log_non_dominated, yield_solutions, get_solution_and_internal_costs, linsu", "core/src/algs/pminimal.rs: alg_main, p_minimization", "core/src/algs/lowerbounding.rs: harvest", "core/src/algs/bioptsat.rs: bioptsat"]}
{"id": "C91", "title": "The statistics count what the logger is told", "statement": "With a logger attached, every call of solve and of core boosting, from whatever state and however it ends (limits, interrupts, oracle errors, a logger that fails), raises the counters of candidates, oracle calls, solutions and non-dominated points by exactly the numbers of these events handed to the logger. Over the whole life of a solver with a logger attached from the start and never detached, each counter is the number of events of its kind. Without a logger attached no event is handed over.", "quantifier": "all states, algorithms, instances, options, limits, oracles (correct or not), encodings, exits and histories of calls with core boosting and solving in any order", "why_tests_cant": "must hold at every point at which a call can be ended, for every behaviour of the SAT oracle and the logger", "anchors": ["core/src/algs.rs: log_candidate, log_oracle_call, log_solution, log_non_dominated, stats, attach_logger, detach_logger", "core/src/algs/coreboosting.rs, core/src/algs/coreguided.rs: solve_assumps with limits"]}
