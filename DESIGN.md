# Formal model of scuttle in Rocq: design

## 1. What is modelled

The code in `/repo` (crate `scuttle-core`, the `scuttle` binary and the
`cadical-veripb-tracer` crate) is modelled function by function as total Gallina
functions.  Each definition cites the file and lines it models.  Default features of
`scuttle-core` (`phasing`, `interrupt-oracle`, `limit-conflicts`) are modelled; the
non-default feature `check-non-dominance` is modelled separately (`MCheck.v`), as is the preprocessing of the feature `maxpre`
(`MMaxPre.v`), and so is its inprocessing (`MInpro.v`); `sol-tightening` is modelled as a function of its own (`MTight.v`, C84) and inside the algorithms (`MTightAlg.v`, C89), without its log event; `coarse-convergence` and `verbose-proofs` are not (`coarse-convergence` calls a method
`enforce_dominating_cert` that does not exist, and `sol-tightening` uses a field that only exists
with `maxpre`, so neither compiles on its own).  Debug assertions, `unwrap`, `expect`, index and
subtraction panics are modelled as an explicit panic outcome, so the model is that of a
*debug* build (the release build differs only where a theorem says so).

| layer | source | model file |
|---|---|---|
| literals, clauses, assignments (rustsat types) | external | `Base.v` |
| specification: feasibility, objective values, Pareto dominance | - | `Spec.v` |
| objectives, encodings, variable managers, fronts | `core/src/types.rs` | `MTypes.v` |
| self-check of the front | `core/src/types.rs` | `MCheck.v` |
| outcome type, limits, options, kernel | `core/src/{termination,options,lib}.rs`, `core/src/algs.rs` | `MKernel.v` |
| P-minimal | `core/src/algs/pminimal.rs` | `MPMinimal.v` |
| lower bounding | `core/src/algs/lowerbounding.rs` | `MLowerBounding.v` |
| BiOptSat | `core/src/algs/bioptsat.rs` | `MBiOptSat.v` |
| OLL / core boosting | `core/src/algs/{coreguided,coreboosting}.rs` | `MOll.v` |
| input translation, reindexing | `core/src/prepro.rs`, `src/main.rs` | `MPrepro.v` |
| inprocessing with MaxPre after core boosting | `core/src/algs/coreboosting.rs` | `MInpro.v` |
| solution tightening | `core/src/algs.rs`, `core/src/options.rs` | `MTight.v`, `MTightAlg.v` |
| printed Pareto front | `src/cli.rs` | `MPrint.v` |
| command line and terminal logger | `src/cli.rs` | `MCli.v` |
| pipeline of the binary | `src/main.rs` | `MMain.v`, `MExit.v` |
| early termination and the `?` operator | `core/src/termination.rs` | `MTerm.v` |
| BiOptSat without debug assertions | `core/src/algs/{bioptsat,../algs}.rs` | `MRelease.v` |
| proof tracer (solver callbacks) | `cadical-veripb-tracer/src/lib.rs` | `MTracer.v` |
| proof order, certified cut, reified bounds | `core/src/algs/proofs.rs` | `MProofs.v` |
| translation of the input with the proof | `core/src/prepro.rs`, `src/main.rs` | `MProofPre.v` |
| proof lines of P-minimal, linear search, BiOptSat | `core/src/algs/{pminimal,bioptsat,proofs}.rs` | `MProofAlg.v` |
| main loops of P-minimal and lower-bounding with the proof | `core/src/algs/{pminimal,lowerbounding}.rs` | `MProofRun.v` |
| main loop of BiOptSat with the proof | `core/src/algs/bioptsat.rs`, `core/src/algs.rs` (linear search) | `MProofBos.v` |
| proof lines of OLL / core boosting | `core/src/algs/coreguided.rs` | `MReform.v` |
| the proof checker (specification of an external program) | VeriPB / pigeons | `VeriPB.v` |

### Environment (explicit arguments, never axioms)

* **SAT oracle**: a function of the query (running number of the call, number of
  interrupt-flag reads so far, whether a conflict limit is set, clause set, assumptions).
  Because the running number is an argument, one function can behave differently at every
  call, so quantifying over it quantifies over every solver behaviour.  Assumed
  (`oracle_ok`): a *sat* answer is a total assignment satisfying clauses and assumptions;
  an *unsat* answer comes with a core, a subset of the negated assumptions implied by the
  clauses; *interrupted* is only answered if the interrupt flag is set or a conflict limit
  is set.  The oracle may also fail (`AErr`).
* **Interrupt flag**: a function from the running number of a read to its value (set by
  another thread at any time).
* **Logger**: a function from the running number of a logger call to success/failure.
* **Objective encodings** (rustsat totalizer / generalized totalizer): a record of
  operations `enc_impl` and a record of laws `enc_spec` (fresh variables only,
  conservative extension, enforced bound implies cost bound, cost bound implies
  assumptions in the canonical extension).  A concrete implementation satisfying the laws
  is given in `Inst.v`, as is a concrete oracle, so no theorem is vacuous.
* **Loops** take fuel; running out of fuel is an outcome of its own.  Total-correctness
  theorems state that there is a bound depending on the instance only such that for any
  larger fuel this outcome does not occur.

`usize` is `nat` (no wrap-around on addition; subtraction below zero is a panic), `isize`
is `Z` with the conversion panics of `externalize_internal_costs` modelled.

## 2. Proof method

A weakest-precondition calculus for the state-and-exit monad.  The semantic part of the
solver state (`prob`: clauses, variable manager, objectives, encodings) carries the central
invariant: with `A` the set of still allowed assignments of the encoded instance,
(soundness) every model of the solver's clauses is in `A`, and (completeness) every element
of `A` extends to a model of the clauses in which all objective encodings take their exact
values.  Encoding extensions are conservative-extension steps; blocking clauses shrink `A`
by exactly the weakly dominated / enumerated assignments.  Termination by counting
unblocked points of the finite cost grid, sums of costs, remaining projected solutions.

### Modelled and not modelled, per source file

| source | modelled | not modelled |
|---|---|---|
| `core/src/types.rs` | objectives, encodings, lower bounds, Pareto front, variable manager, reindexing helpers | `Display`, statistics accessors |
| `core/src/options.rs` | kernel options, limits, core-guided and core-boosting options with defaults, when to tighten solutions | `DivConAnchor`, `BuildEncodings`, `SubProblemSize` (used by code that is not compiled by default), `Display` |
| `core/src/termination.rs` | both result types, conversions, `Try`, `unwrap` | - |
| `core/src/lib.rs` | phases, solve/limits API, result of the public trait | re-exports, documentation |
| `core/src/algs.rs` | kernel construction, oracle calls, logging, limits, `yield_solutions`, `linsu`, cores (minimization, trimming, exhaustion), oracle reset | solver option setup, interrupter object identity |
| `core/src/algs/pminimal.rs` | all, with proof lines | `coarse-convergence` |
| `core/src/algs/lowerbounding.rs` | all; with proof logging its loop is in `MProofRun.v` (C73), and with enumeration its blocking panics (C50_temporary_block_refuted) | - |
| `core/src/algs/bioptsat.rs` | all, with proof lines | `coarse-convergence` |
| `core/src/algs/coreguided.rs` | OLL with weight-aware cores, hardening off as in the code, exhaustion; proof lines in `MReform.v` | `verbose-proofs` comments |
| `core/src/algs/coreboosting.rs` | 49-431 | `sol-tightening` in `inprocess` |
| `core/src/algs/proofs.rs` | order, reified bounds, cut, reifications, linear-search bounds, value map | writing of the text file, unit tests |
| `core/src/prepro.rs` | parsing result to instance, soft clauses, objectives, reindexing, format inference, `max_pre` | the parsers of rustsat, MaxPre itself |
| `src/main.rs`, `src/cli.rs` | pipeline, options, limits, logger with verbosity levels, routine messages | colours, ASCII art, statistics text |
| `cadical-veripb-tracer/src/lib.rs` | all callbacks as events | the C++ side, `Drop` |
| `proc/src/lib.rs` | - | proc macros (the code they generate is what is modelled) |

Two static observations about code that is not compiled by default: with
`coarse-convergence`, `pminimal.rs` calls `enforce_dominating_cert`, which does not exist;
with `sol-tightening`, `algs.rs` reads a field that only exists with `maxpre`.

## 3. Properties, how each is modelled and proved

* C01-C03, C11-C14, C37, C41 (P-minimal): invariant above over `alg_main`,
  `p_minimization`, `yield_solutions`; C01 by an invariant over histories of calls.
* C04-C06, C38: same invariant plus fence lemmas; completeness from the empty core.
* C07-C09, C36: invariant with cut on the second objective; `linsu` minimum lemma.
* C10: corollary of C02, C05, C08.
* C15, C17, C23, C28, C33, C39, C40, C42, C44, C56, C58, C60, C64 (false claims): explicit
  counterexample runs of the model (`..._refuted`, computed with `vm_compute`), with the
  exact part that does hold proved next to it.  C28 is an invariant proof of divergence for
  every fuel, in the debug and in the release build.
* C16, C18-C20, C29, C43, C52: invariants of the monadic programs that do not depend on
  the oracle, proved by structural induction over the programs.
* C21: `panic` is excluded by the exit postcondition of all triples.
* C22, C24, C25, C30, C34, C35, C46, C51, C53, C54, C59: direct inductive proofs about the
  modelled functions.
* C26, C27, C45: OLL invariant (objective = offset + reformulated literals) over the
  core-guided loop, the merge into the encodings and the algorithms afterwards.
* C31, C32: simulation between instances.
* C55: corollary of the exactness theorems for both enumeration modes.
* C57: composition of parsing, reindexing, solving and printing; also from the parsed
  command line.
* C61: the printed lines as a function of events and options; monotone in the verbosity.
* C47-C49, C63, C64: the checker of `VeriPB.v` (cutting planes, unit propagation,
  redundance with an order, logged solutions, deletion) with its soundness theorem; the cut
  line by line.
* C50, C62: the tracer as a state machine over solver callbacks.
* C65: cutting-planes arithmetic, invariant over all runs of the proof side of OLL: the
  weighted sum of the constraints in use equals objective minus offset minus the remaining
  literals.
* C66: the lines of `certify_assump_reification`; accepted, faithful and conservative.
* C67: the lines of `linsu_certify_lower_bound`; accepted, and the bound is in the proof.
* C68: the lines of blocking a candidate in P-minimal: the cut of C49, the reifications of
  C66 and the clause; accepted, clause in the proof, conservative.
* C69: the lines of one iteration of BiOptSat, with the invariant that makes iterations
  chain.
* C70: induction over runs of events (`RunSpec.v`: solver lines, deletions, new outputs,
  blocked candidates) with the invariant that every solution not weakly dominated by a
  blocked candidate extends to the proof (`lasting`, `run_ok`).
* C71: the same for BiOptSat (`BosRunSpec.v`: also bounds of linear search and iterations);
  the invariant adds the clauses that one iteration leaves for the next (`bos_ok`).
* C72: core boosting as events before the runs of C70 and C71 (`BoostSpec.v`); the lines of
  `oll` (C65) are shown to be such events, the invariant of C70 is kept with the new lower
  bounds and reformulations.
* C73: the main loops of P-minimal and lower-bounding with proof logging as a transition system
  (`MProofRun.v`) over the runs of C70 and C72; invariant: the clauses handed to the solver exclude what
  the blocked candidates weakly dominate, and every blocked candidate is reported, or dominated by a
  later one, or still being improved. Assumed of the encodings at every point: the assumptions for a
  bound enforce it, and nothing in the proof contradicts them within the bound.
* C74: the main loop of BiOptSat with proof logging as a transition system over the states of
  C71/C72; invariant: the excluded solutions are the yielded ones, each with a smaller value of
  the increasing and a larger value of the decreasing objective than the next, and the current
  lower bound and barrier hold for every solution that is left
* C75: both fronts are the Pareto front without repetition; the number of changes of place is
  bounded by a potential over the place and the number of candidates, which have different
  cost vectors
* C76: the limits on points and solutions only fire after a point was stored (an instance of the
  invariant principle); at such stops every blocked vector is at or above a reported one, so the
  completeness argument of C02/C05 goes through over histories.  For BiOptSat every blocked
  vector was reported, at any stop.  The refutation is a computed history
* C77: `main` as a function of the outcome of the pipeline and of which writes succeed; the
  positive part from C57, the negative parts by computation
* C78: the constraints of the parsed problem as the first constraints of the checker, a certified
  encoder with a contract in place of rustsat's; the invariants of C73/C74 hold at the start of
  such a run, C48/C49 (translation without a proof) carry the front over to the problem as read
* C79: the closure is decided by induction over the two vectors with the sign seen so far; soundness
  of the front (C01, C04, C07) gives that replaying its pushes passes the check
* C80: every place where core boosting can stop keeps an invariant (`kept`): encodings still
  describe the objectives, their variables are below the next free one or the clauses of the
  merged totalizers are in the oracle; induction over the attempts, then the theorems of C27
* C81: invariant over all programs: reads of the flag are only counted up, and a call that ends
  interrupted has read the raised flag; then C19 for `solve`, a walk through core boosting, and
  induction over the later calls
* C82: the instance `max_pre` builds is the translation of a problem of its own (clauses as
  constraints), so C57 applies to it; the contract of MaxPre relates the Pareto fronts of that
  problem and of the problem read, and the reconstructed solutions
* C83: the databases left by core boosting satisfy the identity "cost = lower bound + reformulated
  objective" (C26); an invariant over the outputs defined for MaxPre keeps clauses, databases and
  the worth of the soft clauses in step.  Assumed of the totalizer database: `reset_enc_ok`
  (InproSpec.v)
* C84: loop invariant over the literals of an objective (the solution agrees with the solver's model
  on objective variables, the cost is the weight of the true literals so far, no objective literal
  became true), then induction over the objectives.  Assumed of the solver: `flip_ok` (TightSpec.v),
  which needs the objective variables to be frozen
* C85: the invariants of C76 (ResumeTop.v) from any start state; C80 gives that the state after the
  boosting calls is one (CbStop.v)
* C86: the text is a list of lines without line breaks; the reader is a left inverse line by line
  (decimal round trip of the standard library).  External: Rust's `Display` for integers (decimal,
  `-` for negative numbers), rustsat's `Display` for assignments (one of `1`, `0`, `_` per variable);
  colours off
* C87: the soft clauses are matched with the outputs of the totalizers they stand for (`InproSlots.v`);
  building the encodings from any permutation of them gives connections whose sum is the reformulated
  objective (`InproOk.v`), so that the state after inprocessing satisfies the invariant core boosting
  ends in (`InproOkTop.v`), and C27's argument applies.  External: MaxPre (contract `gentle`) and
  resetting the encoded outputs of a database (contracts `reset_enc_ok`, `reset_keeps`).  What is
  logged and which outputs are kept: `InproLog.v`, `PropInproLog.v`
* C88: a relation between two runs (`SyncThm.v`): as long as the first goes on, both are in the same
  state apart from logger, trace and limits; when it stops, its front is the beginning of every front
  the second can still end with.  Proved for every kernel function, the three algorithms (debug
  build), core boosting and inprocessing (`SyncOll.v`), and lifted to histories of calls
* C89: the algorithms with tightening (`MTightAlg.v`) are refined to the ones without: for each run an
  oracle is built that answers every query with the tightened model (`TightSim.v`; calls are numbered,
  so the oracle can answer each differently).  The earlier theorems then carry over.  Needs what
  tightening returns to be the costs of the final model, hence no literal in two objectives (`C89_refines`).
  The theorems on the results need no such restriction (`C89_shared_*`, `PropTightShared.v`): for
  P-minimal and LowerBounding the invariants of the loops are proved anew for costs that are only
  componentwise attained (`att`, `TightStale.v`); minimization ends only if nothing dominates them, and
  then they are the costs of the last model, so everything above minimization is as before
  (`TightStaleTop.v`, `TightStaleApi.v`).
  Core boosting only changes lower bounds of objectives, so the same refinement serves after it
* C90: `LogStruct.v` is the walk over all programs of `Struct.v` with one more obligation: candidates are
  logged only with the costs of a solution of the oracle.  `LogTrue.v` adds the events to the invariant of
  `FeasInv.v`: logging a point cannot panic (positive limits), so the point is always added to the front.  `LogBoost.v`: core boosting logs
  neither candidates nor points and leaves the oracle with clauses that imply the instance
* C91: the counters relative to a base state equal the events on top of its trace (`LogCount.v`), kept by all
  primitives, also across failing loggers; lifted with `LogStruct.v` and a walk over core boosting

Rule for the statements: specifications (`Spec.v`, `ApiSpec.v`, `PreSpec.v`, `LogSpec.v`,
`CliSpec.v`, `CbSpec.v`, `ReformSpec.v`, `ReifSpec.v`, `BlockSpec.v`, `BosSpec.v`,
`RunSpec.v`, `BosRunSpec.v`, `BoostSpec.v`, `PreProofSpec.v`, `MaxPreSpec.v`, `InproSpec.v`) do not
mention the solver state of the model where the English property does not.

## 4. Trusted base

* The Coq 8.16.1 kernel (and `coqchk`, which rechecks the compiled files), including
  `vm_compute`, used for the witnesses of the refutations and for examples.
* Axioms: none.  `Print Assumptions` answers "Closed under the global context" for every
  theorem named in `MANIFEST.json`, see section 5.  `coqchk` also lists seven constants of
  `Coq.ssr.ssrunder` (a sealed module of the standard library that is loaded with it); no
  theorem depends on them.
* The faithfulness of the model (cited line by line, simplifications in the comments).
* The assumed behaviour of programs that are not part of the repository.  Each is a
  hypothesis of the theorems that need it, and has an instance:
  * SAT solver: `oracle_ok`, for core boosting also that a core has no repeated literal
    (`core_nodup`); clauses of callbacks are duplicate free and not tautological, resolution
    chains are exact (`ev_ok` in `TracerThm.v`; C62 refutes both being superfluous).
  * objective encodings: `enc_spec`, with core boosting `tot_spec` (totalizers that can be
    merged, including that building up to the next output defines it: `tb_define_next`, and
    the kind of encoding chosen: `tb_int_kind`); instances in `Inst.v`, `TotInst.v`.
  * encodings in the proof: totalizer definitions `if_def`/`only_if_def`
    (`ReformSpec.v`) and the weighted `wif`/`wonly` (`ReifSpec.v`), outputs in increasing
    order of values, buffered inputs as in `buf_from`.
  * the pseudo-Boolean encoder for soft constraints: `pb_enc_ok`; with a proof `cert_post` and
    `cert_enc_strict` (`PreProofSpec.v`): its proof lines are accepted, its clauses are in the proof,
    and what it adds to the proof follows from the clauses.  The last part is an assumption about
    rustsat that the sources at hand do not settle; instance `cert_brute` in `PreProofInst.v`.
  * MaxPre: `mp_ok` (`MaxPreSpec.v`); resetting the encoded clauses of a totalizer database:
    `reset_enc_ok` (`InproSpec.v`); instances in `PropMaxPre.v` and `PropInpro.v`.
  * flips of the SAT solver for solution tightening: `flip_ok` (`TightSpec.v`), with the algorithms
    `flipper_ok` (`TightAlgSpec.v`): a granted flip keeps the clauses and the assumptions of the query
    and no other objective variable changes; instances `plain_flip_ok`, `ex_flip_ok`.
  * VeriPB: `VeriPB.v`: a line with hints is checked with the hinted constraints only; a
    sub-proof has to end in a contradictory constraint; the numbering of proof goals; ids are
    given in the order of the lines; deletion of core constraints is checked.
  * `Path` functions of the standard library for the file-format inference; the order in
    which an assignment is built from literals.
* Restrictions stated as hypotheses: pairwise distinct literals in an objective for core
  boosting (`lits_distinct`; C23 shows what goes wrong otherwise), weights and costs
  within `isize` where conversions would panic (C22).

## 5. Status

All properties in `properties.jsonl` are proved (some as refutations of what the user would
expect, named `..._refuted`); `MANIFEST.json` has the theorem names.  `Print Assumptions`
stands beneath each theorem in the `Prop*.v` files.  Collected output for all theorems of the
manifest (regenerated from the compiled files):

| property | theorems | Print Assumptions |
|---|---|---|
| C01 | `C01_pminimal_sound` | Closed under the global context |
| C02 | `C02_pminimal_complete` | Closed under the global context |
| C03 | `C03_pminimal_terminates` | Closed under the global context |
| C04 | `C04_lowerbounding_sound` | Closed under the global context |
| C05 | `C05_lowerbounding_complete` | Closed under the global context |
| C06 | `C06_lowerbounding_terminates` | Closed under the global context |
| C07 | `C07_bioptsat_sound`, `C07_bioptsat_sound_history` | Closed under the global context |
| C08 | `C08_bioptsat_complete` | Closed under the global context |
| C09 | `C09_bioptsat_terminates` | Closed under the global context |
| C10 | `C10_algorithms_agree` | Closed under the global context |
| C11 | `C11_solutions_feasible` | Closed under the global context |
| C12 | `C12_enumeration_exact` | Closed under the global context |
| C13 | `C13_enumeration_limit`, `C13_enumeration_count` | Closed under the global context |
| C14 | `C14_pmcs_enumeration` | Closed under the global context |
| C15 | `C15_pmcs_relaxation_refuted` | Closed under the global context |
| C16 | `C16_limits_respected` | Closed under the global context |
| C17 | `C17_zero_limit_refuted`, `C17_cli_limits`, `C17_cli_values` | Closed under the global context |
| C18 | `C18_statistics_match`, `C18_statistics_enumeration`, `C18_instance_numbers` | Closed under the global context |
| C19 | `C19_interrupt_stops` | Closed under the global context |
| C20 | `C20_front_grows` | Closed under the global context |
| C21 | `C21_new_succeeds`, `C21_no_panic_first`, `C21_no_panic_history` | Closed under the global context |
| C22 | `C22_reported_costs`, `C22_range` | Closed under the global context |
| C23 | `C23_duplicate_literals_refuted`, `C23_distinct_or_unit`, `C22_reported_costs` | Closed under the global context |
| C24 | `C24_default_blocking_clause` | Closed under the global context |
| C25 | `C25_pmcs_blocking_clause` | Closed under the global context |
| C26 | `C26_false_infeasible`, `C26_true_ideal`, `C26_decides`, `C26_exits`, `C26_finishes`, `C26_decides_needs_objective_refuted` | Closed under the global context |
| C27 | `C27_exact`, `C27_sound`, `C27_terminates`, `C27_enumerates_all`, `C27_histories` | Closed under the global context |
| C28 | `C28_never_finishes`, `C28_boosting_keeps_termination_refuted` | Closed under the global context |
| C29 | `C29_rejected_after_solve` | Closed under the global context |
| C30 | `C30_reset`, `C30_rejected` | Closed under the global context |
| C31 | `C31_soft_clauses`, `C31_shared_literals`, `C31_no_panic` | Closed under the global context |
| C32 | `C32_reindexing`, `C32_scaled_costs` | Closed under the global context |
| C33 | `C33_reindexing_refuted` | Closed under the global context |
| C34 | `C34_reverse_solution` | Closed under the global context |
| C35 | `C35_fresh`, `C35_increase_flag`, `C35_marks_nested` | Closed under the global context |
| C36 | `C36_linear_search_minimum` | Closed under the global context |
| C37 | `C37_cut_exact` | Closed under the global context |
| C38 | `C38_fence_rises` | Closed under the global context |
| C39 | `C39_resume_loses_points_refuted` | Closed under the global context |
| C40 | `C40_resume_dominated_refuted` | Closed under the global context |
| C41 | `C41_solve_again` | Closed under the global context |
| C42 | `C42_bioptsat_again_refuted` | Closed under the global context |
| C43 | `C43_routines_nested`, `C43_routines_closed`, `C43_new_trace`, `C43_all_histories`, `C43_boost_closed`, `C43_terminal`, `C43_terminal_panics` | Closed under the global context |
| C44 | `C44_bioptsat_open_routine_refuted` | Closed under the global context |
| C45 | `C45_reformulation` | Closed under the global context |
| C46 | `C46_constraint_ids` | Closed under the global context |
| C47 | `C47_order_is_weak_dominance` | Closed under the global context |
| C48 | `C48_bound_literal`, `C48_bound_definitions_accepted`, `C48_bound_reused` | Closed under the global context |
| C49 | `C49_cut_is_mapping_and_exclusion`, `C49_cut_accepted` | Closed under the global context |
| C50 | `C50_ids_stay_aligned`, `C50_instance_loaded`, `C50_core_id`, `C50_conclusion`, `C50_plain_clause_fails`, `C50_enumeration_with_proof_refuted`, `C50_temporary_block_refuted` | Closed under the global context |
| C51 | `C51_infer_format`, `C51_explicit_format` | Closed under the global context |
| C52 | `C52_first_stop`, `C52_rest_not_run`, `C52_maybe_terminated`, `C52_unwrap` | Closed under the global context |
| C53 | `C53_convert_front` | Closed under the global context |
| C54 | `C54_structure`, `C54_symmetric`, `C54_one_routine` | Closed under the global context |
| C55 | `C55_enumeration_same_front` | Closed under the global context |
| C56 | `C56_zero_weights_refuted` | Closed under the global context |
| C57 | `C57_pipeline`, `C57_pipeline_finishes`, `C57_command_line`, `C57_command_line_finishes`, `C57_instance_stored` | Closed under the global context |
| C58 | `C58_duplicates_refuted` | Closed under the global context |
| C59 | `C59_reindexing_panics` | Closed under the global context |
| C60 | `C60_forget_refuted`, `C60_new_var_refuted`, `C60_reverse`, `C60_forget_keeps`, `C60_new_var_fresh` | Closed under the global context |
| C61 | `C61_verbosity`, `C61_levels`, `C61_no_fence` | Closed under the global context |
| C62 | `C62_learned_clause_derived`, `C62_superfluous_antecedent_refuted`, `C62_repeated_literal_refuted` | Closed under the global context |
| C63 | `C63_accepted_proof_covers`, `C63_accepted_proof_complete` | Closed under the global context |
| C64 | `C64_cut_at_lower_bound_refuted` | Closed under the global context |
| C65 | `C65_reformulation_derived`, `C65_reformulation_usable`, `C65_definition`, `C65_exhaustion_line_trivial`, `C65_exhaustion_refuted` | Closed under the global context |
| C66 | `C66_reified_bound`, `C66_reified_bound_buffered` | Closed under the global context |
| C67 | `C67_lower_bound`, `C67_lower_bound_buffered`, `C67_output_order_refuted` | Closed under the global context |
| C68 | `C68_candidate_blocked`, `C68_single_buffered_refuted` | Closed under the global context |
| C69 | `C69_iteration`, `C69_iteration_buffered`, `C69_unconditional_bound`, `C69_conclusion`, `C69_cut`, `C69_constant_refuted`, `C69_increasing_buffered_refuted`, `C69_drained_refuted` | Closed under the global context |
| C70 | `C70_run_accepted`, `C70_run_keeps`, `C70_next_candidate`, `C70_solution_new`, `C70_run_complete` | Closed under the global context |
| C71 | `C71_run_accepted`, `C71_run_keeps`, `C71_next_iteration`, `C71_finish`, `C71_solution_new`, `C71_run_complete`, `C71_maximum_refuted` | Closed under the global context |
| C72 | `C72_oll`, `C72_accepted`, `C72_keeps`, `C72_next_candidate`, `C72_solution_new`, `C72_complete`, `C72_bos_accepted`, `C72_bos_complete` | Closed under the global context |
| C73 | `C73_front`, `C73_finished`, `C73_candidates`, `C73_block`, `C73_yield` | Closed under the global context |
| C74 | `C74_front`, `C74_finished`, `C74_improves`, `C74_yield`, `C74_iterate`, `C74_last` | Closed under the global context |
| C75 | `C75_same_front`, `C75_same_front_bioptsat`, `C75_turns`, `C75_turns_bioptsat` | Closed under the global context |
| C76 | `C76_resume_complete`, `C76_resume_finishes`, `C76_batches`, `C76_bioptsat_resume_complete`, `C76_bioptsat_batches_refuted` | Closed under the global context |
| C77 | `C77_status`, `C77_always_zero`, `C77_error_refuted`, `C77_write_refuted`, `C77_stopped_refuted` | Closed under the global context |
| C78 | `C78_same_instance`, `C78_translation`, `C78_reindexing`, `C78_front`, `C78_finished`, `C78_bioptsat_front`, `C78_bioptsat_finished`, `C78_certified`, `C78_loose_refuted` | Closed under the global context |
| C79 | `C79_check`, `C79_extend`, `C79_histories`, `C79_first_call`, `C79_bioptsat_again_refuted`, `C79_resume_refuted`, `C79_one_call_refuted` | Closed under the global context |
| C80 | `C80_exact`, `C80_sound`, `C80_terminates`, `C80_enumerates_all`, `C80_histories`, `C80_exits`, `C80_boost_again`, `C80_boost_again_finishes`, `C80_reserved_reset_refuted`, `C80_reset_after_plain_refuted` | Closed under the global context |
| C81 | `C81_front_final`, `C81_solve_stops`, `C81_boost_stops` | Closed under the global context |
| C82 | `C82_correct`, `C82_finishes`, `C82_encoding_fails`, `C82_same_as_without`, `C82_uncovered_refuted` | Closed under the global context |
| C83 | `C83_handed`, `C83_optimal`, `C83_reconstructed`, `C83_not_reconstructed_refuted`, `C83_no_softs_refuted` | Closed under the global context |
| C84 | `C84_improves`, `C84_optimal_exact`, `C84_stale_refuted` | Closed under the global context |
| C85 | `C85_complete`, `C85_finishes`, `C85_batches`, `C85_bioptsat` | Closed under the global context |
| C86 | `C86_read_back`, `C86_unambiguous`, `C86_command_line` | Closed under the global context |
| C87 | `C87_infeasible`, `C87_ideal`, `C87_exact`, `C87_sound`, `C87_terminates`, `C87_enumerates_all`, `C87_histories`, `C87_exits`, `C87_finishes`, `C87_rejected_after_solve`, `C87_needs_clauses`, `C87_logged`, `C87_gap_panics`, `C87_kept_outputs`, `C87_removed_outputs_counted_refuted` | Closed under the global context |
| C88 | `C88_stopped_begins`, `C88_costs_begin`, `C88_finished_same`, `C88_logger`, `C88_histories`, `C88_calls_begin`, `C88_calls_finished`, `C88_calls_logger`, `C88_interrupt_drops_point_refuted` | Closed under the global context |
| C89 | `C89_refines`, `C89_histories`, `C89_sound`, `C89_complete`, `C89_bioptsat_order`, `C89_sound_history`, `C89_no_panic`, `C89_terminates`, `C89_never`, `C89_outer_loop`, `C89_never_bioptsat_refuted`, `C89_candidate_refuted`, `C89_boosted_refines`, `C89_boosted_first`, `C89_boosted_terminates`, `C89_boosted_histories`, `C89_shared_sound`, `C89_shared_complete`, `C89_shared_enumeration`, `C89_shared_history`, `C89_shared_again`, `C89_shared_no_panic`, `C89_shared_terminates`, `C89_shared_boosted_first`, `C89_shared_boosted_terminates`, `C89_shared_boosted_histories` | Closed under the global context |
| C90 | `C90_candidates`, `C90_points`, `C90_points_optimal`, `C90_all_points`, `C90_boosted`, `C90_boosted_optimal`, `C90_boosted_all_points` | Closed under the global context |
| C91 | `C91_solve`, `C91_boost`, `C91_detached`, `C91_history` | Closed under the global context |

Every proof file was attacked with mutated models; `seeded/LOG.jsonl` has one line per mutant.
