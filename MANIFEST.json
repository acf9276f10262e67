{
 "claims": [
  {
   "property": "C01",
   "status": "proved",
   "theorems": [
    "C01_pminimal_sound"
   ],
   "note": "All histories of solve/attach/detach, all environments, enumeration off."
  },
  {
   "property": "C02",
   "status": "proved",
   "theorems": [
    "C02_pminimal_complete"
   ],
   "note": ""
  },
  {
   "property": "C03",
   "status": "proved",
   "theorems": [
    "C03_pminimal_terminates"
   ],
   "note": "iter_bound depends on the instance only."
  },
  {
   "property": "C04",
   "status": "proved",
   "theorems": [
    "C04_lowerbounding_sound"
   ],
   "note": ""
  },
  {
   "property": "C05",
   "status": "proved",
   "theorems": [
    "C05_lowerbounding_complete"
   ],
   "note": ""
  },
  {
   "property": "C06",
   "status": "proved",
   "theorems": [
    "C06_lowerbounding_terminates"
   ],
   "note": ""
  },
  {
   "property": "C07",
   "status": "proved",
   "theorems": [
    "C07_bioptsat_sound",
    "C07_bioptsat_sound_history"
   ],
   "note": ""
  },
  {
   "property": "C08",
   "status": "proved",
   "theorems": [
    "C08_bioptsat_complete"
   ],
   "note": ""
  },
  {
   "property": "C09",
   "status": "proved",
   "theorems": [
    "C09_bioptsat_terminates"
   ],
   "note": ""
  },
  {
   "property": "C10",
   "status": "proved",
   "theorems": [
    "C10_algorithms_agree"
   ],
   "note": ""
  },
  {
   "property": "C11",
   "status": "proved",
   "theorems": [
    "C11_solutions_feasible"
   ],
   "note": ""
  },
  {
   "property": "C12",
   "status": "proved",
   "theorems": [
    "C12_enumeration_exact"
   ],
   "note": ""
  },
  {
   "property": "C13",
   "status": "proved",
   "theorems": [
    "C13_enumeration_limit",
    "C13_enumeration_count"
   ],
   "note": ""
  },
  {
   "property": "C14",
   "status": "proved",
   "theorems": [
    "C14_pmcs_enumeration"
   ],
   "note": ""
  },
  {
   "property": "C15",
   "status": "proved",
   "theorems": [
    "C15_pmcs_relaxation_refuted"
   ],
   "note": "Negative result: explicit run of the model."
  },
  {
   "property": "C16",
   "status": "proved",
   "theorems": [
    "C16_limits_respected"
   ],
   "note": ""
  },
  {
   "property": "C17",
   "status": "proved",
   "theorems": [
    "C17_zero_limit_refuted",
    "C17_cli_limits",
    "C17_cli_values"
   ],
   "note": "Negative result for the API: explicit runs for every limit and algorithm. Positive for the command line."
  },
  {
   "property": "C18",
   "status": "proved",
   "theorems": [
    "C18_statistics_match",
    "C18_statistics_enumeration",
    "C18_instance_numbers"
   ],
   "note": ""
  },
  {
   "property": "C19",
   "status": "proved",
   "theorems": [
    "C19_interrupt_stops"
   ],
   "note": "That a flag raised during a run never corrupts the front is part of C01, C04, C07, C11, which quantify over all environments."
  },
  {
   "property": "C20",
   "status": "proved",
   "theorems": [
    "C20_front_grows"
   ],
   "note": ""
  },
  {
   "property": "C21",
   "status": "proved",
   "theorems": [
    "C21_new_succeeds",
    "C21_no_panic_first",
    "C21_no_panic_history"
   ],
   "note": ""
  },
  {
   "property": "C22",
   "status": "proved",
   "theorems": [
    "C22_reported_costs",
    "C22_range"
   ],
   "note": ""
  },
  {
   "property": "C23",
   "status": "proved",
   "theorems": [
    "C23_duplicate_literals_refuted",
    "C23_distinct_or_unit",
    "C22_reported_costs"
   ],
   "note": "Negative result plus the part that holds."
  },
  {
   "property": "C24",
   "status": "proved",
   "theorems": [
    "C24_default_blocking_clause"
   ],
   "note": ""
  },
  {
   "property": "C25",
   "status": "proved",
   "theorems": [
    "C25_pmcs_blocking_clause"
   ],
   "note": ""
  },
  {
   "property": "C26",
   "status": "proved",
   "theorems": [
    "C26_false_infeasible",
    "C26_true_ideal",
    "C26_decides",
    "C26_exits",
    "C26_finishes",
    "C26_decides_needs_objective_refuted"
   ],
   "note": "For objectives whose literals are pairwise distinct (hypothesis lits_distinct). The 'iff' needs at least one objective with literals: without one, core boosting never asks the oracle and answers true (C26_decides_needs_objective_refuted)."
  },
  {
   "property": "C27",
   "status": "proved",
   "theorems": [
    "C27_exact",
    "C27_sound",
    "C27_terminates",
    "C27_enumerates_all",
    "C27_histories"
   ],
   "note": ""
  },
  {
   "property": "C28",
   "status": "proved",
   "theorems": [
    "C28_never_finishes",
    "C28_boosting_keeps_termination_refuted"
   ],
   "note": "Negative result."
  },
  {
   "property": "C29",
   "status": "proved",
   "theorems": [
    "C29_rejected_after_solve"
   ],
   "note": ""
  },
  {
   "property": "C30",
   "status": "proved",
   "theorems": [
    "C30_reset",
    "C30_rejected"
   ],
   "note": ""
  },
  {
   "property": "C31",
   "status": "proved",
   "theorems": [
    "C31_soft_clauses",
    "C31_shared_literals",
    "C31_no_panic"
   ],
   "note": "Assumes pb_enc_ok of the external PB encoder."
  },
  {
   "property": "C32",
   "status": "proved",
   "theorems": [
    "C32_reindexing",
    "C32_scaled_costs"
   ],
   "note": ""
  },
  {
   "property": "C33",
   "status": "proved",
   "theorems": [
    "C33_reindexing_refuted"
   ],
   "note": "Negative result; C32_scaled_costs gives the exact scaling."
  },
  {
   "property": "C34",
   "status": "proved",
   "theorems": [
    "C34_reverse_solution"
   ],
   "note": ""
  },
  {
   "property": "C35",
   "status": "proved",
   "theorems": [
    "C35_fresh",
    "C35_increase_flag",
    "C35_marks_nested"
   ],
   "note": ""
  },
  {
   "property": "C36",
   "status": "proved",
   "theorems": [
    "C36_linear_search_minimum"
   ],
   "note": ""
  },
  {
   "property": "C37",
   "status": "proved",
   "theorems": [
    "C37_cut_exact"
   ],
   "note": ""
  },
  {
   "property": "C38",
   "status": "proved",
   "theorems": [
    "C38_fence_rises"
   ],
   "note": ""
  },
  {
   "property": "C39",
   "status": "proved",
   "theorems": [
    "C39_resume_loses_points_refuted"
   ],
   "note": "Negative result."
  },
  {
   "property": "C40",
   "status": "proved",
   "theorems": [
    "C40_resume_dominated_refuted"
   ],
   "note": "Negative result."
  },
  {
   "property": "C41",
   "status": "proved",
   "theorems": [
    "C41_solve_again"
   ],
   "note": ""
  },
  {
   "property": "C42",
   "status": "proved",
   "theorems": [
    "C42_bioptsat_again_refuted"
   ],
   "note": "Negative result."
  },
  {
   "property": "C43",
   "status": "proved",
   "theorems": [
    "C43_routines_nested",
    "C43_routines_closed",
    "C43_new_trace",
    "C43_all_histories",
    "C43_boost_closed",
    "C43_terminal",
    "C43_terminal_panics"
   ],
   "note": ""
  },
  {
   "property": "C44",
   "status": "proved",
   "theorems": [
    "C44_bioptsat_open_routine_refuted"
   ],
   "note": "Negative result."
  },
  {
   "property": "C45",
   "status": "proved",
   "theorems": [
    "C45_reformulation"
   ],
   "note": "Stated for a call of the core-guided loop on a new or core-boosted solver."
  },
  {
   "property": "C46",
   "status": "proved",
   "theorems": [
    "C46_constraint_ids"
   ],
   "note": ""
  },
  {
   "property": "C47",
   "status": "proved",
   "theorems": [
    "C47_order_is_weak_dominance"
   ],
   "note": ""
  },
  {
   "property": "C48",
   "status": "proved",
   "theorems": [
    "C48_bound_literal",
    "C48_bound_definitions_accepted",
    "C48_bound_reused"
   ],
   "note": ""
  },
  {
   "property": "C49",
   "status": "proved",
   "theorems": [
    "C49_cut_is_mapping_and_exclusion",
    "C49_cut_accepted"
   ],
   "note": "For a cost equal to the lower bound from core boosting the unit weight has to be one; see C64."
  },
  {
   "property": "C50",
   "status": "proved",
   "theorems": [
    "C50_ids_stay_aligned",
    "C50_instance_loaded",
    "C50_core_id",
    "C50_conclusion",
    "C50_plain_clause_fails",
    "C50_enumeration_with_proof_refuted",
    "C50_temporary_block_refuted"
   ],
   "note": "The callbacks of CaDiCaL are events constrained by ev_ok (TracerThm.v). The last two theorems are negative results: the blocking clauses of the enumeration and, with enumeration, the temporary blocking clauses of the candidates bypass the certifying collector."
  },
  {
   "property": "C51",
   "status": "proved",
   "theorems": [
    "C51_infer_format",
    "C51_explicit_format"
   ],
   "note": ""
  },
  {
   "property": "C52",
   "status": "proved",
   "theorems": [
    "C52_first_stop",
    "C52_rest_not_run",
    "C52_maybe_terminated",
    "C52_unwrap"
   ],
   "note": ""
  },
  {
   "property": "C53",
   "status": "proved",
   "theorems": [
    "C53_convert_front"
   ],
   "note": ""
  },
  {
   "property": "C54",
   "status": "proved",
   "theorems": [
    "C54_structure",
    "C54_symmetric",
    "C54_one_routine"
   ],
   "note": ""
  },
  {
   "property": "C55",
   "status": "proved",
   "theorems": [
    "C55_enumeration_same_front"
   ],
   "note": ""
  },
  {
   "property": "C56",
   "status": "proved",
   "theorems": [
    "C56_zero_weights_refuted"
   ],
   "note": "Negative result."
  },
  {
   "property": "C57",
   "status": "proved",
   "theorems": [
    "C57_pipeline",
    "C57_pipeline_finishes",
    "C57_command_line",
    "C57_command_line_finishes",
    "C57_instance_stored"
   ],
   "note": ""
  },
  {
   "property": "C58",
   "status": "proved",
   "theorems": [
    "C58_duplicates_refuted"
   ],
   "note": "Negative result."
  },
  {
   "property": "C59",
   "status": "proved",
   "theorems": [
    "C59_reindexing_panics"
   ],
   "note": ""
  },
  {
   "property": "C60",
   "status": "proved",
   "theorems": [
    "C60_forget_refuted",
    "C60_new_var_refuted",
    "C60_reverse",
    "C60_forget_keeps",
    "C60_new_var_fresh"
   ],
   "note": "Two negative results, with the positive statement for reindexers that only reindex and what forgetting and new variables do keep."
  },
  {
   "property": "C61",
   "status": "proved",
   "theorems": [
    "C61_verbosity",
    "C61_levels",
    "C61_no_fence"
   ],
   "note": ""
  },
  {
   "property": "C62",
   "status": "proved",
   "theorems": [
    "C62_learned_clause_derived",
    "C62_superfluous_antecedent_refuted",
    "C62_repeated_literal_refuted"
   ],
   "note": "The two refutations show that both hypotheses are needed."
  },
  {
   "property": "C63",
   "status": "proved",
   "theorems": [
    "C63_accepted_proof_covers",
    "C63_accepted_proof_complete"
   ],
   "note": ""
  },
  {
   "property": "C64",
   "status": "proved",
   "theorems": [
    "C64_cut_at_lower_bound_refuted"
   ],
   "note": "Negative result."
  },
  {
   "property": "C65",
   "status": "proved",
   "theorems": [
    "C65_reformulation_derived",
    "C65_reformulation_usable",
    "C65_definition",
    "C65_exhaustion_line_trivial",
    "C65_exhaustion_refuted"
   ],
   "note": "Invariant over all runs of the proof side of OLL: the weighted sum of the constraints in use equals objective minus offset minus remaining literals; cutting-plane arithmetic of the totalizer reformulation for any core size. C65_exhaustion_refuted: exhaust_core adds if_def instead of only_if_def (coreguided.rs 605-617), so with core exhaustion the derived constraint is satisfied by every assignment (finding). Definitions of totalizer outputs, cores and unit cores are hypotheses (rustsat, SAT solver)."
  },
  {
   "property": "C66",
   "status": "proved",
   "theorems": [
    "C66_reified_bound",
    "C66_reified_bound_buffered"
   ],
   "note": "certify_assump_reification (proofs.rs 429-560) line by line; the definitions of encoding outputs are hypotheses (ReifSpec.v). Examples ra_reif, rb_reif meet the hypotheses."
  },
  {
   "property": "C67",
   "status": "proved",
   "theorems": [
    "C67_lower_bound",
    "C67_lower_bound_buffered",
    "C67_output_order_refuted"
   ],
   "note": "linsu_certify_lower_bound (proofs.rs 562-716). C67_output_order_refuted: with buffered inputs and output variables out of order an output is taken for an input and the written line is rejected (finding). Examples ra_linsu, rb_linsu."
  },
  {
   "property": "C68",
   "status": "proved",
   "theorems": [
    "C68_candidate_blocked",
    "C68_single_buffered_refuted"
   ],
   "note": "pminimal.rs 447-481 and 608-655 with certify_pmin_cut and certify_assump_reification. The state before (record ready, BlockSpec.v) is what C49/C66 leave; encodings are hypotheses. C68_single_buffered_refuted: one assumption that is a buffered input makes the blocking clause disagree with the cut, and the line is rejected (finding). Example ka_blocked."
  },
  {
   "property": "C69",
   "status": "proved",
   "theorems": [
    "C69_iteration",
    "C69_iteration_buffered",
    "C69_unconditional_bound",
    "C69_conclusion",
    "C69_cut",
    "C69_constant_refuted",
    "C69_increasing_buffered_refuted",
    "C69_drained_refuted"
   ],
   "note": "bioptsat.rs 431-764 with proof logging (bos_step, bos_cut in MProofAlg.v); the bound of the next iteration is part of the conclusion, so iterations chain (example ba_run: two iterations and the conclusion). Definitions of outputs and the bounds of linear search are hypotheses (C67). The three _refuted theorems are findings: types.rs 605 panics for a constant objective; bioptsat.rs 566-619 uses the wrong objective for a buffered increasing objective; extend_encoding at line 420 drains the buffer after linear search returned a bound on the proof-only literal. Examples bu_run, bf_run, bg_cut."
  },
  {
   "property": "C70",
   "status": "proved",
   "theorems": [
    "C70_run_accepted",
    "C70_run_keeps",
    "C70_next_candidate",
    "C70_solution_new",
    "C70_run_complete"
   ],
   "note": "Invariant (run_ok, RunSpec.v) over runs of events; blocking is block_candidate (pminimal.rs 447-481). Lines of the solver and the encodings are events with the conditions the checker or the encoding guarantees. Example rn_runs: a full run with two candidates up to the contradiction; C70_example, C70_solution_example."
  },
  {
   "property": "C71",
   "status": "proved",
   "theorems": [
    "C71_run_accepted",
    "C71_run_keeps",
    "C71_next_iteration",
    "C71_finish",
    "C71_solution_new",
    "C71_run_complete",
    "C71_maximum_refuted"
   ],
   "note": "Invariant (bos_ok, BosRunSpec.v) over runs of events; iterations are certify_pmin_cut followed by bos_step or bos_cut (bioptsat.rs 437-764), bounds are linsu_certify (proofs.rs 562). Both objectives have several literals and outputs (C69_constant_refuted shows why). Example bx_run: a full run with two solutions up to the conclusion; C71_example, C71_solution_example. C71_maximum_refuted: a reachable state in which the iteration panics because the increasing objective is at its maximum, where the encoding has no output above the cost (assumed of rustsat: output_proof_details fails for values above the sum)."
  },
  {
   "property": "C72",
   "status": "proved",
   "theorems": [
    "C72_oll",
    "C72_accepted",
    "C72_keeps",
    "C72_next_candidate",
    "C72_solution_new",
    "C72_complete",
    "C72_bos_accepted",
    "C72_bos_complete"
   ],
   "note": "BoostSpec.v: core boosting as events before the runs of C70 and C71. C72_oll shows that the lines of oll as modelled in MReform.v (C65), the stored bound and the stored id are such events. Without core exhaustion, whose line is refuted in C65. Example bt_runs: core boosting of one objective, an encoding over the totalizer outputs, two candidates and the contradiction; C72_example, C72_solution_example, C72_bos_example."
  },
  {
   "property": "C73",
   "status": "proved",
   "theorems": [
    "C73_front",
    "C73_finished",
    "C73_candidates",
    "C73_block",
    "C73_yield"
   ],
   "note": "MProofRun.v: the loops as a transition system over the states of C70 and C72; an answer of the solver is a solution of the clauses of the instance and of those handed to it, or a derived clause over negated assumptions (what the solver writes, C50_core_id). The assumptions of the encodings are assumed to do what they are for at every point (enc_works). Blocking needs the conditions of C70_next_candidate on the encodings. Example fr_run: a candidate is improved and yielded, a second point is found, and the front is complete; C73_example."
  },
  {
   "property": "C74",
   "status": "proved",
   "theorems": [
    "C74_front",
    "C74_finished",
    "C74_improves",
    "C74_yield",
    "C74_iterate",
    "C74_last"
   ],
   "note": "MProofBos.v: the loop of bioptsat.rs 366-776 as a transition system over the states of C71 and C72. As for C73, an answer of the solver is a solution of the clauses or a derived clause over negated assumptions, and the assumptions of the encodings are assumed to do what they are for at every point (enc_works). C74_iterate and C74_last need the conditions of C71_next_iteration and C71_finish on the encodings. Invariant b_inv (BosFrontThm.v). Example bg_run: (0,2) is found, improved to (0,1) and yielded, then (2,0), (1,0) and the contradiction; C74_example."
  },
  {
   "property": "C75",
   "status": "proved",
   "theorems": [
    "C75_same_front",
    "C75_same_front_bioptsat",
    "C75_turns",
    "C75_turns_bioptsat"
   ],
   "note": "From C02/C05/C08 and C73/C74. What the solver and the encodings do between two changes of place is not counted. Examples C75_example, C75_example_bioptsat, C75_bound_example, C75_bound_example_bioptsat."
  },
  {
   "property": "C76",
   "status": "proved",
   "theorems": [
    "C76_resume_complete",
    "C76_resume_finishes",
    "C76_batches",
    "C76_bioptsat_resume_complete",
    "C76_bioptsat_batches_refuted"
   ],
   "note": "StopAt.v: the two limits only stop a run right after a point was added, for every program (Struct.v); the invariants of the main loops then keep that every blocked vector is above a reported one. Stops for other reasons can lose points of P-minimal (C39). Examples C76_example_*."
  },
  {
   "property": "C77",
   "status": "proved",
   "theorems": [
    "C77_status",
    "C77_always_zero",
    "C77_error_refuted",
    "C77_write_refuted",
    "C77_stopped_refuted"
   ],
   "note": "MExit.v on top of the pipeline of C57; writes before solving, after solving and to standard error each succeed or fail as a whole. The statuses 0, 1 and 101 for Ok, Err and panic are those of the Rust runtime. Example C77_example."
  },
  {
   "property": "C78",
   "status": "proved",
   "theorems": [
    "C78_same_instance",
    "C78_translation",
    "C78_reindexing",
    "C78_front",
    "C78_finished",
    "C78_bioptsat_front",
    "C78_bioptsat_finished",
    "C78_certified",
    "C78_loose_refuted"
   ],
   "note": "MProofPre.v; the certified encoder is external, its contract is cert_post (and cert_enc_strict for the theorems about runs) in PreProofSpec.v, met by cert_brute in PreProofInst.v; cert_loose meets cert_post only. Whether the encoder of rustsat is strict is not known from the sources in the repository. Examples C78_encoder, C78_example (a complete run)."
  },
  {
   "property": "C79",
   "status": "proved",
   "theorems": [
    "C79_check",
    "C79_extend",
    "C79_histories",
    "C79_first_call",
    "C79_bioptsat_again_refuted",
    "C79_resume_refuted",
    "C79_one_call_refuted"
   ],
   "note": "MCheck.v models the feature; during a run every point is pushed by its own call (algs.rs 699-739), so a run with the feature is the run without it as long as replaying its pushes with the check succeeds. Examples C79_example, C79_run_example."
  },
  {
   "property": "C80",
   "status": "proved",
   "theorems": [
    "C80_exact",
    "C80_sound",
    "C80_terminates",
    "C80_enumerates_all",
    "C80_histories",
    "C80_exits",
    "C80_boost_again",
    "C80_boost_again_finishes",
    "C80_reserved_reset_refuted",
    "C80_reset_after_plain_refuted"
   ],
   "note": "Hypotheses: boosts_ok (sane oracle, stored CNF when resetting), resets_ok (the condition on stopped resets), no_empty_core (excludes the panic of C26 on infeasible instances with core minimization or trimming). The two refutations show that both halves of resets_ok are needed. Examples C80_example_search, C80_example_reset, C80_example_merge."
  },
  {
   "property": "C81",
   "status": "proved",
   "theorems": [
    "C81_front_final",
    "C81_solve_stops",
    "C81_boost_stops"
   ],
   "note": "latched t h: all calls of the history see one flag, raised before its t-th read and never lowered (FinalSpec.v). Nothing is assumed about the oracle. Examples C81_example_pmin, C81_example_lb, C81_example_bos, C81_example_boost."
  },
  {
   "property": "C82",
   "status": "proved",
   "theorems": [
    "C82_correct",
    "C82_finishes",
    "C82_encoding_fails",
    "C82_same_as_without",
    "C82_uncovered_refuted"
   ],
   "note": "MaxPre is external; its contract is mp_ok in MaxPreSpec.v, met by the example MaxPre run mx_ok. C82_uncovered_refuted shows that mp_covered is needed. Conditions on reindexing and core boosting as in C57, on the problem MaxPre returns. Examples C82_example_pmin, C82_example_bos, C82_uncovered_values."
  },
  {
   "property": "C83",
   "status": "proved",
   "theorems": [
    "C83_handed",
    "C83_optimal",
    "C83_reconstructed",
    "C83_not_reconstructed_refuted",
    "C83_no_softs_refuted"
   ],
   "note": "MaxPre is external with contract mp_ok (MaxPreSpec.v); resetting the totalizer database has contract reset_enc_ok (InproSpec.v), met by reset_law. Examples C83_example, C83_example_runs (runs with a MaxPre that returns its input), C83_no_softs_values."
  },
  {
   "property": "C84",
   "status": "proved",
   "theorems": [
    "C84_improves",
    "C84_optimal_exact",
    "C84_stale_refuted"
   ],
   "note": "The function is modelled on its own, with an abstract solver that has a current model and a flip operation with contract flip_ok (TightSpec.v); the loops of the algorithms are modelled without the feature. Examples C84_example, C84_example_tight, C84_example_refused."
  },
  {
   "property": "C85",
   "status": "proved",
   "theorems": [
    "C85_complete",
    "C85_finishes",
    "C85_batches",
    "C85_bioptsat"
   ],
   "note": "Enumeration off; the precondition on core boosting (no core of an objective is empty: no_empty_core) and, for BiOptSat, no_fixed_cost are those of C80. The precondition resumable is that of C76. Examples C85_example_ok, C85_example_resumable, C85_example_pmin, C85_example_lb, C85_example_bos."
  },
  {
   "property": "C86",
   "status": "proved",
   "theorems": [
    "C86_read_back",
    "C86_unambiguous",
    "C86_command_line"
   ],
   "note": "Without colours. Rust's decimal Display of integers and rustsat's Display of assignments are modelled as external. Examples C86_example, C86_example_reader, C86_example_run."
  },
  {
   "property": "C87",
   "status": "proved",
   "theorems": [
    "C87_infeasible",
    "C87_ideal",
    "C87_exact",
    "C87_sound",
    "C87_terminates",
    "C87_enumerates_all",
    "C87_histories",
    "C87_exits",
    "C87_finishes",
    "C87_rejected_after_solve",
    "C87_needs_clauses",
    "C87_logged",
    "C87_gap_panics",
    "C87_kept_outputs",
    "C87_removed_outputs_counted_refuted"
   ],
   "note": "MaxPre is external with contract gentle, resetting the totalizer database has contracts reset_enc_ok and reset_keeps (InproSpec.v, InproOkSpec.v). The hypotheses are met: tkeep_enc, tkeep_keeps, id_gentle, turn_gentle, C87_example_softs; runs C87_example, C87_example_turned, C87_weights, C87_refused, C87_cut, C87_paid. What fails without them: C83."
  },
  {
   "property": "C88",
   "status": "proved",
   "theorems": [
    "C88_stopped_begins",
    "C88_costs_begin",
    "C88_finished_same",
    "C88_logger",
    "C88_histories",
    "C88_calls_begin",
    "C88_calls_finished",
    "C88_calls_logger",
    "C88_interrupt_drops_point_refuted"
   ],
   "note": "The disturbances are those of disturbs and limits_le (SyncSpec.v), met by cut_disturbs, logcut_disturbs and limits_le_none; runs C88_example_finishes, C88_example_stopped, C88_example_calls. The refuted theorem shows why the second run must finish."
  },
  {
   "property": "C89",
   "status": "proved",
   "theorems": [
    "C89_refines",
    "C89_histories",
    "C89_sound",
    "C89_complete",
    "C89_bioptsat_order",
    "C89_sound_history",
    "C89_no_panic",
    "C89_terminates",
    "C89_never",
    "C89_outer_loop",
    "C89_never_bioptsat_refuted",
    "C89_candidate_refuted",
    "C89_boosted_refines",
    "C89_boosted_first",
    "C89_boosted_terminates",
    "C89_boosted_histories",
    "C89_shared_sound",
    "C89_shared_complete",
    "C89_shared_enumeration",
    "C89_shared_history",
    "C89_shared_again",
    "C89_shared_no_panic",
    "C89_shared_terminates",
    "C89_shared_boosted_first",
    "C89_shared_boosted_terminates",
    "C89_shared_boosted_histories"
   ],
   "note": "What is assumed about flips is flipper_ok (TightAlgSpec.v), met by ex_flip_ok; hypotheses met in C89_example_meets, tx_hist_ok, C89_boosted_meets, sh_ok, sh_hist_ok and C89_shared_meets, runs in the other examples. Without the inprocessor, which switches tightening off. The log event of algs.rs 580-582 is left out."
  },
  {
   "property": "C90",
   "status": "proved",
   "theorems": [
    "C90_candidates",
    "C90_points",
    "C90_points_optimal",
    "C90_all_points",
    "C90_boosted",
    "C90_boosted_optimal",
    "C90_boosted_all_points"
   ],
   "note": "Hypotheses met in lg_hist_ok and lb_meets, runs in C90_example_*. Without solution tightening; with it candidates need not be true, see C89_candidate_refuted."
  },
  {
   "property": "C91",
   "status": "proved",
   "theorems": [
    "C91_solve",
    "C91_boost",
    "C91_detached",
    "C91_history"
   ],
   "note": "Nothing is assumed about the oracle. Hypotheses met in cn_hist_ok, runs in C91_example*."
  }
 ]
}