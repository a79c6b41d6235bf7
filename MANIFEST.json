{
 "claims": [
  {
   "property": "C01",
   "status": "proved",
   "theorems": [
    "C01_dimacs_to_lit_roundtrip",
    "C01_lit_to_dimacs_roundtrip",
    "C01_negation",
    "C01_constructors",
    "C01_codes"
   ],
   "note": "All conversions over 32-bit words."
  },
  {
   "property": "C02",
   "status": "proved",
   "theorems": [
    "C02_history_refines_list",
    "C02_equality",
    "C02_var_count_covers",
    "C02_new_var_fresh",
    "C02_from_iterable"
   ],
   "note": "Over all operation histories."
  },
  {
   "property": "C03",
   "status": "proved",
   "theorems": [
    "C03_roundtrip",
    "C03_sequence_any_refill",
    "C03_decoding_independent_of_buffering",
    "C03_encoding_size"
   ],
   "note": "All u64 values, all buffering patterns with non-empty refills; I/O errors other than end of file not modelled."
  },
  {
   "property": "C04",
   "status": "proved",
   "theorems": [
    "C04_roundtrip",
    "C04_prefix_free",
    "C04_truncation_detected"
   ],
   "note": "All step kinds; also prefix-freeness and detection of truncation."
  },
  {
   "property": "C05",
   "status": "proved",
   "theorems": [
    "C05_chunking",
    "C05_chunking_incremental"
   ],
   "note": "Any chunking, with the formula taken out after any subset of the chunks."
  },
  {
   "property": "C06",
   "status": "proved",
   "theorems": [
    "C06_write_parse",
    "C06_write_total",
    "C06_write_injective"
   ],
   "note": "Every formula built through the API with literals in range, parsed in any chunking."
  },
  {
   "property": "C07",
   "status": "partial",
   "theorems": [
    "C07_reference_partial",
    "C07_dangling_minus_refuted",
    "C07_range",
    "C07_result_range",
    "C07_token"
   ],
   "note": "Range claims hold for every input. The exact-acceptance claim is proved for all texts except those whose last word is a lone minus sign, where it is refuted."
  },
  {
   "property": "C08",
   "status": "proved",
   "theorems": [
    "C08_header_number",
    "C08_header",
    "C08_header_incremental",
    "C08_unterminated_rejected",
    "C08_error_sticky"
   ],
   "note": "For every input and chunking; unterminated clauses stated against the reference description."
  },
  {
   "property": "C09",
   "status": "proved",
   "theorems": [
    "C09_derived_clause_implied",
    "C09_derived_units_implied",
    "C09_assignments_undone",
    "C09_undo_after_unknown_hash_refuted"
   ],
   "note": "Implied by the store and by the given clauses; assignments undone on acceptance and on failed propagation. Refuted for the error \"no clause found for hash\", which leaves the assignments in place."
  },
  {
   "property": "C10",
   "status": "proved",
   "theorems": [
    "C10_unsat_sound",
    "C10_delayed_sound",
    "C10_check_proof_sound",
    "C10_refutation_delivered",
    "C10_acceptance_means_unsat_refuted"
   ],
   "note": "For steps given one by one, the delayed conflict report and whole proof files; every deletion of a variable starts a fresh variable (the plain reading follows). Acceptance alone does not imply a refutation (refuted)."
  },
  {
   "property": "C11",
   "status": "proved",
   "theorems": [
    "C11_failed_assumptions_sound"
   ],
   "note": "Core contained in the last assumptions step, and given clauses plus core unsatisfiable."
  },
  {
   "property": "C12",
   "status": "partial",
   "theorems": [
    "C12_model_consistent",
    "C12_model_extends_partial",
    "C12_total_model_partial",
    "C12_unit_not_in_model_refuted",
    "C12_model_after_unsat_refuted",
    "C12_deleted_input_variable_refuted",
    "C12_stale_subsumption_refuted"
   ],
   "note": "Full statement refuted four ways (unit not mentioned by the model, model after refutation, deleted input variable, stale subsuming clause). Proved: consistency and assumptions; extension to a solution of all given clauses under the guard; full satisfaction for total models without deleted variables."
  },
  {
   "property": "C13",
   "status": "partial",
   "theorems": [
    "C13_names_one_to_one",
    "C13_misuse_rejected",
    "C13_free_name_accepted",
    "C13_removed_name_free",
    "C13_transcript_names",
    "C13_given_variables_sampled",
    "C13_shared_transcript_name_refuted"
   ],
   "note": "User names are one-to-one, misuse is rejected, a freed name is accepted again, transcript items only mention non-hidden variables, and given clauses and assumptions only mention sampling variables. Missing: that a transcript name is unique; this is refuted (a sampling variable without user name is shown under its own index, C13_shared_transcript_name_refuted)."
  },
  {
   "property": "C14",
   "status": "proved",
   "theorems": [
    "C14_delete_present_accepted",
    "C14_store_is_multiset",
    "C14_units_kept",
    "C14_identifiers_unique",
    "C14_identifiers_increase",
    "C14_identifiers_increase_delayed",
    "C14_delete_absent_fails",
    "C14_compaction_keeps_content"
   ],
   "note": "Multiplicities equal the difference of additions and deletions computed from the history alone, while the formula is not refuted (later clauses are ignored by design); identifiers, failing deletions and compaction for every history."
  },
  {
   "property": "C15",
   "status": "proved",
   "theorems": [
    "C15_stored_clause_found",
    "C15_removed_name_refuted"
   ],
   "note": "Observable form: a derivation step naming only the hash of a stored clause under the last names and width is accepted, provided each variable has a solver name or never had one (a removed name stays in use until the next rehash: refuted) and hash widths are 1 to 64."
  },
  {
   "property": "C16",
   "status": "proved",
   "theorems": [
    "C16_derived_hints",
    "C16_failed_assumptions_hints",
    "C16_log_replays",
    "C16_removal_hints",
    "C16_final_refutation",
    "C16_replay_sound",
    "C16_removal_hints_refuted",
    "C16_final_refutation_refuted"
   ],
   "note": "Hints of every accepted derivation check against exactly the stored clauses; the complete log replays in an independent sound hint checker. The hint for a removed irredundant clause, and the final report for conflicting units, need that no relevant variable is deleted in between: without that, both are refuted by witnesses."
  },
  {
   "property": "C17",
   "status": "proved",
   "theorems": [
    "C17_file_accepted",
    "C17_file_decodes",
    "C17_line_numbers_increase",
    "C17_lrat_accepted",
    "C17_lrat_checker_sound",
    "C17_fresh_number_refuted",
    "C17_pending_deletions_refuted",
    "C17_solver_lrat"
   ],
   "note": "Both formats decode to the operations of the processed steps for every call history including intermediate flushes; an independent sound LRAT checker accepts the files of accepted proofs. Two readings are refuted by witnesses: textual files omit pending deletions of trailing input clauses, and checkers that insist on unused clause numbers reject files for formulas refuted while loading. C17_file_accepted starts from the bytes of the proof file: the only bound is on the sizes of formula and file. C17_solver_lrat is about the file of a solver with the processor attached (one call of solve, no assumptions)."
  },
  {
   "property": "C18",
   "status": "proved",
   "theorems": [
    "C18_copy_canonical",
    "C18_canonical_unique",
    "C18_is_subset"
   ],
   "note": "copy_canonical: strictly sorted, same literal set, tautology flag exact, canonical form unique; is_subset decides (strict) inclusion on sorted lists."
  },
  {
   "property": "C19",
   "status": "partial",
   "theorems": [
    "C19_check_proof_ends",
    "C19_no_panic_partial",
    "C19_delayed_steps_no_panic",
    "C19_plain_run_no_panic_partial",
    "C19_plain_file_no_panic_partial",
    "C19_model_unknown_variable_refuted",
    "C19_delete_unknown_variable_refuted",
    "C19_hash_width_refuted",
    "C19_transcript_tautology_refuted",
    "C19_transcript_hidden_assumption_refuted",
    "C19_length_field_refuted"
   ],
   "note": "The full claim is refuted by six kinds of input (model or satisfied deletion with an unknown variable, hash width 0 or 65, impossible length field, with transcripts a tautology over a new variable and a core over a hidden variable). Proved: termination on every file, absence of panics under exactly these guards, for single steps, whole runs and whole files."
  },
  {
   "property": "C20",
   "status": "proved",
   "theorems": [
    "C20_luby",
    "C20_luby_unique"
   ],
   "note": "the i-th call returns the i-th element for all 1 <= i < 2^64; the 64 bit counter is modelled with wrap-around"
  },
  {
   "property": "C21",
   "status": "partial",
   "theorems": [
    "C21_positions_agree",
    "C21_available",
    "C21_next_max_partial",
    "C21_activities_finite",
    "C21_next_max_refuted"
   ],
   "note": "availability and positions are proved for all operation sequences; that the popped variable is most active is proved when no variable in the heap is removed by make_unavailable and refuted otherwise (C21_next_max_refuted: make_unavailable never sifts the moved element up)"
  },
  {
   "property": "C22",
   "status": "proved",
   "theorems": [
    "C22_fields"
   ],
   "note": "For every sequence of updates; tiers of the enumeration, lengths up to the number of variables."
  },
  {
   "property": "C23",
   "status": "proved",
   "theorems": [
    "C23_database",
    "C23_reasons_moved",
    "C23_buffer"
   ],
   "note": "All histories of additions, tier and activity changes, deletions, shortening, reductions and collections, interleaved with arbitrary search steps that keep reasons present. Literals are compared up to order, as propagation permutes them. That the buffer of words stores clauses faithfully is C23_buffer and C22_fields."
  },
  {
   "property": "C24",
   "status": "proved",
   "theorems": [
    "C24_propagate"
   ],
   "note": "For every state reachable by units, decisions, propagation and backtracking over an arbitrary clause set."
  },
  {
   "property": "C25",
   "status": "proved",
   "theorems": [
    "C25_learned_clause"
   ],
   "note": "For every conflict that propagation finds in a state reachable by units, decisions, propagation and backtracking over an arbitrary clause set; scratch data assumed clean, as the call leaves it."
  },
  {
   "property": "C26",
   "status": "proved",
   "theorems": [
    "C26_backtrack"
   ],
   "note": "For every state reachable by units, decisions, propagation and backtracking over an arbitrary clause set."
  },
  {
   "property": "C27",
   "status": "proved",
   "theorems": [
    "C27_model_correct",
    "C27_model_solutions",
    "C27_model_clauses",
    "C27_model_returned",
    "C27_model_returned_refuted"
   ],
   "note": "every history of API calls, every schedule and heuristic state. C27_model_correct: with hidden variables and observe_internal_vars, for what the history means (relation means); C27_model_solutions and C27_model_clauses state it with the clauses when hidden variables are not observed again / when nothing is hidden. C27_model_returned adds that model() returns; refuted when variables are created between a successful solve and a repeated solve (index out of bounds)."
  },
  {
   "property": "C28",
   "status": "partial",
   "theorems": [
    "C28_unsat_correct",
    "C28_unsat_solutions",
    "C28_unsat_clauses",
    "C28_core_unsat_partial",
    "C28_core_unsat_refuted"
   ],
   "note": "Ok(false) means unsatisfiable, and the core is a subset of the assumptions: every history. That the core itself contradicts the clauses: proved unless an earlier failed core had exactly one literal; refuted without that condition (flags left over from such a failure make the core too small)."
  },
  {
   "property": "C29",
   "status": "proved",
   "theorems": [
    "C29_stored_formula",
    "C29_add_clause"
   ],
   "note": "every history; the stored formula of the solver has exactly the models that the history means, add_clause intersects it with the models of the clause."
  },
  {
   "property": "C30",
   "status": "proved",
   "theorems": [
    "C30_maps",
    "C30_new_var",
    "C30_recycling",
    "C30_hide",
    "C30_observe"
   ],
   "note": "For every history of calls of the solver: the user/global and global/solver maps are inverse to each other; new_var and observe_internal_vars return unused names for variables that did not exist resp. had no name; a name stays bound to its variable until hide_var of that very name; hiding frees exactly that name; observing names exactly the unnamed variables."
  },
  {
   "property": "C31",
   "status": "proved",
   "theorems": [
    "C31_simplification",
    "C31_learned_implied",
    "C31_learned_clauses"
   ],
   "note": "every state between two rounds of the search loop of any history, after a restart and complete propagation. Learned clauses are implied by the irredundant part in all these states."
  },
  {
   "property": "C32",
   "status": "proved",
   "theorems": [
    "C32_reduce_locals",
    "C32_reduce_mids",
    "C32_irredundant_stay"
   ],
   "note": "For the database after any history; answers of the solver under deletion are part of C27."
  },
  {
   "property": "C33",
   "status": "proved",
   "theorems": [
    "C33_file_decodes",
    "C33_panics_iff_incremental"
   ],
   "note": "Both formats, any proof with literals in range; the writers panic exactly on incremental steps."
  },
  {
   "property": "C34",
   "status": "proved",
   "theorems": [
    "C34_width",
    "C34_solver",
    "C34_late_checking_refuted",
    "C34_second_proof_refuted"
   ],
   "note": "any sequence of steps with at most 2^32 clauses: width even and within 6..64, every change announced before its first use, hashes are the high bits, width sufficient for the clause count; for every history that configures proofs first the reader of the proof (file or self check) computes the same hash for every clause. Refuted for assume before enable_self_checking/write_proof and for a second write_proof (both lead to rejected proofs, shown with the checker model)."
  },
  {
   "property": "C35",
   "status": "proved",
   "theorems": [
    "C35_rejected",
    "C35_answer",
    "C35_step",
    "C35_error_reported",
    "C35_error_once",
    "C35_never_interrupted"
   ],
   "note": "every history, judge and IO behaviour; the checker is an arbitrary function of its log. That every model change is logged is part of C34/C27-C29, not of C35."
  },
  {
   "property": "C36",
   "status": "proved",
   "theorems": [
    "C36_hash_permutation",
    "C36_hash_set",
    "C36_hash_parts",
    "C36_hash_reason",
    "C36_hash_u64",
    "C36_hash_lit_injective"
   ],
   "note": "Permutation invariance, set dependence, xor decomposition (also for a reason clause with the propagated literal at any position), 64-bit range, injectivity on single literals."
  },
  {
   "property": "C37",
   "status": "partial",
   "theorems": [
    "C37_compute_glue",
    "C37_reachable_refuted",
    "C37_reachable_partial",
    "C37_reachable_plain"
   ],
   "note": "C37_compute_glue holds for clean scratch flags, C37_reachable_partial and C37_reachable_plain give the states of the solver between calls.  C37_reachable_refuted shows that the solver can reach states where the flags are not clean, because the analysis of failed assumptions leaves one set."
  },
  {
   "property": "C38",
   "status": "proved",
   "theorems": [
    "C38_accepted_iff",
    "C38_apply_effect",
    "C38_merge_latest",
    "C38_merge_sequence",
    "C38_update_never_panics",
    "C38_default_valid"
   ],
   "note": "acceptance iff all values are in their documented range, effect of apply, merge takes the latest value, and the assertions of set_decay hold afterwards; error texts and (de)serialisation are not modelled"
  },
  {
   "property": "C39",
   "status": "proved",
   "theorems": [
    "C39_no_internal_panic",
    "C39_plain_use"
   ],
   "note": "C39_no_internal_panic: every history; the panics left are the documented ones and a full clause allocator. C39_plain_use: histories of add_clause, new_var, assume, solve and config panic only for a full clause allocator and every solve answers."
  },
  {
   "property": "C40",
   "status": "proved",
   "theorems": [
    "C40_hide_projects",
    "C40_observe_extends",
    "C40_others_keep"
   ],
   "note": "for the stored formula (C29) of the state after any history."
  },
  {
   "property": "C41",
   "status": "proved",
   "theorems": [
    "C41_learned_hints",
    "C41_unit_hints",
    "C41_failed_hints"
   ],
   "note": "for searches and the hash lists of Analyze.v and Solver.v; that the checker accepts such hints is C42."
  },
  {
   "property": "C42",
   "status": "proved",
   "theorems": [
    "C42_valid_accepted",
    "C42_rejected_invalid",
    "C42_valid_file_accepted",
    "C42_valid_transcript",
    "C42_valid_file_transcript"
   ],
   "note": "every valid history (valid_history, stated with the history only) of u32 literals and fewer than 2^32 stored literals, no failing processor; also for proof files. C42_valid_transcript and C42_valid_file_transcript cover transcripts, for histories in which every variable told to the transcript has a name (told_history)."
  },
  {
   "property": "C43",
   "status": "partial",
   "theorems": [
    "C43_self_check_partial",
    "C43_log_accepted_partial",
    "C43_no_assumptions",
    "C43_self_check_refuted"
   ],
   "note": "C43_no_assumptions is the full statement for solvers used without assumptions. Otherwise every history that configures the checker first and in which no failed core has exactly one literal; a checker that fails only where the modelled one does while literals fit 32 bit and fewer than 2^32 literals are stored. False without these conditions: C43_self_check_refuted (small failed core after a single failed assumption), C34_late_checking_refuted."
  },
  {
   "property": "C44",
   "status": "partial",
   "theorems": [
    "C44_transcript_verdict",
    "C44_file_accepted_partial",
    "C44_file_accepted_refuted",
    "C44_hidden_refuted",
    "C44_transcript",
    "C44_transcript_refuted"
   ],
   "note": "every history that enables the file first, gives the formula before the first solve and in which no failed core has exactly one literal; the variables that the calls name plus the calls of hide_var and new_var are at most Var::max_count, file and formula are smaller than 2^32, no write fails. False with failed cores of one literal: C44_file_accepted_refuted. Variables hidden before the first solve are not covered, this is false in general (C44_hidden_refuted: a name used again after hide_var). C44_transcript: checkers with transcripts, without assumptions and without clauses after the first solve, for formulas whose tautologies have no new variables (otherwise false: C44_transcript_refuted); C44_transcript_verdict: what these transcripts say agrees with the answers of solve."
  },
  {
   "property": "C45",
   "status": "proved",
   "theorems": [
    "C45_drat_file",
    "C45_refutation_sound"
   ],
   "note": "every history that enables the file first, gives the formula before the first solve (no variable hidden before it) and does not panic; the variables that the calls name plus the calls of hide_var and new_var are at most Var::max_count, no write fails."
  },
  {
   "property": "C46",
   "status": "proved",
   "theorems": [
    "C46_numbers"
   ],
   "note": "every history of calls; the bound is reached (C46_case)."
  },
  {
   "property": "C47",
   "status": "proved",
   "theorems": [
    "C47_exit",
    "C47_answer",
    "C47_text"
   ],
   "note": "the tool from the parsed options on; failures to open or read files and the log lines are not modelled. C47_text relates the accepted inputs to the reference reader of C07 (not for a text that ends in a lone minus sign)."
  },
  {
   "property": "C48",
   "status": "proved",
   "theorems": [
    "C48_answer",
    "C48_varisat_file",
    "C48_drat_file",
    "C48_self_check",
    "C48_lrat_file"
   ],
   "note": "the tool from the parsed options on; file and formula are smaller than 2^32 for the native format; C48_self_check is for a checker that is that of the model while its counters do not overflow. C48_lrat_file covers --proof-format lrat and clrat with and without --self-check, for less than 2^32 literals and clauses sent to the checker. The combination of the other formats with --self-check is only covered by C48_self_check."
  },
  {
   "property": "C49",
   "status": "partial",
   "theorems": [
    "C49_exit",
    "C49_unsat_sound",
    "C49_sat_sound_partial",
    "C49_sat_refuted",
    "C49_verified_refuted",
    "C49_tautology_refuted",
    "C49_summary_refuted",
    "C49_lrat",
    "C49_round",
    "C49_round_lrat"
   ],
   "note": "t UNSAT is sound without restriction. t SAT needs that the input has no empty clause and that the proof adds no clauses and keeps the irredundant ones; the general statement is false (C49_sat_refuted, C12_*_refuted). C49_round joins the two tools: solving with --proof and checking the file with --check; C49_lrat and C49_round_lrat do the same for the converted LRAT files."
  },
  {
   "property": "C50",
   "status": "partial",
   "theorems": [
    "C50_tool_partial",
    "C50_tool_decides_partial",
    "C50_calls",
    "C50_bound_irrelevant",
    "C50_step",
    "C50_conflicts",
    "C50_solve_partial",
    "C50_history_partial",
    "C50_decides_partial"
   ],
   "note": "All but solve as a whole is proved without restriction. That solve ends is proved if 2^v < luby_restart_interval_scale * 2^63 for v variables in use (69 variables with the default, 62 with every valid configuration), because the u64 iterator of the Luby sequence starts again after 2^63. C50_tool_partial and C50_tool_decides_partial do the same for the command line solver."
  },
  {
   "property": "C51",
   "status": "partial",
   "theorems": [
    "C51_same_answer",
    "C51_assumptions_as_units",
    "C51_enumeration",
    "C51_enumeration_ends_partial"
   ],
   "note": "C51_same_answer, C51_assumptions_as_units and C51_enumeration are proved for all histories (without observing hidden variables again). That the enumeration ends is proved for at most 62 variables, see C50."
  },
  {
   "property": "C52",
   "status": "proved",
   "theorems": [
    "C52_iterator",
    "C52_formula",
    "C52_solver"
   ],
   "note": "C52_iterator relates the iterators and tuples to single calls of new_var for every implementation; C52_formula and C52_solver are the two implementations. Tuples are lists of their length in the model. An ended iterator keeps returning None. Drop of a partly used iterator has no effect, as in the code."
  },
  {
   "property": "C53",
   "status": "partial",
   "theorems": [
    "C53_silent",
    "C53_numbers",
    "C53_variables_partial",
    "C53_first_reports_partial",
    "C53_variables_refuted",
    "C53_binary",
    "C53_complete"
   ],
   "note": "C53_silent, C53_numbers, C53_complete and C53_binary are for every history. The number of variables is proved for the first solve only; for later ones the subtraction can underflow (C53_variables_refuted: a panic with overflow checks if the log level is enabled). The text of the log line is not modelled."
  }
 ]
}