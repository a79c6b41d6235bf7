{"id": "C01", "title": "Literal and variable encodings are lossless", "statement": "Converting a non-zero DIMACS integer whose absolute value is at most Var::max_count() to a Lit and back returns the integer; converting any Lit (code at most 2*max_var+1) to DIMACS and back returns the Lit. Negation is an involution without fixed points that keeps the variable and flips the sign; from_var/from_index/from_code/positive/negative/`^ bool` agree with each other, and every machine word involved stays below 2^32.", "quantifier": "every in-range DIMACS integer, every variable index up to Var::max_var(), every literal code", "why_tests_cant": "there are 2^29 literals; unit tests sample a few and cannot show that no two integers collide", "anchors": ["varisat-formula/src/lit.rs: Lit::from_dimacs, Lit::to_dimacs, Lit::from_var, Lit::from_code, Not, BitXor, Var::from_dimacs, Var::max_var"]}
{"id": "C02", "title": "CnfFormula behaves like a list of clauses", "statement": "After any sequence of add_clause, set_var_count and new_var calls starting from an empty formula, iter() yields exactly the added clauses in order with their literals unchanged, len() is their number, var_count() is the maximum over everything requested and used, and equality of two formulas holds exactly when variable counts and clause lists are equal.", "quantifier": "every finite sequence of formula-building calls with arbitrary clauses", "why_tests_cant": "the flat buffer plus ranges representation must be right for every history, not for a few sample formulas", "anchors": ["varisat-formula/src/cnf.rs: CnfFormula::add_clause, set_var_count, new_var, iter, len, PartialEq, From"]}
{"id": "C03", "title": "Variable length integers round-trip through both decoders", "statement": "Reading back what write_u64 wrote yields the same number and consumes exactly the written bytes, whatever bytes follow, and whether the fast (16 bytes buffered) or slow decoder path is taken; a whole sequence of numbers decodes to the same sequence for every pattern of buffer refills. At most 10 bytes are written.", "quantifier": "every u64 value, every sequence of values, every following byte string, every split of the stream into buffer refills", "why_tests_cant": "there are 2^64 values and the path taken depends on how the reader's buffer happens to be filled", "anchors": ["varisat-internal-proof/src/vli_enc.rs: write_u64, read_u64_fast, read_u64"]}
{"id": "C04", "title": "Native proof files decode to the steps that were written", "statement": "Parsing the bytes produced by writing any sequence of proof steps yields exactly those steps in the same order, consuming exactly the bytes of each step.", "quantifier": "every finite sequence of proof steps over all 18 step kinds, with literal lists and hash lists of any length, all codes in range", "why_tests_cant": "steps contain unbounded lists and arbitrary 64-bit hashes; a test can only sample sequences", "anchors": ["varisat-internal-proof/src/binary_format.rs: write_step, Parser::parse_step", "varisat-internal-proof/src/vli_enc.rs"]}
{"id": "C05", "title": "DIMACS parsing does not depend on how the input is split into chunks", "statement": "Feeding an input to DimacsParser as any sequence of chunks gives the same formula, header, counters and the same error (kind and position) as feeding it in one chunk; taking the partially parsed formula between chunks and concatenating the pieces gives the same clauses in the same order.", "quantifier": "every byte string and every way of splitting it into chunks, with take_formula called after any of them", "why_tests_cant": "the number of splits is exponential and literals, comments or the header may be cut at any byte", "anchors": ["varisat-dimacs/src/lib.rs: DimacsParser::parse_chunk, eof, take_formula, parse_incremental"]}
{"id": "C06", "title": "Writing a formula as DIMACS and parsing it returns the same formula", "statement": "For every CnfFormula whose literals are in range, parsing the output of write_dimacs succeeds, passes the header check, and returns a formula equal to the original (same clauses in order, same variable count).", "quantifier": "every CNF formula: any number of clauses (including empty ones), any literals up to Var::max_var(), any declared variable count up to Var::max_count()", "why_tests_cant": "formulas are unbounded; decimal printing and parsing must agree on all of them", "anchors": ["varisat-dimacs/src/lib.rs: write_dimacs, write_dimacs_header, write_dimacs_clauses, DimacsParser::parse"]}
{"id": "C07", "title": "The DIMACS parser never lets an out-of-range literal through", "statement": "For every input, however long its digit strings are, parsing either returns an error or a formula all of whose literals are in range; a literal token is accepted exactly when its absolute value is at most Var::max_count(), the value stored is the exact decimal value of the token, and the accumulator never exceeds Var::max_count().", "quantifier": "every byte string, including arbitrarily long digit strings with leading zeros", "why_tests_cant": "integer overflow in the digit accumulator would need inputs chosen at the exact boundary; tests try a handful", "anchors": ["varisat-dimacs/src/lib.rs: DimacsParser::parse_chunk (CAN_OVERFLOW), finish_literal"]}
{"id": "C08", "title": "DIMACS header is enforced", "statement": "If an input with a `p cnf V C` header is accepted by parse, then V <= Var::max_count(), the parsed formula has exactly C clauses, uses no variable beyond V and has var_count V. An unterminated clause is rejected, and after an error the parser rejects every further chunk.", "quantifier": "every accepted byte string and every chunking", "why_tests_cant": "needs to hold for all inputs, including headers after clauses or with counts that are off by one", "anchors": ["varisat-dimacs/src/lib.rs: DimacsParser::check_header, parse_header_line, eof"]}
{"id": "C09", "title": "The checker only accepts clauses implied by what it already has", "statement": "Whenever a clause addition step with propagation hashes is accepted by the checker, every assignment satisfying all clauses currently stored in the checker (with its known units) satisfies the new clause. The temporary assignments made during the check are all undone.", "quantifier": "every checker state reachable by any sequence of accepted steps, every clause, every list of hashes (including colliding hashes and maliciously chosen ones)", "why_tests_cant": "an unsound acceptance needs only one adversarial proof; no finite test suite covers all proofs and hash collisions", "anchors": ["varisat-checker/src/rup.rs: check_clause_with_hashes", "varisat-checker/src/state.rs: check_at_clause_step"]}
{"id": "C10", "title": "A verified UNSAT answer is always right", "statement": "If a checker, after loading a formula and processing any sequence of proof steps without error, reports the formula as unsatisfiable (it derived the empty clause or a unit conflict), then the set of all clauses given to it (initial clauses and incrementally added clauses) is unsatisfiable.", "quantifier": "every input formula, every byte-level proof and every sequence of proof steps", "why_tests_cant": "the soundness of a proof checker quantifies over all proofs, including hostile ones", "anchors": ["varisat-checker/src/state.rs: check_step, check_proof, process_unit_conflicts", "varisat-checker/src/clauses.rs: add_clause, store_unit_clause", "varisat-checker/src/rup.rs"]}
{"id": "C11", "title": "Verified failed assumptions are right", "statement": "Whenever a failed-assumptions step is accepted, the reported core is a subset of the assumptions currently in force, and the clauses given so far together with the core are unsatisfiable.", "quantifier": "every reachable checker state, every core, every list of hashes", "why_tests_cant": "ranges over all proofs and histories of incremental solving", "anchors": ["varisat-checker/src/state.rs: check_failed_assumptions_step, check_assumptions_step", "varisat-checker/src/sorted_lits.rs: is_subset"]}
{"id": "C12", "title": "Verified models are right", "statement": "Whenever a model step is accepted, the reported model does not contain contradictory literals and satisfies every clause given so far and every assumption in force.", "quantifier": "every reachable checker state, every proof", "why_tests_cant": "the checker keeps a simplified formula; deleting an irredundant clause with a bad justification would only show for particular proofs", "anchors": ["varisat-checker/src/state.rs: check_model_step, check_delete_clause_step, check_delete_var_step", "varisat-checker/src/clauses.rs: delete_clause"]}
{"id": "C13", "title": "User variable names are tracked one-to-one", "statement": "After any sequence of accepted steps no two variables share a user name, names removed from use can be re-used, hidden variables never appear in transcript items, and added clauses and assumptions only use variables that have a user name and are not witness variables.", "quantifier": "every sequence of steps that rename, hide, observe and delete variables", "why_tests_cant": "an interleaving of renames and deletions is needed to expose aliasing; the number of histories is unbounded", "anchors": ["varisat-checker/src/variables.rs: add_user_mapping, remove_user_mapping, ensure_sampling_var", "varisat-checker/src/state.rs: check_user_var_name_step, check_delete_var_step", "varisat-checker/src/transcript.rs"]}
{"id": "C14", "title": "The checker's clause store is a multiset of clauses", "statement": "After any history the stored clauses are exactly the added minus the deleted ones (as canonical literal sets with separate irredundant and redundant counts); every stored clause has an identifier that is never re-used, identifiers increase strictly, deleting an absent clause fails, and storage compaction never changes the content of any stored clause.", "quantifier": "every sequence of clause additions and deletions, including duplicates, tautologies, colliding hashes and any number of compactions", "why_tests_cant": "compaction happens only past a garbage threshold and collisions are rare, so tests seldom reach the interesting states", "anchors": ["varisat-checker/src/clauses.rs: add_clause, store_clause, delete_clause, collect_garbage, ClauseLits"]}
{"id": "C15", "title": "Changing hash width or solver names does not lose clauses", "statement": "After any sequence of hash-width changes and solver variable renames, looking up a clause by the hash computed with the current width and names finds every stored clause with that literal set.", "quantifier": "every history of renames, hash-width changes, additions and deletions", "why_tests_cant": "re-hashing is triggered lazily and must be right in every order of the triggering events", "anchors": ["varisat-checker/src/hash.rs: ClauseHasher::clause_hash, rehash", "varisat-checker/src/state.rs: check_step"]}
{"id": "C16", "title": "Emitted propagation traces are valid LRAT hints", "statement": "For each accepted derived clause the list of clause identifiers passed to proof processors is such that, assuming the clause false, each listed clause in turn is unit or (for the last one) falsified, and all listed identifiers denote clauses that are stored at that time.", "quantifier": "every reachable checker state, every accepted derivation", "why_tests_cant": "external LRAT checkers reject a proof for a single wrong hint; all derivations must be right", "anchors": ["varisat-checker/src/rup.rs: check_clause_with_hashes", "varisat-checker/src/processing.rs: CheckedProofStep", "varisat-lrat/src/lib.rs"]}
{"id": "C17", "title": "LRAT output is well formed and decodes to the processed steps", "statement": "The bytes written by WriteLrat, textual or binary, decode under an independent LRAT grammar to exactly the sequence of additions (identifier, literals, hints) and deletions implied by the processed steps, in order, with deletions batched; every addition line is complete even if deletions are open when flushing. When the checker accepts a proof file, the LRAT file converted from it is accepted by an independent LRAT checker for the same formula and derives the empty clause if a refutation was reported, provided the proof adds no clauses of its own and deletes no variable after a conflict is known. When a solver to which clauses are added without assumptions and which then solves writes LRAT itself, the file is accepted in the same way and derives the empty clause if the answer is that there is no model.", "quantifier": "every sequence of checked proof steps, both formats; every sequence of clauses, every heuristic state and every iteration order of the hash map for the solver", "why_tests_cant": "the batching state machine must be right for every interleaving of steps", "anchors": ["varisat-lrat/src/lib.rs: WriteLrat::process_step, open_delete, close_delete, write_ids, write_lits, flush", "varisat/src/solver.rs: add_proof_processor", "varisat/src/proof.rs: add_processor"]}
{"id": "C18", "title": "Canonicalisation and subset tests on clauses", "statement": "copy_canonical returns the strictly sorted list of the distinct literals of its input and reports a tautology exactly when some literal and its negation both occur; is_subset on canonical lists decides set inclusion (and strict inclusion when asked).", "quantifier": "every list of literals, every pair of sorted lists", "why_tests_cant": "off-by-one errors in merge loops show only for particular relative positions", "anchors": ["varisat-checker/src/sorted_lits.rs: copy_canonical, is_subset"]}
{"id": "C19", "title": "Checking a proof never panics", "statement": "For every sequence of proof steps (as can be decoded from any byte string) the checker either accepts or returns an error; it never panics.", "quantifier": "every proof byte string", "why_tests_cant": "ranges over all hostile inputs", "anchors": ["varisat-checker/src/state.rs: check_step, check_model_step, check_delete_clause_step, check_hash_bits_step", "varisat-checker/src/rup.rs"]}
{"id": "C20", "title": "Restart intervals follow the Luby sequence", "statement": "The i-th value produced by LubySequence::advance is the i-th element of the Luby sequence (defined by the standard recurrence), for every i.", "quantifier": "every index i", "why_tests_cant": "the test compares a finite prefix", "anchors": ["varisat/src/schedule/luby.rs: LubySequence::advance"]}
{"id": "C21", "title": "The decision heap always returns a most active available variable", "statement": "Under any sequence of adding, removing, bumping, decaying, rescaling and popping variables the heap contains exactly the available variables, positions and heap agree, and the popped variable has maximal activity among those available.", "quantifier": "every sequence of heap operations over any number of variables, for any totally ordered activity values", "why_tests_cant": "heap invariants are broken only by particular interleavings of bumps and removals", "anchors": ["varisat/src/decision/vsids.rs: Vsids::bump, make_available, remove_var, next, sift_up, sift_down", "varisat/src/decision.rs"]}
{"id": "C22", "title": "Clause header fields do not interfere", "statement": "Each header field (length, tier, deleted, mark, active, glue, activity bits) reads back the last value set for it (glue saturating at 63), irrespective of updates to the other fields.", "quantifier": "every sequence of field updates with arbitrary values", "why_tests_cant": "bit-field overlaps depend on values; the tests only check one mask", "anchors": ["varisat/src/clause/header.rs: ClauseHeader"]}
{"id": "C23", "title": "Clause storage keeps clauses intact, also across garbage collection", "statement": "After any sequence of clause additions, tier changes, header updates, deletions and garbage collections, each live clause has the literals it was added with, the per-tier counts equal the number of live clauses of the tier, no mark bits remain set, garbage accounting equals the size of deleted clauses, and reasons of propagated literals still refer to the same clause.", "quantifier": "every history of clause database operations", "why_tests_cant": "collection moves clauses and rewrites references; only particular histories expose a stale reference", "anchors": ["varisat/src/clause/alloc.rs: ClauseAlloc", "varisat/src/clause/db.rs", "varisat/src/clause/gc.rs: collect_garbage", "varisat/src/clause/reduce.rs"]}
{"id": "C24", "title": "Unit propagation is sound and complete", "statement": "Starting from consistent watch lists, propagate either ends with every clause having a true literal or two non-false literals (no unit or falsified clause is missed) and every newly assigned literal implied by the clauses and the earlier assignments, or returns a clause that is false under the current assignment; the clauses are only permuted.", "quantifier": "every clause set, every assignment trail, every watch configuration satisfying the invariant", "why_tests_cant": "lazy watch updates with blocking literals can miss a clause only under rare configurations", "anchors": ["varisat/src/prop.rs: propagate", "varisat/src/prop/long.rs: propagate_long", "varisat/src/prop/binary.rs: propagate_binary", "varisat/src/prop/watch.rs"]}
{"id": "C25", "title": "Conflict analysis learns implied, asserting clauses", "statement": "For every conflict at a positive decision level the learned clause (after minimisation) is implied by the clauses, is false under the current assignment, has exactly one literal of the current decision level, which is at position 0, and the returned level is the highest level of the other literals and is that of the literal at position 1.", "quantifier": "every conflicting state reachable by propagation, any implication graph", "why_tests_cant": "implication graphs are unbounded; minimisation with a level Bloom filter must be right for all of them", "anchors": ["varisat/src/analyze_conflict.rs: analyze_conflict, minimize_clause, add_literal"]}
{"id": "C26", "title": "Backtracking restores the earlier assignment", "statement": "backtrack(level) removes exactly the assignments made after that level, makes their variables available for decisions again, remembers their last values, and leaves everything at or below the level as it was; going to a level at or above the current one does nothing.", "quantifier": "every trail and every level", "why_tests_cant": "must hold for every search history", "anchors": ["varisat/src/prop/assignment.rs: enqueue_assignment, backtrack, restart, full_restart"]}
{"id": "C27", "title": "solve() == Ok(true) comes with a model of all added clauses and assumptions", "statement": "Whenever solve returns Ok(true), model() assigns every user variable at most once and satisfies every clause added so far and every assumption currently set; over hidden variables, it can be extended to do so.", "quantifier": "every history of add_clause, assume, and solve calls, any heuristics, any restart and clause deletion schedule", "why_tests_cant": "the set of formulas and search histories is infinite", "anchors": ["varisat/src/solver.rs: Solver::solve, model", "varisat/src/cdcl.rs: conflict_step", "varisat/src/model.rs: reconstruct_global_model", "varisat/src/load.rs: load_clause"]}
{"id": "C28", "title": "solve() == Ok(false) means unsatisfiable, with a correct failed core", "statement": "Whenever solve returns Ok(false), the clauses added so far together with the current assumptions are unsatisfiable; failed_core() returns a subset of the assumptions such that the clauses and the core are unsatisfiable.", "quantifier": "every history of add_clause, assume and solve calls", "why_tests_cant": "an unsound learned clause or a stale assumption shows only for particular histories", "anchors": ["varisat/src/solver.rs: Solver::solve, failed_core", "varisat/src/cdcl.rs", "varisat/src/assumptions.rs: enqueue_assumption, analyze_assumption_conflict"]}
{"id": "C29", "title": "Loading a clause does not change the meaning of the formula", "statement": "After add_clause the set of models over the user's variables is exactly the previous one intersected with the models of the clause, whatever duplicates, tautologies, already true or already false literals it contains.", "quantifier": "every clause, every reachable solver state", "why_tests_cant": "load_clause has many special cases depending on current assignments", "anchors": ["varisat/src/load.rs: load_clause", "varisat/src/unit_simplify.rs: resurrect_unit"]}
{"id": "C30", "title": "Variable mappings stay consistent bijections", "statement": "Under any sequence of variable creation, use, hiding, observing and removal the user/global and global/solver maps remain mutually inverse partial injections, a variable returned as new was unused, and hidden names are recycled only after being freed.", "quantifier": "every sequence of variable operations", "why_tests_cant": "three name spaces with free lists; aliasing needs particular interleavings", "anchors": ["varisat/src/variables.rs", "varisat/src/variables/var_map.rs: VarMap, VarBiMap"]}
{"id": "C31", "title": "Simplification at level 0 preserves the formula", "statement": "Removing satisfied clauses and false literals using proven units keeps the formula (with the units) logically equivalent and never creates an empty or unit clause after complete propagation.", "quantifier": "every fully propagated level-0 state", "why_tests_cant": "depends on arbitrary states", "anchors": ["varisat/src/unit_simplify.rs: prove_units, unit_simplify", "varisat/src/binary.rs: simplify_binary"]}
{"id": "C32", "title": "Clause database reduction only deletes redundant, non-reason clauses", "statement": "reduce_locals and reduce_mids never delete an irredundant clause or the reason of an assigned literal, never leave marks, and keep tier counts right, so solver answers do not depend on deletion schedules.", "quantifier": "every database state and every activity/glue valuation", "why_tests_cant": "schedules and activities vary without bound", "anchors": ["varisat/src/clause/reduce.rs", "varisat/src/clause/db.rs: try_delete_clause"]}
{"id": "C33", "title": "DRAT output decodes to the emitted steps", "statement": "The textual and the binary DRAT writers emit, for every sequence of native proof steps without incremental features, exactly one addition per derived clause or unit and one deletion per deleted clause, in order, and the bytes decode unambiguously under an independent DRAT grammar.", "quantifier": "every sequence of proof steps", "why_tests_cant": "ranges over all proofs and literals", "anchors": ["varisat/src/proof/drat.rs: write_step, write_binary_step", "varisat/src/proof/map_step.rs"]}
{"id": "C34", "title": "Hash width bookkeeping keeps hashes decodable", "statement": "The number of hash bits written into a native proof always stays within 6..=64 (so shifts are defined), is announced before the first step that uses it, and the written hash is the high part of the full hash, which equals the hash the checker computes for the same clause.", "quantifier": "every sequence of proof steps and clause counts", "why_tests_cant": "depends on unbounded clause counts", "anchors": ["varisat/src/proof.rs: write_varisat_step, clause_count_delta", "varisat-checker/src/hash.rs"]}
{"id": "C35", "title": "Self-checking aborts rather than returning an unverified answer", "statement": "With self checking enabled every step is handed to the checker before solve returns, and a rejected step never leads to a normal return; after an I/O or processor error solve returns that error once and leaves the solver in a documented state.", "quantifier": "every history of solver calls and every step at which an error may occur", "why_tests_cant": "failures may be injected at any step", "anchors": ["varisat/src/proof.rs: add_step, handle_self_check_result, handle_io_errors", "varisat/src/solver.rs: Solver::solve, check_for_solver_error"]}
{"id": "C36", "title": "Clause hashes depend only on the literal set", "statement": "clause_hash is invariant under permutation of the literals, and the hash of a clause is the xor of the hashes of its parts, so a reason clause can be hashed from its propagated literal and the rest.", "quantifier": "every list of literals and every permutation", "why_tests_cant": "permutations of unbounded lists", "anchors": ["varisat-internal-proof/src/lib.rs: clause_hash, lit_hash, lit_code_hash"]}
{"id": "C37", "title": "The glue level of a clause is its number of distinct decision levels", "statement": "compute_glue returns the number of distinct decision levels among the literals and leaves its scratch flags all false, for clean scratch flags and, in particular, in the states of the solver between calls as long as no solve has failed with a core of one literal.", "quantifier": "every clause and every level assignment; every history of calls", "why_tests_cant": "quantifies over all clauses and assignments", "anchors": ["varisat/src/glue.rs: compute_glue", "varisat/src/tmp.rs"]}
{"id": "C38", "title": "Configuration updates are validated before taking effect and merge field-wise", "statement": "Merging updates gives for each option the latest value set, and an update is applied only if every value in it is within the documented range; otherwise no option changes.", "quantifier": "every list of updates", "why_tests_cant": "combinations of options and values are unbounded", "anchors": ["varisat/src/config.rs", "varisat-internal-macros/src/lib.rs"]}
{"id": "C39", "title": "No sequence of calls makes the solver fail an internal assertion", "statement": "No history of calls makes the solver index out of bounds, miss the name of a variable or fail one of its own assertions; it panics only as documented or when the clause allocator is full.", "quantifier": "every history of API calls, every configuration, heuristic state, clause deletion schedule and behaviour of proof writer and checker", "why_tests_cant": "the histories are unbounded and internal assertions fail only in particular states", "anchors": ["varisat/src/solver.rs: Solver", "varisat/src/variables.rs", "varisat/src/load.rs", "varisat/src/cdcl.rs", "varisat/src/unit_simplify.rs"]}
{"id": "C40", "title": "Hiding a variable projects the formula, observing internal variables extends it", "statement": "After hide_var the solver allows exactly the assignments of the remaining variables that some value of the hidden variable completes to an allowed one, and the name no longer refers to that variable. observe_internal_vars gives hidden variables names without adding or removing assignments of the visible variables, and returns nothing if nothing is hidden. Calls other than these and add_clause change no allowed assignment.", "quantifier": "every state after every history of API calls, every variable", "why_tests_cant": "it speaks about the set of all models in all reachable states, including states with learned clauses and simplified variables", "anchors": ["varisat/src/solver.rs: hide_var, observe_internal_vars", "varisat/src/variables.rs: set_sampling_mode, observe_internal_vars"]}
{"id": "C41", "title": "The hints in a generated proof let the checker retrace each derivation", "statement": "The hashes the solver writes with a learned clause, with the units it proves and with a failed core are those of clauses it has stored, and in the order written unit propagation with these clauses derives the step: from the negated clause (or the core) and the known units each clause yields at most one new literal until one clause is false; a unit's clause has only literals already false beside it.", "quantifier": "every conflict, every unit and every failed assumption in every reachable state of the search", "why_tests_cant": "the hints come from implication graphs of arbitrary shape and size, and a wrong order or a missing clause shows only for particular ones", "anchors": ["varisat/src/analyze_conflict.rs: analyze_conflict, clause_hashes, unordered_clause_hashes", "varisat/src/assumptions.rs: analyze_assumption_conflict", "varisat/src/unit_simplify.rs: prove_units"]}
{"id": "C42", "title": "The checker accepts every valid proof", "statement": "A proof whose steps are all valid is accepted: a derived clause that follows by unit propagation from present clauses given by their hashes in propagation order, the deletion of a present clause that is redundant, satisfied by a unit or subsumed by the clause derived before it, consistent models, refuted cores of the assumptions, and correct use of names. Whatever the checker rejects is not valid.", "quantifier": "every history of loaded clauses and steps, every proof file holding such steps, every iteration order of the hash map, every width of the hashes", "why_tests_cant": "tests run the checker on proofs of one solver; other correct proofs of any size may be rejected, for example through hash collisions, renamed variables or an unlucky order of candidates", "anchors": ["varisat-checker/src/state.rs: check_step", "varisat-checker/src/rup.rs: check_clause_with_hashes", "varisat-checker/src/clauses.rs: store_clause, delete_clause", "varisat-checker/src/variables.rs"]}
{"id": "C43", "title": "The self check never rejects what the solver does", "statement": "With enable_self_checking called first, no later sequence of calls ends in a failed check: every clause, derivation, deletion, renaming, model and failed core the solver hands to its internal checker is accepted.", "quantifier": "every history of API calls after the setup, every configuration, heuristic state and schedule, every behaviour of the proof writer, as long as literals are 32 bit and fewer than 2^32 literals are stored", "why_tests_cant": "each test checks one run; a step that the checker rejects may need a rare combination of simplification, renaming, deletion and hints", "anchors": ["varisat/src/proof.rs: add_step, add_clause, solve_finished, close_proof", "varisat/src/solver.rs: enable_self_checking, solve", "varisat/src/cdcl.rs", "varisat/src/unit_simplify.rs", "varisat/src/load.rs", "varisat/src/assumptions.rs", "varisat-checker/src/state.rs: check_step"]}
{"id": "C44", "title": "The proof file the solver writes is accepted by a separate checker", "statement": "With write_proof(ProofFormat::Varisat) called first, the bytes written until close_proof are a proof that a fresh checker, given the clauses added before the first call of solve, accepts: every step decodes and checks, whatever is done between and after the calls of solve (more clauses, assumptions, hidden and new variables).", "quantifier": "every history of API calls after write_proof in which the formula is given before the first solve, every configuration, heuristic state and schedule, every way the file is split into reads, every iteration order of the checker's hash map, every width of the hashes", "why_tests_cant": "each test checks one file; shortened hashes, moved clauses, renamed variables and deleted clauses may combine so that only a particular run writes a step that does not check", "anchors": ["varisat/src/proof.rs: add_step, add_clause, write_varisat_step, close_proof", "varisat/src/solver.rs: write_proof, close_proof", "varisat-internal-proof/src/binary_format.rs: write_step, parse_step", "varisat-checker/src/lib.rs: add_formula, check_proof", "varisat-checker/src/state.rs: check_proof, check_step"]}
{"id": "C45", "title": "The DRAT file the solver writes is a valid DRAT proof", "statement": "With write_proof(ProofFormat::Drat) or write_proof(ProofFormat::BinaryDrat) called first, the bytes written until close_proof decode to additions and deletions that are a DRAT proof for the formula: every added clause follows by reverse unit propagation from the clauses that are there at that point, every deleted clause is there and is no unit clause, also if the reader ignores deletions. If solve returned false, unit propagation on the clauses at the end finds a contradiction, so the file is a refutation.", "quantifier": "every history of API calls after write_proof that does not panic, in which the formula is given before the first solve and no variable is hidden before it, every configuration, heuristic state and schedule, both formats, every choice of ignored deletions", "why_tests_cant": "each test checks one file with one external checker; a missing addition, a deletion of a clause that is needed or is not there, or a wrong literal may only show for particular runs of simplification, reduction and learning", "anchors": ["varisat/src/proof.rs: add_step, close_proof", "varisat/src/proof/drat.rs: write_step, write_binary_step", "varisat/src/solver.rs: write_proof, close_proof, solve", "varisat/src/cdcl.rs", "varisat/src/unit_simplify.rs", "varisat/src/load.rs"]}
{"id": "C46", "title": "Variable numbers stay small", "statement": "If the calls name variables with an index below n only, and h of the calls hide a variable or ask for a new one, then every variable handed out by new_var, observe_internal_vars or in a model has an index below n + h: the numbers of hidden and deleted variables are used again, so that the numbers never overflow for a program that names and creates at most Var::max_count variables.", "quantifier": "every history of API calls, every n, every order in which the free lists are iterated, every configuration", "why_tests_cant": "recycling depends on the iteration order of hash sets and on when simplification deletes hidden variables; a leak of numbers shows only over long histories", "anchors": ["varisat/src/variables.rs: global_from_user, new_user_var, observe_internal_vars, solver_from_global, delete_global_if_unused, remove_solver_var", "varisat/src/solver.rs: new_var, hide_var, observe_internal_vars, model"]}
{"id": "C47", "title": "The command line solver reports the right result", "statement": "If the solver tool ends, then: exit code 10 means that the settings are valid, the input is an accepted DIMACS file and the output is the line 's SATISFIABLE' followed by a 'v' line whose numbers, read in decimal and ended by 0, are a consistent list of literals such that every assignment that agrees with it satisfies the formula; exit code 20 means that the accepted formula is unsatisfiable, with the line 's UNSATISFIABLE'; exit code 1 with no such output means invalid settings or an input that is not accepted; exit code 0 with 's UNKNOWN' only happens with a proof or self-check option. Without these options the exit code is determined by settings and input, and the only panic is that of a full clause allocator.", "quantifier": "every sequence of bytes as input, every way to split it when reading, every list of settings, every option of the tool, every run length", "why_tests_cant": "the input is arbitrary text of any size; handing the formula to the solver in pieces and printing the model are only right if no piece and no sign is lost for any split and any model", "anchors": ["varisat-cli/src/main.rs: main, main_with_err", "varisat/src/solver.rs: add_dimacs_cnf, add_formula, solve, model, Drop for Solver", "varisat-dimacs/src/lib.rs: DimacsParser::parse_incremental", "varisat-formula/src/lit.rs: Display for Lit"]}
{"id": "C48", "title": "The proof options of the command line solver", "statement": "With --proof and a file that can be written, and without --self-check, the tool never prints 's UNKNOWN': the exit code is determined by settings and input as without a proof. If it is 10 or 20, then a native proof file is accepted by a fresh checker that is given the parsed input (with a transcript if every clause with a literal and its negation only has variables at most as large as earlier ones), and a DRAT or binary DRAT file parses as a valid DRAT proof over the input that ends in a refutation if the exit code is 20. With --self-check, or a conversion to LRAT, the check on the fly never fails. An LRAT or compressed LRAT file parses, is accepted by an independent LRAT checker for the parsed input, and derives the empty clause exactly if the exit code is 20 (and the input has no empty clause), also together with --self-check; the tool does not print 's UNKNOWN' then either.", "quantifier": "every sequence of bytes as input, every way to split it when reading, every list of settings, every heuristic state, every way the checker splits its reads, every iteration order of its hash map, every run length", "why_tests_cant": "each test checks the file of one input; options, parser, solver, writer and checker have to fit together for inputs and files of any size", "anchors": ["varisat-cli/src/main.rs: main_with_err", "varisat/src/solver.rs: write_proof, enable_self_checking, add_proof_processor, add_dimacs_cnf, close_proof", "varisat/src/proof.rs", "varisat-checker/src/lib.rs: add_formula, check_proof", "varisat-lrat/src/lib.rs: WriteLrat"]}
{"id": "C49", "title": "The command line checker reports the right result", "statement": "The checking tool always ends. Exit code 0 is the same as the line 's VERIFIED' and means that the input is an accepted DIMACS file; otherwise the code is 1; all lines before start with 't ', and a conversion file is written if it was asked for. If the proof is verified and the line 't UNSAT' is printed, the input together with the clauses the proof itself adds is unsatisfiable. If it is verified with 't SAT' and without 't UNSAT', the input has no empty clause, and the proof adds no clause and deletes no irredundant clause or variable, then the input is satisfiable. (Without these restrictions this is false, 's VERIFIED' alone does not mean any result, and some accepted inputs make the tool panic.) For an input whose tautologies use no new variables, the proof that the solving tool writes for it is verified, with 't UNSAT' for an unsatisfiable and 't SAT' without 't UNSAT' for a satisfiable answer. The LRAT and compressed LRAT files that the checking tool converts a verified proof to are accepted by an independent LRAT checker for the formula in the input and derive the empty clause when 't UNSAT' is printed, in particular for every proof the solving tool wrote.", "quantifier": "every sequence of bytes as input and as proof, every way to split them when reading, every iteration order of the hash map, every combination of conversion options", "why_tests_cant": "the proof file is arbitrary data that may be crafted; that no such file makes the tool report a wrong result is a statement about all files", "anchors": ["varisat-cli/src/check.rs: check_main", "varisat-cli/src/check/transcript.rs: Transcript", "varisat-checker/src/lib.rs: add_dimacs_cnf, add_formula, check_proof", "varisat-checker/src/transcript.rs"]}
{"id": "C50", "title": "Calls end", "statement": "Every call other than solve ends, in every state. In solve, every step of the search (propagation, decisions, the handling of one conflict with the reductions before it) ends, and with v variables in use there are less than 2^v conflicts between two restarts. Because the intervals between restarts grow, solve ends; with at most 62 variables every history of calls ends for every configuration, and for a history that adds clauses, variables and assumptions and solves, the answer of the last solve is true exactly if an assignment satisfies the clauses and the assumptions, unless the clause allocator is full. The answers do not depend on the bound on the number of steps that the model uses. The command line solver ends for every input that is not accepted or uses variables up to 62 only, and without proof options it then exits with 10 for a satisfiable and 20 for an unsatisfiable input.", "quantifier": "every history of API calls, every configuration, every iteration order of hash sets, every checker and writer; the statement about solve as a whole for 2^v below luby_restart_interval_scale * 2^63", "why_tests_cant": "termination is a statement about unboundedly many steps; tests with a timeout cannot distinguish slow from stuck, and the argument needs a potential over all reachable states", "anchors": ["varisat/src/schedule.rs: schedule_step", "varisat/src/schedule/luby.rs", "varisat/src/cdcl.rs: conflict_step, find_conflict", "varisat/src/solver.rs: solve"]}
{"id": "C51", "title": "Answers depend only on the meaning of what was added, and models can be enumerated", "statement": "If two solvers, however they are configured, checked and used before, are given clauses and assumptions that allow the same assignments, solve gives the same answer; assumptions count like unit clauses for one call. A user who calls solve, takes the model, forbids it with a clause and starts over until Ok(false) gets a list of models such that every assignment allowed by the clauses and assumptions agrees with exactly one of them, and every assignment that agrees with one is allowed. The loop ends for every formula (proved for up to 62 variables) after at most 2^n models, unless the clause allocator is full.", "quantifier": "all histories of calls, configurations, orders of hash sets, checker verdicts and write failures, all clauses and assumptions, any number of rounds", "why_tests_cant": "a test compares a few runs; that no history, configuration or earlier search can change an answer, and that no solution is lost or listed twice, is a statement about all of them", "anchors": ["varisat/src/solver.rs: Solver::solve, Solver::model, Solver::assume, ExtendFormula for Solver", "varisat/src/cdcl.rs: conflict_step", "varisat/src/load.rs: load_clause", "varisat/src/model.rs: reconstruct_global_model"]}
{"id": "C52", "title": "Several new variables at once are distinct and unused", "statement": "new_vars, new_lits, new_var_iter and new_lit_iter give exactly as many variables or positive literals as asked for, also if an iterator is polled after its end; new_vars and new_lits never panic on a missing item. For a CnfFormula with room for them the variables are different from each other and from every variable in the clauses, the clauses stay as they are and the variable count grows by the number asked for. For a Solver they are different from each other and from every variable the user has, each stands for a solver variable of its own, no other variable changes its meaning, and the effect is that of as many calls of new_var.", "quantifier": "every formula built by any operations, every reachable solver, every number of variables, every number of polls of the iterator", "why_tests_cant": "freshness is about every formula and every history of hidden, observed and recycled variables before the call; tests ask for a few variables of an empty solver", "anchors": ["varisat-formula/src/cnf.rs: ExtendFormula::{new_var, new_lit, new_vars, new_lits, new_var_iter, new_lit_iter}, NewVarIter, tuple_from_iter", "varisat/src/solver.rs: ExtendFormula for Solver", "varisat/src/variables.rs: new_user_var"]}
{"id": "C53", "title": "The progress report does not interfere and shows true numbers", "statement": "Logging the progress of solve changes neither answers nor states. A report appears exactly at states whose number of conflicts is a positive multiple of 5000; it shows that number in thousands, the restarts and, for each tier, the number of long clauses of that tier, which together are all long clauses. It also shows the number of binary clauses. The number of variables is that of the solver without those whose value is fixed, and its computation does not underflow (proved for the first solve; false for later ones).", "quantifier": "every history of calls, every state of every search", "why_tests_cant": "a report needs 5000 conflicts and is only text in a log; the numbers are kept by counters that every step of the solver must maintain", "anchors": ["varisat/src/schedule.rs: schedule_step", "varisat/src/prop/assignment.rs: Trail::top_level_assignment_count, Trail::clear", "varisat/src/clause/db.rs: count_by_tier", "varisat/src/binary.rs: BinaryClauses::count"]}
