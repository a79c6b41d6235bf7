# Formal model of varisat in Rocq (Coq 8.16.1)

The model lives in `rocq/theories`.  It is a hand translation of the Rust source
in `/repo` into total Gallina functions.  Every definition of the model carries
a comment with the file and the lines it models, and says where it simplifies.
`properties.jsonl` lists the properties, `MANIFEST.json` the theorems for each,
`seeded/LOG.jsonl` the wrong programs the theorems were tried against.

## Conventions

* `u32`/`u64`/`usize` values are `N`.  Where wrap-around or range matters it is
  written explicitly (`mod 2^64`, range predicates).  List lengths, positions in
  vectors and fuel are `nat`.
* A literal is its code (`N`), `2*index` or `2*index+1`, as in `lit.rs`.
* A function taking `&mut` returns the new value.  A panic (index out of bounds,
  failed `assert!`, `unreachable!`, overflow) is an explicit error value where it
  can be reached.
* Loops are structural recursion, folds or recursion on fuel.  Running out of
  fuel is a distinct result (`NoFuel`, `PFuel`, `a_fuel`); theorems speak about
  runs that return, and say so where fuel is proved to suffice.
* `debug_assert!` is not modelled (release builds), overflow is modelled as
  wrapping where it can happen and as impossible where a comment says so
  (counters below 2^64).
* Semantics are stated in `Spec.v` only: an assignment is a function from
  variable index to `bool`, a clause is true if one of its literals is.
* Files `P_*.v` contain the property theorems (named `Cnn_...`), the non-vacuity
  examples and `Print Assumptions`.  Theorems named `..._refuted` give a witness
  against a reading of the property that one could expect to hold; `..._partial`
  proves a part, and its comment says what is missing.

## What is modelled, and where

| crate / file in /repo | model | properties | proofs |
|---|---|---|---|
| varisat-formula/src/lit.rs | `Lit.v` | C01 | `LitProofs`, `P_Lit` |
| varisat-formula/src/cnf.rs | `Cnf.v` | C02 | `CnfProofs`, `P_Cnf` |
| varisat-formula/src/cnf.rs (provided methods of `ExtendFormula`) | `NewVars.v` | C52 | `P_NewVars` |
| varisat-internal-proof/src/vli_enc.rs | `Vli.v` | C03 | `Bits`, `VliProofs`, `P_Vli` |
| varisat-internal-proof/src/binary_format.rs, lib.rs | `BinFormat.v`, `Hash.v` | C04, C36 | `BinFormatProofs`, `HashProofs`, `P_BinFormat`, `P_Hash` |
| varisat-dimacs/src/lib.rs | `Dimacs.v` (reference: `DimacsSpec.v`) | C05-C08 | `Dimacs*Proofs`, `P_Dimacs` |
| varisat-checker/src/*.rs | `SortedLits.v`, `Checker.v` | C09-C16, C18, C19, C42 | `Checker*`, `Rup`, `P_Checker*`, `P_SortedLits` |
| varisat-lrat/src/lib.rs, varisat/src/proof/drat.rs | `Lrat.v` (references: `LratSpec.v`, `DratSpec.v`) | C17, C33, C45 | `LratProofs`, `LratReplay`, `LratEarly`, `P_Lrat`, `DratValid`, `P_DratFile` |
| varisat/src/schedule/luby.rs | `Luby.v` | C20 | `P_Luby` |
| varisat/src/config.rs, varisat-internal-macros | `Config.v` | C38 | `P_Config` |
| varisat/src/decision/vsids.rs, floats | `Vsids.v`, `F32.v` | C21 | `F32Proofs`, `VsidsProofs`, `VsidsWf`, `P_Vsids` |
| varisat/src/clause/header.rs, alloc.rs | `ClauseAlloc.v` | C22, C23 | `P_Header` |
| varisat/src/clause/{db,gc,reduce,assess,activity}.rs, glue.rs | `ClauseDb.v` | C23, C32, C37 | `DbProofs`, `P_Db`, `P_Analyze` |
| varisat/src/prop.rs, prop/*.rs | `Search.v` | C24, C26 | `SearchBase`, `Propagate`, `P_Search` |
| varisat/src/analyze_conflict.rs | `Analyze.v` | C25, C41 | `AnalyzeProofs`, `AnalyzeHints`, `FailedHints`, `P_Analyze`, `P_Hints` |
| varisat/src/{context,state,tmp,variables}.rs, variables/*.rs, proof.rs, proof/map_step.rs | `SolverCtx.v` | C30, C34, C35, C43-C46 | `CtxFrame`, `VarsProofs`, `CtxEvents`, `P_Vars`, `VarsBound`, `P_Compact`, `P_Proof` |
| varisat/src/{load,unit_simplify,binary,assumptions,cdcl,decision,model,schedule,solver}.rs | `Solver.v` | C27-C29, C31, C39, C40, C43-C45, C50, C51 | `SolverInv`, `SolverSimplify`, `SolverAdd`, `SolverLoad`, `SolverFailed`, `SolverSearch`, `SolverSolve`, `P_Solver`, `CtxRange`, `ProofLog`, `ProofSim`, `ProofDerive`, `ProofUnits`, `ProofLoad`, `ProofSearch`, `P_SelfCheck`, `ProofTwin`, `ProofReorder`, `ProofEarly`, `ProofAccept`, `P_ProofFile`, `CtxKinds`, `P_ProofTranscript`, `P_DratFile`, `Terminate`, `TerminateLoop`, `P_Terminate`, `P_Glue`, `P_Enumerate` |
| varisat/src/schedule.rs (progress report), varisat/src/prop/assignment.rs (`top_level_assignment_count`) | `Report.v` | C53 | `P_Report`, `P_ReportBin` |
| varisat-cli/src/main.rs, `add_dimacs_cnf` | `Cli.v` | C47, C48, C50 | `P_Cli`, `P_CliProof`, `P_CliTerminate` |
| varisat/src/solver.rs (`add_proof_processor`), varisat-cli/src/main.rs (LRAT formats) | `CliLrat.v` | C17, C48 | `LratEarly`, `P_SolverLrat` |
| varisat-cli/src/check.rs, check/transcript.rs | `CliCheck.v` | C49 | `P_CliCheck`, `P_CliLrat`, `P_CliRound` |

Simplifications (each is repeated in the comment of the definition):

* Vectors that are indexed by variables or literals are total maps in the solver
  model; the invariants show that only variables below the count are used.
* The solver model finds the literals and headers of a clause through its
  reference; that the words in the buffer behave like this is C22/C23 over
  `ClauseAlloc.v`.
* `HashMap`/`HashSet` iteration orders and `pick`ing from a set of free names are
  a parameter (`v_pick`), over which the theorems quantify.
* `sort_unstable` is a stable insertion sort where keys are distinct or equal
  keys belong to equal elements.
* The checker inside of the solver (`proof.rs`) is an arbitrary function from the
  log of everything it was given to a verdict, and the writer an arbitrary
  function from the bytes to success; both are quantified over.
* Proof processors of the checker are a list of flags; their calls are logged.
* Logging (the numbers of the progress report are in `Report.v`, the text of its
  line is not modelled), `Display` of errors, serde, the C interface, memory
  allocation failure, the parsing of command line arguments and of TOML, failures
  to open or read files, and `build.rs` files and tests are not modelled.
* `run` and `run_all` take fuel.  C50 shows that the amount does not matter for
  the result and that all calls end, `solve` as a whole if
  `2^v < luby_restart_interval_scale * 2^63` for `v` variables in use: the Luby
  iterator is a `u64`, so that the intervals between restarts do not grow beyond
  `2^63` times the scale.  Without that bound termination is open.  Fuel of the
  inner loops (propagation, the depth first search of clause minimization, the
  rounds of `find_conflict`) is proved to suffice without restriction.

## How the solver is proved

`SolverInv.v` defines the invariant `inv fr F A c`: the state `c` represents the
problem `F` under the assumptions `A`.  It
consists of the invariant of the trail and of the watches (`SearchBase`,
`Propagate`), of the clause database (`DbProofs`), of the variable maps
(`VarsProofs`), of the decision heap (`VsidsWf`), and of three semantic parts:
every model of `F` satisfies all stored clauses, units and values of removed
variables (`iv_sound`); every assignment satisfying the irredundant clauses,
units and values is a model of `F` (`iv_comp`); what is marked unused does not
occur (`iv_used`).  Each function of `Solver.v` has a lemma `..._spec` that it
keeps the invariant and panics only in allowed ways (`CtxFrame.spec`).
`P_Solver.v` derives the properties for every history of calls by induction.

`F` is a predicate on assignments of the *internal* variables.  What the user
relies on is a predicate `S` on assignments of the *visible* variables, tied to
`F` by the current names (`SolverLoad.tied`): `S b` iff some model of `F` agrees
with `b` on all named variables.  Hiding a variable therefore quantifies it away,
and its name may be used again for another variable; `observe_internal_vars`
names hidden variables again.  `P_Solver.means` follows `S` along a history of
calls; `solutions` is the same as a function, for histories that do not name
hidden variables again; without hidden variables both are the set of models of
the added clauses (`solutions_added`).

### The self check (C43)

`ProofLog.live c P` says that the log of the checker is a valid history in the
sense of C42 and satisfies `P`.  `ProofSim.rel` is the `P` used throughout: the
checker's database, as a function of the log, holds exactly the clauses, binary
clauses and fixed values of the solver, under global names, and knows the same
names, modes and assumptions.  Lemmas `..._sim` follow each function of
`Solver.v`: every step it writes is valid (the derivations use C41), and the
relation holds again afterwards.  `P_SelfCheck.v` does the induction over the
history; with C42, no check fails.

### The proof file (C44)

A run that writes a file has a twin with, in addition, a checker that accepts
everything (`ProofTwin.tw_run_all`: the twin differs in its log and in the hashes
it collects, which are also collected for the file).  C43 makes the log of the twin a
valid history.  The file differs from that log in two ways, and
`ProofReorder.file_valid` shows that it stays valid: hashes are shortened to the
announced width, and the clauses of the formula all come first.  The latter
needs that before the first `solve` only names, modes, assumptions and
deletions of satisfied clauses are written (`ProofEarly`).  `ProofAccept` goes
from the valid history to the bytes with C04 and C42.  `CtxRange` bounds the
numbers that are written: variables are below the counts of variables, hashes
have 64 bits.

With a transcript the checker looks up user names while it checks, and panics if
one is missing.  `CheckerTranscript.sim` shows that otherwise nothing changes,
and `told_history` says for which valid histories no name is missing
(`C42_valid_transcript`).  `CtxKinds` shows which calls write steps that add
clauses or assume literals, so that `C44_transcript` follows for plain use.

### The DRAT file (C45)

`DratSpec.v` says what a DRAT proof is, with clauses as lists of DIMACS numbers
and unit propagation as an inductive predicate; nothing of the model is used.
Only reverse unit propagation is described: the solver never adds a clause that
needs more.  The twin of a run that writes a DRAT file has a valid log as above.
`DratValid.history_drat` turns a valid history without assumptions and added
clauses into a DRAT proof (`covers`: the clauses of the DRAT proof include, with
multiplicity, those of the checker; the checker merges unit clauses and forgets
deleted variables, a DRAT checker does neither).  `P_DratFile` shows that the file is
the rendering of the log, that a run that writes such a file never ends with
failed assumptions (it would panic), and that the answer `false` leaves a
contradiction in the log.

## Findings

Where a property does not hold as one would expect, a theorem `..._refuted`
gives a concrete run of the model, and the code was read again to confirm it.

### Solver

1. *Failed core too small* (`C28_core_unsat_refuted`).
   `analyze_assumption_conflict` (assumptions.rs:172-254) flags variables to visit
   and clears a flag when it meets the variable on the trail.  Variables whose
   value was proved at level 0 are no longer on the trail, so their flags stay
   set.  A later analysis takes these for visited and leaves assumptions out of
   the core.  The same flags are scratch space of `compute_glue`, which then
   counts too few levels (`C37_reachable_refuted`).  Flags stay only after an
   assumption that is false at level 0, for which the core has exactly one literal;
   `C28_core_unsat_partial` proves the core correct in all other histories.
2. *Index out of bounds in `model()`* (`C27_model_returned_refuted`): `solve`,
   `new_var`, `solve` keeps the model found first, which has no entry for the new
   variable.
3. *`enable_self_checking` or `write_proof` after `assume`*
   (`C34_late_checking_refuted`): only the flag for added clauses is tested, so
   names announced before are missing in the proof, which is rejected.
4. *A second `write_proof`* (`C34_second_proof_refuted`): the hash width is not
   announced again, so the second proof is rejected.
5. *The decision heap does not always return the most active variable*
   (`C21_next_max_refuted`): `make_unavailable` puts the last element in the place
   of the removed one and only sifts it down, although it may be more active than
   its new parent.
6. *The number of variables in the progress report can underflow*
   (`C53_variables_refuted`): it is the number of solver variables minus the number
   of units ever removed, and the numbers of removed variables are used again.
   Only with logging; a panic with overflow checks, a huge number without.
7. *`hide_var` before the first `solve` and the name used again*: the proof file
   names variables by the numbers of the solver, a separate checker numbers those
   of the formula by their names; the file is rejected (`C44_hidden_refuted`).
   Harmless: `load_clause` does not reset `UnsatUnderAssumptions`; `restart` may
   keep decisions that are not assumptions.

### Checker

8. *A model step is accepted after the clauses were refuted*
   (`C12_model_after_unsat_refuted`), *and if it does not mention a unit*
   (`C12_unit_not_in_model_refuted`).
9. *Deleting a variable of the initial formula deletes a unit input clause*
   (`C12_deleted_input_variable_refuted`): a wrong model is accepted afterwards.
10. *`previous_irred_clause` survives `DeleteVar`*
    (`C12_stale_subsumption_refuted`, `C16_removal_hints_refuted`).
11. *Panics on crafted proofs* (`C19_..._refuted`): unknown variables in model and
    deletion steps, hash widths 0 and above 64, tautologies and hidden assumptions
    with a transcript, huge length fields.  Valid proofs are affected as well:
    `varisat --check` always has a transcript and panics if the input has a clause
    with a literal and its negation over a variable that is larger than those
    before it (`C44_transcript_refuted`).
12. *The error "no clause found for hash" leaves temporary assignments*
    (`C09_undo_after_unknown_hash_refuted`).
13. *`check_proof` returns `Ok` for proofs without refutation or model*
    (`C10_acceptance_means_unsat_refuted`), and the command line prints
    `s VERIFIED` on `Ok` (check.rs:71-72, `C49_verified_refuted`).  An empty
    clause in the input gives no line `t UNSAT`, and `t SAT` is printed for a model
    step that follows (`C49_sat_refuted`).  The summary of the last steps is never
    printed if nothing else follows (`C49_summary_refuted`).
14. *A sampling variable without user name is shown under its own index* in
    transcripts, which may be the user name of another variable
    (`C13_shared_transcript_name_refuted`).
15. *A removed solver name stays in use until the next rehash*
    (`C15_removed_name_refuted`).
16. *Deleting a variable after conflicting units* breaks the final report
    (`C16_final_refutation_refuted`); the report uses the next clause number
    without incrementing it.

### Formats

17. *Once refuted, added clauses consume no number* (`C17_fresh_number_refuted`).
18. *Textual LRAT omits pending deletions at the end*
    (`C17_pending_deletions_refuted`).
19. *A lone minus sign at the end of a DIMACS file is accepted as 0*
    (`C07_dangling_minus_refuted`).  A tab is not white space inside of clauses.

## Trusted base

* Coq's kernel (8.16.1), `vm_compute` included.  No kernel check is switched off.
* No axioms are declared.  `Print Assumptions` stands below the theorems; all are
  closed under the global context, except those of `P_Vsids.v` (C21), which use
  Flocq's description of floats by real numbers and through it axioms of the
  standard library: `ClassicalDedekindReals.sig_not_dec`,
  `ClassicalDedekindReals.sig_forall_dec`,
  `FunctionalExtensionality.functional_extensionality_dep` and
  `Classical_Prop.classic`.  (The list of axioms of loaded libraries also shows
  those of ssreflect's `Under_rel` module type; no theorem depends on them.)
* The reading of the Rust source: the model is not extracted from it.
