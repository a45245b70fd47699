# Formal model of dreal4 in Rocq: design

## 1. Scope and method

`/verif/rocq/theories` contains a Gallina model of dreal4, written by reading the C++ as text,
and theorems about that model.  Every model definition cites the file and lines it models, and says
where it simplifies.

| model files | model of | notes |
|---|---|---|
| `Dbl`, `MathConv` | `double` (Flocq binary64), `nextafter`, `util/math.cc` | one NaN; rounding to nearest even |
| `Interval`, `BoxHeap` | `util/interval`, `util/box.cc` | binary64 bounds, real points; `BoxHeap` has the shared tables and use counts |
| `Syntax`, `Order`, `FormulaCons`, `ExprAlg`, `Subst`, `Diff`, `DeltaStr` | drake's symbolic library and `symbolic/symbolic.cc` | constants are binary64; meaning over R in `Sem` |
| `Nnf`, `Tseitin`, `PredAbs`, `IteElim` | `util/nnfizer`, `naive_cnfizer`, `tseitin_cnfizer`, `predicate_abstractor`, `if_then_else_eliminator` | |
| `Filter`, `IEval`, `IbexConv`, `Contr` | `solver/filter_assertion`, `expression_evaluator`, `relational_formula_evaluator`, `util/ibex_converter`, `contractor/*` | IBEX is an oracle with a contract |
| `Icp`, `IcpPar` | `solver/brancher`, `icp_seq`, `icp_parallel` | small-step interleavings for the parallel search |
| `Theory`, `VarSet` | `solver/theory_solver.cc`, `HaveIntersection`, `GenerateExplanation` | |
| `Sat`, `Context` | `solver/sat_solver.cc`, `solver/context_impl.cc` | PicoSAT is an oracle |
| `Scoped`, `Options` | `util/scoped_*`, `util/option_value.h`, `smt2` options | |
| `Smt2`, `Smt2Out` | `smt2/parser.yy`, `smt2/driver.cc`, `smt2/term.cc` | commands and terms as trees; the scanner is `Scan` |
| `Minim`, `SpecMin`, `MinimProofs`, `ExamplesMin`, `PropertiesMin` | `context_impl.cc` 251-328, `context.cc` 57-63: Minimize and Maximize (C28) |
| `Api`, `SpecApi`, `ApiProofs`, `ApiTop`, `PropertiesApi` | `api/api.cc`: CheckSatisfiability, Minimize (C44) |
| `Dr`, `SpecDr`, `DrProofs`, `ExamplesDr`, `PropertiesApi` | `dr/parser.yy`, `dr/driver.cc`, `dr/run.cc`: .dr problems (C46) |
| `Forall`, `SpecForall`, `ContrFull`, `TheoryFull`, `ForallInner`, `ForallProofs`, `ForallEval`, `ExamplesForall`, `PropertiesForall` | `solver/forall_formula_evaluator.cc`, `contractor/contractor_forall.h`: evaluation and counterexample-guided pruning of quantified constraints (C32, C33); nlopt is an oracle |
| `Cache`, `SpecCache`, `CacheProofs`, `CacheLink`, `CacheCtx`, `CacheTop`, `ExamplesCache`, `PropertiesCache` | `solver/theory_solver.cc` 60-256 with its two caches, under histories of `context_impl.cc` (C48) |
| `SpecQuant`, `QuantTop`, `ExamplesQuant`, `PropertiesQuant`, `ExamplesSmt2Q`, `PropertiesSmt2Q` | the context of `context_impl.cc` over theory literals with quantifiers, pruned and evaluated by the code modelled in `Forall` (C01, C29).  Simplification: the answer of a contractor or evaluator is a function of the formula and the box |
| `SpecFaith`, `CtxFaith`, `MinFaith`, `ApiFaith`, `ExamplesFaith`, `PropertiesMinProblem` | after any calls, box and stack of the context (`context_impl.cc` 76-166, 196-316) have the points of the asserted problem; Minimize and Maximize over that problem (C28, C44) |
| `SpecDrMin`, `DrFaith`, `DrTop`, `ExamplesDrMin`, `PropertiesDrMin` | what the answers to a .dr file say about the file: its minima, unsat, delta-sat (C46) |
| `Less` | `Less`, `EqualTo`, hash of drake's expressions and formulas, insertion into ordered sets (C50) | pointer equality and hash functions are arbitrary |
| `Literal` | number rules of the SMT-LIB scanner, `util/string_to_interval.cc`, decimal `strtod`/`stod`/`stol` (C51) | strtod rounds as the current mode says |
| `Refiner` | `contractor/counterexample_refiner.cc`, `optimization/nlopt_optimizer.cc`, `IsDifferentiable` (C52) | NLopt is an arbitrary function; its tolerances and `cached_expression.cc` are left out |
| `SpecRefine`, `RefinerProofs`, `ExamplesRefine`, `PropertiesRefine` | feasible points, objective and pruning with local optimisation (C52) | |
| `SpecFuel`, `AlgFuel`, `AlgFuelTop`, `AlgFuelSmt`, `AlgClosedAny`, `AlgFuelStr`, `PropertiesFuel` | building, transforming and reading terms finishes (C53) | |
| `SpecWork`, `WorkProofs`, `StopProofs`, `Changed`, `ExamplesWork`, `PropertiesWork` | propagation stops only at rest or by the stop rule (C54) | |
| `SpecBranch`, `BranchProofs`, `ExamplesBranch`, `PropertiesBranch` | where branch-and-prune splits; further facts about BloatPoint, constant powers, comparing scoped vectors (C55, C39, C19, C25) | |
| `Prefix` | `symbolic/prefix_printer.cc`, printing doubles with 19 digits (C56) | stream flags other than the precision are the default |
| `PrefixRead` | words, parentheses and spaces of `smt2/scanner.ll`, the alternatives of `term` without let and forall in `smt2/parser.yy` (C56) | comments, strings, quoted symbols, hexadecimal numbers give no result |
| `SpecPrefix`, `PrefixNum`, `PrefixReread`, `PrefixText`, `PrefixProofs`, `ExamplesPrefix`, `PropertiesPrefix` | printed terms read back with the same meaning (C56) | |
| `SpecPrefixScan`, `PrefixScan`, `ExamplesPrefixScan`, `PropertiesPrefixScan` | the words of `PrefixRead` are the tokens of `Scan` (C56) | |
| `SpecSmooth`, `SmoothProofs`, `ExamplesSmooth`, `PropertiesSmooth` | IsDifferentiable (C57) | |
| `SpecSmtWeak`, `SmtWeak`, `ExamplesSmtWeak`, `PropertiesSmtWeak` | delta-sat answers of SMT-LIB scripts (C02) | |
| `SpecApiQ`, `ApiQuant`, `ExamplesApiQ`, `PropertiesApiQ` | quantified formulas given to CheckSatisfiability (C44), scripts solved in parallel (C01) | |
| `IcpParX` | `solver/icp_parallel.cc` with exceptions and the interrupt flag of the Python package (C59) | the same assumptions as `IcpPar`; a worker reads the flag together with the counter |
| `IcpParXProofs`, `IcpParXTop`, `ExamplesIcpParX`, `PropertiesIcpParX` | errors in the parallel search (C59) | |
| `Main` | `dreal_main.cc` after ezOptionParser, `util/filesystem.cc`, `smt2/run.cc`, `dr/run.cc`, `parse_file` of both drivers (C58) | --verbose and the texts printed are left out |
| `SpecMain`, `MainProofs`, `ExamplesMain`, `PropertiesMain` | the command line (C58) | |
| `Scan` | `smt2/scanner.ll` (C60) | flex's matching: longest match, then first rule; numbers and strings are kept as text, positions left out |
| `SpecScan`, `ScanProofs`, `ExamplesScan`, `PropertiesScan` | tokens of SMT-LIB files (C60) | |
| `DrScan` | `dr/scanner.ll` (C61) | as `Scan` |
| `SpecDrScan`, `DrScanProofs`, `ExamplesDrScan`, `PropertiesDrScan` | tokens of .dr files (C61) | |
| `ThreadPool`, `ThreadId` | `third_party/.../ThreadPool.h`, per-thread numbers | interleaving semantics |

Specification files (`Sem`, `StdInterp`, `Spec*`, `Regular`, `Wff`) hold the vocabulary of the theorems and no code of the model.
Model files hold definitions only; `*Proofs.v`, `*Top.v` and the `Ctx*`, `Sat*` files hold lemmas; `Examples*.v` hold
concrete runs that meet the hypotheses and the witnesses of refutations; `Properties*.v` hold only the
property theorems, each closed by `exact lemma`, with `Print Assumptions` below and an `Example` beside it.

External components are never axioms.  They appear as arguments of theorems together with the behaviour assumed of them:

* IBEX interval functions: `ia_ok` (results enclose the real result); HC4/contractors: `ibex_ok` (no solution of the constraint is removed); midpoint: `mid_ok`.
* PicoSAT: `pico_ok` (answers are right), any answer otherwise; it may depend on the call number, i.e. on hidden state.
* `std::pow` and the decimal parser: arbitrary functions; the theorems assume what a run recorded (`exact`, below).
* libcds stack, atomics: sequentially consistent, linearizable operations.
* IBEX, nlopt, GMP, libc and the compiler are trusted to do what the contracts say.

C++ undefined behaviour and exceptions are outcomes of the model (`Ub`, `Throw`, `None`), not excluded inputs.
Fuelled loops return a distinct outcome when fuel runs out; theorems hold for every fuel.
`DREAL_ASSERT` is compiled out in release builds, so a failed assertion is not an exit; `DREAL_UNREACHABLE` throws.

Expression simplification computes with doubles.  The model records every such computation of a run as a step;
`exact M step` says that it agreed with real arithmetic.  Theorems named `_partial` that assume `Forall (exact M) tr`
hold for all runs in which no constant was rounded; the refutations show that the assumption is needed.

## 2. Properties

For each property: what is modelled and how it is proved.  `MANIFEST.json` lists the theorems and what is missing.

* C01 unsat sound - `CheckSatCore` as a fuelled loop over a SAT oracle and the modelled theory solver (sequential or parallel); invariant over all call histories linking clauses, boxes and assertions to the problem of `SpecCtx`.  Also composed with the SMT-LIB front end.
* C02 delta-sat sound - acceptance of EvaluateBox + relational evaluators + the accepted Boolean assignment; history invariant. Carried to scripts by following which assertions are in force at each check and relating the weakening of a term to that of the formula built for it.
* C03 sequential ICP - work-list loop with arbitrary prune/eval/branch; invariant "every solution of the start box is in some stacked box".
* C04/C05 parallel ICP - transition system of the workers' atomic actions; inductive invariant over all reachable states.
* C06 bisection - Box::bisect on binary64 bounds.
* C07 relational evaluator - case analysis on bounds against real points.
* C08 contractors - inductive contractor trees; soundness by induction, fixpoints by induction on fuel.
* C09 explanations - closure computation; invariant on used constraints and witnesses.
* C10 CDCL(T) - loop invariant and a strictly decreasing set of remaining Boolean assignments.
* C11 box independence - heap of shared tables with use counts; simulation to pure values.
* C12-C16 preprocessing - structural induction over formulas with a total real semantics.
* C17 FilterAssertion - exact binary64 `nextafter`; equivalences and refutations.
* C18-C20, C22, C23 symbolic library - induction over expressions/formulas.
* C21 DeltaStrengthen - induction with polarity.
* C24-C25 push/pop and scoped containers - refinement to stacks of snapshots by induction over operation sequences.
* C26-C27 options - induction over operation sequences.
* C28 Minimize - semantics of the generated formula versus an independent definition of optimality.
* C29-C30 models - history invariant; Tighten on binary64.
* C31 changing domains - C01's histories include domain changes; refutations where knowledge is stale.
* C32-C33 quantifiers - counterexample search by an inner context; soundness from C01 for a fresh context, refutations for a reused one.
* C34-C38 SMT-LIB front end - elaboration of terms and the driver's state; meaning given on the syntax tree; simulation over commands.
* C39 integer conversions - exact Z/binary64 arithmetic.
* C40-C42 IBEX bridge, interval evaluation, generated contractors - with the interval library as an oracle.
* C43 script output - printing functions over the context's model; induction over commands.
* C44, C46 API and .dr driver - programs over the Context interface.
* C45 HaveIntersection - merge loop vs. list intersection.
* C47 thread pool - interleaving model.
* C48 caches - history model of the cache key.
* C49 per-thread entries - histories of pool constructions and thread numbering.
* C50 order and equality of terms - Less, EqualTo, hash over arbitrary sharing of cells and arbitrary hash functions; both directions of Less are computed together and refined to a three-way comparison; equality is refined to equality of normal forms; sets as sorted lists.
* C51 numeric literals - text to term at the level of characters; strtod as exact rational arithmetic followed by Flocq's rounding in the given mode; neighbours and nearest from Flocq's rounding theory.
* C52 local optimisation - the NLopt problem built from a query as a function; NLopt as an arbitrary function; feasible points and objective related to the query by the algebra theorems; pruning by C33, whose only condition on the refiner is that it leaves numbers in the box.
* C53 finishing - the budget of the recursive constructors: a depth measure that sums and products bound (`AlgFuel`), monotonicity in the budget, then composition through substitution, differentiation, strengthening and the readers.  Missing: strengthening of formulas with if-then-else.
* C54 rest - an invariant of the worklist: every contractor is on the list or at rest on the current box; one lemma per leaf contractor says that whatever changed is reported and is one of its inputs (`WorkProofs`), and conversely that only what changed is reported (`Changed`).  The stop rule by monotonicity of rounding (`StopProofs`).  Assumed of the library: whether it narrows a box is decided by the components of the constraint's variables.
* C55 The choice of the branching dimension and the acceptance test, for arbitrary pruner, evaluator and midpoint: one round either accepts and nothing splittable belongs to an undecided constraint, or splits the first widest such dimension. Proved by an invariant of the loop over the dimensions. Also Box::MaxDiam and the width reported by the evaluator of quantified constraints.
* C56 The printer (with printf's %.19g written as exact decimal rounding of m 2^e), and a reader: scanner on words, parentheses and spaces, then the alternatives of `term`. Proved: decimal rounding error, separation of neighbouring doubles, so 19 digits determine a double whatever decimal literal the reader builds; lexing and balancing by the shape of the text; meaning by induction on the term against the denotation of SMT-LIB terms used for C20. The simplified scanner of that reader agrees with the rules of C60 on every text the reader accepts (`C56_text_scanned`): what matches a number rule is a numeral of C51 and conversely, so names and numbers are told apart in the same way.
* C57 IsDifferentiable (part of `Refiner`), against derivatives of the real semantics: the specification asks nothing of the operations with kinks, so the answer has to exclude them. Proved by induction with the derivative rules used for C22; here factors may be zero.
* C58 command line - main program as a function from the parsed options to the front end, input and configuration; case analysis, composed with the set-option histories of C26/C27.
* C59 errors in the parallel search - the transition system of C04 with exceptions per worker, the collecting loop of the caller and an interrupt flag; an invariant relates its states to those of C04, a second one (a finished worker means an empty counter) shows who can be blocked.
* C60 tokens of SMT-LIB files - the rules of the scanner as regular expressions with derivatives, longest match and rule order as flex resolves them; the specification writes a file as lexemes and gaps. Proved by induction on the file: no rule reads past a delimiter (checked on the rules for all 256 bytes), the first rule that matches a whole word wins, and a run of blanks or a comment is skipped entirely. The numbers in it are the numerals of C51, all of them, and `C60_numbers_are_numbers` says that each reaches the parser as one token with its text unchanged, an integer token exactly for the integers. A symbol is any word of symbol characters that is neither reserved nor one of the numbers, so the lexemes of the specification exhaust the words.
* C61 tokens of .dr files - the same for the other scanner. There operators need no gap, so that the end of a number must be found by a further argument: an exponent sign follows only the letter e.

## 3. Trusted base

* Coq 8.16.1: kernel, `vm_compute` (in examples and refutations), `coqc`.
* The reading of the C++ source: that each definition says what the cited lines do.
* The specification files named above.
* Axioms of the standard library, as printed by `Print Assumptions` for each theorem:
  `C` = `Classical_Prop.classic`, `D` = `Description.constructive_definite_description`,
  `E` = `FunctionalExtensionality.functional_extensionality_dep`,
  `F` = `ClassicalDedekindReals.sig_forall_dec`, `N` = `ClassicalDedekindReals.sig_not_dec`.
  No other axioms.  (The checker's list of library axioms also contains the opaque modules of the standard library's
  reals and of ssreflect, which are parameters of sealed modules with an implementation.)

| axioms | theorems |
|---|---|
| CDEFN | C19_sum_partial, C19_difference_partial, C19_negation_partial, C19_product_partial, C19_quotient_power_partial, C19_functions_partial, C19_if_then_else, C19_comparison_partial, C19_plain_sum_partial, C19_plain_difference_partial, C19_plain_product_partial, C19_plain_quotient_power_partial, C19_plain_comparison_partial, C19_rounding_refuted, C19_nested_power_refuted, C19_literals_refuted, C20_substitute_expression_partial, C20_substitute_formula_partial, C20_capture_refuted, C20_uninterpreted_function_refuted, C21_strengthen_partial, C21_weaken_partial, C21_if_then_else_refuted, C44_unsat_partial, C44_delta_sat_partial, C44_minimize_partial, C46_calls, C46_problem, C46_unsat_partial, C44_quantified_unsat_partial, C44_parallel_quantified_unsat_partial, C01_parallel_script_unsat_sound_partial, C48_unsat_sound_partial, C48_variables_refuted, C48_precision_refuted, C01_unsat_sound_partial, C01_parallel_unsat_sound_partial, C01_unbounded_int_refuted, C01_strict_bounds_refuted, C31_unsat_after_domain_changes_partial, C31_learned_clauses_refuted, C31_emptied_box_refuted, C10_unsat_no_consistent_assignment, C10_sat_accepted_assignment, C10_no_assignment_twice, C10_loop_terminates, C02_delta_sat_sound_partial, C02_parallel_delta_sat_sound_partial, C02_integer_bounds_refuted, C02_setinterval_refuted, C02_strict_bound_refuted, C22_derivative_partial, C46_minimum_partial, C46_file_unsat_partial, C46_file_delta_sat_partial, C41_interval_evaluation_encloses, C07_three_valued_evaluation_sound, C08_pruning_keeps_solutions, C40_translation_faithful, C42_generated_contractor_sound, C17_solutions_kept_partial, C17_only_shrinks, C17_absorbed_literal_holds_partial, C17_other_dimensions, C17_strict_bound_loses_points_refuted, C17_strict_upper_bound_keeps_violations_refuted, C32_valid_partial, C32_parallel_valid_partial, C32_earlier_boxes_refuted, C32_other_variables_refuted, C32_exact_refuted, C33_pruning_partial, C33_parallel_pruning_partial, C33_contradictory_bounds_refuted, C18_comparison_constructor, C03_sequential_search_sound, C03_contractors_are_sound_pruners, C03_relational_evaluators_sound, C04_parallel_search_sound, C59_answers_sound, C51_interpreted_partial, C51_confused_refuted, C28_minimize_partial, C28_maximize_partial, C28_strict_bound_refuted, C28_minimize_problem_partial, C28_maximize_problem_partial, C44_minimize_problem_partial, C29_model_variables_and_domains_partial, C29_parallel_model_variables_and_domains_partial, C30_model_tightened_partial, C30_parallel_model_tightened_partial, C50_equal_meaning, C50_sets_meaning_partial, C50_literals_refuted, C56_expression, C56_formula, C56_decimal_refuted, C56_example, C01_quantified_unsat_sound_partial, C01_parallel_quantified_unsat_sound_partial, C01_contradictory_bounds_refuted, C29_quantified_model_partial, C29_parallel_quantified_model_partial, C52_problem_covers_partial, C52_problem_means_partial, C52_objective, C52_pruning_partial, C52_infinite_refuted, C52_other_bound_refuted, C52_negation_refuted, C57_differentiable, C57_example, C34_terms_partial, C34_lost_bounds_refuted, C34_empty_bounds_refuted, C35_expansion_partial, C35_int_parameter_refuted, C36_scripts_partial, C36_let_under_forall_refuted, C36_let_in_function_refuted, C36_let_in_function_sat_refuted, C37_forall_partial, C37_no_boolean_quantified, C38_scopes_partial, C38_popped_name_refuted, C01_script_unsat_sound_partial, C43_term_values, C01_quantified_script_unsat_sound_partial, C01_parallel_quantified_script_unsat_sound_partial, C02_script_delta_sat_sound_partial, C02_parallel_script_delta_sat_sound_partial, C02_empty_domain_refuted, C09_explanation_unsat_partial, C09_parallel_explanation_unsat_partial, C09_ibex_contractors, C09_relational_evaluators, C09_polytope_refuted, C54_worklist_reaches_rest, C54_worklist_hangs_refuted |
| CEFN | C19_power_undefined_behaviour_refuted, C44_check_problem, C44_box_written_only_on_success, C44_minimize_box_written_only_on_success, C46_prints_verdict, C46_decimals_refuted, C06_bisect_covers_partial, C06_bisect_covers_integers_refuted, C11_boxes_are_values, C11_boxes_independent, C11_unknown_variable_leaks_refuted, C39_is_integer, C39_int64_to_double, C55_split_choice, C55_ruled_out, C55_max_diam, C55_quantified_width, C39_bloat_point, C19_constant_power_throws, C19_large_integer_power_refuted, C48_queries_partial, C48_history_partial, C10_theory_answers_subset, C10_parallel_theory_answers_subset, C24_push_pop_restores, C02_false_forgotten_refuted, C41_interval_evaluation_total, C40_no_constraint_cases, C40_negated_true_refuted, C53_arithmetic_finishes, C53_functions_finish, C53_substitution_finishes, C53_differentiation_finishes, C53_strengthening_finishes_partial, C53_reading_finishes, C53_example, C03_accepted_box, C03_largest_first_sound, C05_counter_exact, C05_exhausted_means_explored, C59_answer_means_no_error, C59_failures_have_a_cause, C59_lost_box_blocks, C59_error_hangs, C59_error_not_reported_refuted, C59_error_in_caller_refuted, C59_interrupt_refuted, C51_literal_enclosed, C51_accepted_partial, C51_plus_refuted, C51_integer_refuted, C58_runs, C58_exit_code, C58_front_end, C58_input_partial, C58_options_partial, C58_precision_positive, C58_seed_refuted, C58_in_refuted, C28_boolean_refuted, C29_internal_variable_refuted, C29_fractional_domain_refuted, C30_width_refuted, C50_strict_order_partial, C50_equality_partial, C50_equal_iff_unordered_partial, C50_sets_partial, C50_nan_refuted, C56_digits, C56_constant, C56_large_integer_refuted, C56_name_refuted, C52_refined, C52_equality_refuted, C57_throws_refuted, C35_arity_and_sorts_partial, C43_lines_report_last_check_partial, C43_model_values, C43_check_sat_values, C43_model_before_check_refuted, C43_value_after_unsat_refuted, C43_value_after_unsat_undefined_refuted, C43_int_model_undefined_refuted, C43_undecided_boolean_refuted, C54_integer_rest, C54_fixpoint_last_round, C54_stop_rule, C54_only_changes_reported, C56_text_scanned |
| CDEF | C23_expression_variables, C23_formula_free_variables, C12_nnf_preserves_meaning, C13_naive_cnf_preserves_meaning, C14_tseitin_sound, C14_tseitin_complete, C14_tseitin_fresh, C15_abstraction_faithful, C15_same_variable_for_complement, C15_extension_exists, C18_constructors_preserve_meaning, C18_forall_constructor, C16_ite_elimination_equisatisfiable, C16_no_ite_left, C16_fresh_variables, C16_defined_solutions_survive |
| none | C39_int64_to_int, C25_vector_less, C25_vector_not_less, C61_lexemes_read_back, C61_layout_irrelevant, C61_every_text_scanned, C61_last_comment_refuted, C61_carriage_return_refuted, C12_nnf_negations_on_atoms, C13_naive_cnf_is_cnf, C14_tseitin_total_clausal, C14_tseitin_clausal_with_forall_refuted, C14_tseitin_total_with_forall_refuted, C18_constructors_unfolded, C28_search_ends, C47_no_undefined_behaviour, C47_at_most_once, C47_destructor, C47_no_deadlock, C47_termination, C47_no_workers_refuted, C49_numbers_partial, C49_two_pools_refuted, C49_reset_refuted, C49_second_thread_refuted, C52_start, C60_lexemes_read_back, C60_layout_irrelevant, C60_numbers_are_numbers, C60_every_text_scanned, C60_open_string_dropped, C60_last_comment_refuted, C60_carriage_return_refuted, C60_quoted_symbol_refuted, C60_backslash_refuted, C60_signed_name_refuted, C57_expressions, C57_formulas, C45_have_intersection, C45_sets_are_ordered, C25_scoped_vector, C25_scoped_vector_pop_count, C25_scoped_map, C25_scoped_set, C25_vector_order_refuted, C26_option_precedence, C27_get_option_reports_last_set, C27_config_reflects_accepted, C27_rejected_commands, C27_get_option_agrees_partial, C27_rejected_value_reported_refuted, C27_underscore_spelling_ignored_refuted, C27_overridden_value_reported_refuted |
| EF | C43_rationals |

Libraries used for definitions and lemmas: Flocq, the standard library.

### Not modelled

* Source positions in the scanners, the infix printer, logging, installation of the SIGINT handler (its flag is modelled for the parallel search only), splitting the command line into options (ezOptionParser), Python bindings, examples.
* The NLopt library itself (an oracle; the problem posed to it and the use of its answer are modelled, C52) and `cached_expression`.
* `ContractorIbexPolytope`'s linear relaxation: covered by the contract of a contractor; its bookkeeping of used constraints is modelled (C09 refutation).
* `icp_stat`, timers and other statistics.
* Memory exhaustion; time-outs; weak memory.  Exceptions end a run of the model; what they do to the other threads is modelled for the parallel search (C59).
* Hash tables are association lists; `std::set`/`map` are sorted lists under the modelled order; reference counts only in `BoxHeap`.

## 4. Findings

Each finding is a `_refuted` theorem with a concrete run or input (C++ line numbers are in the model's comments).

* C01: an Int variable declared without bounds is silently limited to the range of `int`, with a wrong unsat (`C01_unbounded_int_refuted`); a strict bound excludes the reals between the bound and the next double, with a wrong unsat (`C01_strict_bounds_refuted`).
* C02: delta-sat for problems without a delta-solution: integer bounds (`C02_integer_bounds_refuted`), SetInterval after an assertion (`C02_setinterval_refuted`), strict bounds on large values (`C02_strict_bound_refuted`), `false` asserted before the first declaration is forgotten (`C02_false_forgotten_refuted`).
* C06: bisecting an integer dimension above 2^53 loses integers (`C06_bisect_covers_integers_refuted`).
* C09: with `--polytope` an explanation leaves out constraints that were used (`C09_polytope_refuted`).
* C11: `Box::operator[]` with an unknown variable writes into the table shared with other boxes (`C11_unknown_variable_leaks_refuted`).
* C14: quantifiers below connectives make the Tseitin conversion throw or emit a non-clause (two theorems).
* C17: strict bounds: points lost, and below DBL_MIN the bound moves the wrong way (two theorems).
* C19: constants are rounded, nested powers merge where the base is negative, literals of different decimal texts merge, power folding reaches undefined behaviour (four theorems).
* C20: substitution under a quantifier captures; arguments of uninterpreted functions are not substituted.
* C21: strengthening under if-then-else conditions goes the wrong way.
* C25: `ScopedVector::operator<` is not an order.
* C27: get-option reports rejected values, ignores the underscore spelling, and reports overridden values (three theorems).
* C29: the model shows internal variables after a pop, and values outside fractional Int domains (two theorems).
* C30: the reported width can exceed the precision by rounding.
* C31: learned clauses and emptied boxes survive a widening of a domain: wrong unsat (two theorems).
* C34: bounds of a quantified variable that does not occur in the body constrain a free variable: wrong delta-sat; an empty quantifier range is not true: wrong unsat.
* C35: an Int parameter accepts a Real argument.
* C36: let under forall is hoisted: wrong delta-sat; let in a define-fun body is shared by all calls: wrong unsat and wrong delta-sat (three theorems).
* C38: names of popped scopes are still accepted; the constraint lands on another variable's dimension: wrong unsat.
* C40: the literal not-true yields no constraint.
* C43: get-model before any check prints an empty model; get-value after unsat prints `false` or is undefined behaviour; printing an Int model outside `int` is undefined behaviour; an undecided Boolean is printed as false or not at all (five theorems).
* C47: a pool without workers drops its tasks.  C49: two pools alive at once share or overrun per-thread entries (three theorems).
* C28: with a strict bound Minimize finds an optimum where there is none; Minimize throws when a Boolean variable is connected to the objective (two theorems).
* C46: decimals in .dr files are rounded to doubles and folded: 0.3 - 0.2 = 0.1 is reported unsat.
* C32: an evaluator reports VALID wrongly after it has evaluated a smaller box (learned clauses), when the box has a variable not free in the formula (its interval overwrites the first variable's), and within epsilon of the boundary (three theorems).
* C33: a quantified formula whose negation consists of contradictory bounds (for all y: y >= 0 or y <= 1) is true, and pruning empties the box.
* C48: a cached contractor keeps the variable order it was built for: declaring the same Variable objects in another order in a second scope gives a wrong unsat (C++ API; the SMT-LIB front end makes new variables).  A cached contractor or evaluator of a quantified constraint keeps the precision of its first check.
* C01: a quantified assertion whose bounds on the quantified variable contradict each other when negated (for all y: y >= 0 or y <= 1) makes the context answer unsat although it is true.
* C50: two constraints that differ in decimal literals with the same representative are one element of a conjunction's operand set; one of them is lost (C50_literals_refuted).  Overflowing coefficients give terms with NaN coefficients, on which Less is no strict weak order (C50_nan_refuted).
* C51: a decimal literal with a plus sign (+1.5) throws, since StringToInterval reads "-+1.5"; integers beyond 2^53 throw although 9007199254740993.0 is accepted; two decimal literals between the same neighbouring doubles are the same term, so x = 0.1 contradicts not (x = 0.100000000000000001).
* C52: if NLopt answers with an infinity, the quantified component of the counterexample becomes empty and the whole box is pruned although it contains solutions (wrong unsat); a bound on a variable that is not quantified is applied to the first quantified variable and the constraint dropped (Box::operator[] finds no index); an equality under the quantifier makes the constructor throw, but only with local optimisation on; NloptOptimizer::AddConstraint loses the negation of a negated comparison.
* C54: with the worklist option and an unbounded (or, more generally, out of `int` range) integer variable, propagation need not return: the integer contractor reports the variable as changed on every run, so its own entry is put back on the list for ever, and the inner loop of phase 2 is only left when the list is empty (`C54_worklist_hangs_refuted`: x <= 3 over x in [0,4] and an unbounded integer n; without the option the same input returns).
* C19: pow(-2, 2^31) throws although its value exists: check_domain asks is_integer, which is limited to the range of int (`C19_large_integer_power_refuted`).
* C56: the prefix form of an integer constant between 2^53 and 10^19 (written without an exponent) is refused by the reader (`C56_large_integer_refuted`); a decimal literal is printed as the middle of its enclosure and reads back as another number (`C56_decimal_refuted`); names are not quoted (`C56_name_refuted`); terms with quantifiers or uninterpreted functions throw.
* C57: Differentiate may throw for an expression that IsDifferentiable accepts: log(0) (`C57_throws_refuted`).
* C02: a domain declared as [2,1] on any variable but the first gives an empty box that counts as non-empty (Box::empty looks at the first dimension), and the answer is delta-sat (`C02_empty_domain_refuted`).
* C58: --random-seed is read as 64 bits and stored in 32 (`C58_seed_refuted`); --in with a file name reads that file, as SMT-LIB whatever its extension, and exits with 0 without reading anything if it does not exist (`C58_in_refuted`).
* C59: an exception in a pool worker of the parallel search is not reported: its box stays counted, so the other workers spin forever unless one accepts a box (`C59_error_hangs`, `C59_error_not_reported_refuted`: the constraint f(n) != 0 with an uninterpreted f); an exception or Ctrl-C in the calling thread destroys found_delta_sat, the stack and the counter while the pool still uses them (`C59_error_in_caller_refuted`, `C59_interrupt_refuted`).
* C60: a comment on a last line without line terminator is not a comment: its words become tokens (`C60_last_comment_refuted`); with carriage returns as line ends a comment swallows the following lines (`C60_carriage_return_refuted`); everything after an unclosed quotation mark is silently dropped (`C60_open_string_dropped`); |x| and x are different names (`C60_quoted_symbol_refuted`); a backslash in a quoted symbol makes the scanner forget what precedes it (`C60_backslash_refuted`). A word such as -1 or -0x1, a symbol in the standard, is a number here (`C60_signed_name_refuted`).
* C61: as in C60, a comment on an unterminated last line is read as text (`C61_last_comment_refuted`), and a comment ended by a lone carriage return swallows the following lines (`C61_carriage_return_refuted`).

## 5. Testing the theorems

`seeded/LOG.jsonl` records edits of the model that mimic bugs, with the theorems that then failed to check.
An edit is applied in a scratch copy, everything that depends on it is rebuilt, and the property theorems whose proofs
(or whose lemmas' proofs) no longer pass are listed.
