{
 "claims": [
  {
   "property": "C01",
   "status": "partial",
   "theorems": [
    "C01_unsat_sound_partial",
    "C01_parallel_unsat_sound_partial",
    "C01_quantified_unsat_sound_partial",
    "C01_parallel_quantified_unsat_sound_partial",
    "C01_unbounded_int_refuted",
    "C01_strict_bounds_refuted",
    "C01_contradictory_bounds_refuted",
    "C01_script_unsat_sound_partial",
    "C01_quantified_script_unsat_sound_partial",
    "C01_parallel_quantified_script_unsat_sound_partial",
    "C01_parallel_script_unsat_sound_partial"
   ],
   "note": "For all histories (declare, set domain, assert, push, pop, check), every sound IBEX/interval library and every correct SAT solver; with universal quantifiers when the contractors and evaluators of quantified constraints answer as functions of the box. Left out: solutions strictly between a strict bound and the next double (refuted), quantified constraints over non-real variables or with contradictory bounds on the quantified variables (refuted), the polytope option, worklist with integers, widening a domain after an assertion (refuted, C31), Int values outside int (refuted)."
  },
  {
   "property": "C02",
   "status": "partial",
   "theorems": [
    "C02_delta_sat_sound_partial",
    "C02_parallel_delta_sat_sound_partial",
    "C02_integer_bounds_refuted",
    "C02_setinterval_refuted",
    "C02_strict_bound_refuted",
    "C02_false_forgotten_refuted",
    "C02_script_delta_sat_sound_partial",
    "C02_parallel_script_delta_sat_sound_partial",
    "C02_empty_domain_refuted"
   ],
   "note": "Proved for every admissible call history (push/pop, checks, Booleans, connectives) that sets domains before asserting and asserts formulas without if-then-else: every point of the accepted box satisfies the delta-weakening of every assertion, except comparisons undefined at the point, over variables none of which can be split any further, or bounds by literals whose neighbouring double is further than the precision. The unrestricted claim is false of the code: four refutations (integer bounds, SetInterval after an assertion, strict bounds on large values, false before the first declaration). The script theorems carry the claim to the assertions of an SMT-LIB script in force at each check; assertions with let and the insides of quantifiers and Boolean calls are left out."
  },
  {
   "property": "C03",
   "status": "proved",
   "theorems": [
    "C03_sequential_search_sound",
    "C03_accepted_box",
    "C03_largest_first_sound",
    "C03_contractors_are_sound_pruners",
    "C03_relational_evaluators_sound"
   ],
   "note": "Any pruner/evaluator/brancher that is individually sound; integer dimensions below 2^53 (see C06)."
  },
  {
   "property": "C04",
   "status": "proved",
   "theorems": [
    "C04_parallel_search_sound"
   ],
   "note": "Any number of workers, any interleaving; sequentially consistent atomics and a linearizable stack; no exception in a worker."
  },
  {
   "property": "C05",
   "status": "proved",
   "theorems": [
    "C05_counter_exact",
    "C05_exhausted_means_explored"
   ],
   "note": "All reachable states of the worker transition system."
  },
  {
   "property": "C06",
   "status": "partial",
   "theorems": [
    "C06_bisect_covers_partial",
    "C06_bisect_covers_integers_refuted"
   ],
   "note": "Cover of integer points needs the midpoint below 2^53 in magnitude; beyond it the property is false (refuted with a witness). Everything else unconditional."
  },
  {
   "property": "C07",
   "status": "proved",
   "theorems": [
    "C07_three_valued_evaluation_sound"
   ],
   "note": "Comparisons under any number of negations; IBEX arithmetic is any enclosing arithmetic (ia_ok)."
  },
  {
   "property": "C08",
   "status": "proved",
   "theorems": [
    "C08_pruning_keeps_solutions"
   ],
   "note": "All contractor kinds, any fuel and termination condition; leaf steps assumed sound (c_ok)."
  },
  {
   "property": "C09",
   "status": "partial",
   "theorems": [
    "C09_explanation_unsat_partial",
    "C09_parallel_explanation_unsat_partial",
    "C09_ibex_contractors",
    "C09_relational_evaluators",
    "C09_polytope_refuted"
   ],
   "note": "Sequential and parallel, any schedule. Missing: assignments in the one-double gap next to a strict bound; --polytope (refuted); --worklist-fixpoint with integer variables; stale contractor cache (C48)."
  },
  {
   "property": "C10",
   "status": "proved",
   "theorems": [
    "C10_unsat_no_consistent_assignment",
    "C10_sat_accepted_assignment",
    "C10_no_assignment_twice",
    "C10_loop_terminates",
    "C10_theory_answers_subset",
    "C10_parallel_theory_answers_subset"
   ],
   "note": "Loop between SAT solver and theory solver from every reachable SAT state, PicoSAT any correct solver."
  },
  {
   "property": "C11",
   "status": "proved",
   "theorems": [
    "C11_boxes_are_values",
    "C11_boxes_independent",
    "C11_unknown_variable_leaks_refuted"
   ],
   "note": "Every sequence of construct/copy/assign/destroy/Add/write, under the documented preconditions; without them (indexing by an unknown variable) sharing leaks: refuted."
  },
  {
   "property": "C12",
   "status": "proved",
   "theorems": [
    "C12_nnf_preserves_meaning",
    "C12_nnf_negations_on_atoms"
   ],
   "note": "All formulas whose comparisons are not constant-folded (every formula the constructors build, C18_constructors_unfolded), every interpretation of the partial functions."
  },
  {
   "property": "C13",
   "status": "proved",
   "theorems": [
    "C13_naive_cnf_preserves_meaning",
    "C13_naive_cnf_is_cnf"
   ],
   "note": "Includes quantified sub-formulas (their bodies are also clausal)."
  },
  {
   "property": "C14",
   "status": "partial",
   "theorems": [
    "C14_tseitin_sound",
    "C14_tseitin_complete",
    "C14_tseitin_fresh",
    "C14_tseitin_total_clausal",
    "C14_tseitin_clausal_with_forall_refuted",
    "C14_tseitin_total_with_forall_refuted"
   ],
   "note": "Equisatisfiability and freshness hold for every formula whenever the conversion returns. For quantifier-free formulas it always returns clauses. With a quantifier below a connective it can throw or emit a non-clause: refuted with witnesses."
  },
  {
   "property": "C15",
   "status": "proved",
   "theorems": [
    "C15_abstraction_faithful",
    "C15_same_variable_for_complement",
    "C15_extension_exists"
   ],
   "note": "Over any sequence of conversions by one abstractor object."
  },
  {
   "property": "C16",
   "status": "proved",
   "theorems": [
    "C16_ite_elimination_equisatisfiable",
    "C16_no_ite_left",
    "C16_fresh_variables",
    "C16_defined_solutions_survive"
   ],
   "note": "Every formula incl. quantifiers and nested if-then-else; hypothesis: the simplifications performed while rebuilding terms/comparisons during this run were exact (they are not modelled here; the real ones round, see C18/C19)."
  },
  {
   "property": "C17",
   "status": "partial",
   "theorems": [
    "C17_solutions_kept_partial",
    "C17_only_shrinks",
    "C17_absorbed_literal_holds_partial",
    "C17_other_dimensions",
    "C17_strict_bound_loses_points_refuted",
    "C17_strict_upper_bound_keeps_violations_refuted"
   ],
   "note": "Exact for equalities and non-strict bounds by doubles on every type; strict bounds on real variables move to the neighbouring double: real points in between are lost, and for bounds at or below DBL_MIN the bound moves the wrong way; both shown by witnesses."
  },
  {
   "property": "C18",
   "status": "proved",
   "theorems": [
    "C18_constructors_preserve_meaning",
    "C18_forall_constructor",
    "C18_comparison_constructor",
    "C18_constructors_unfolded"
   ],
   "note": "Comparison construction is correct when the constant difference computed by the simplifier is exact; binary64 rounding of it is treated in C19."
  },
  {
   "property": "C19",
   "status": "partial",
   "theorems": [
    "C19_sum_partial",
    "C19_difference_partial",
    "C19_negation_partial",
    "C19_product_partial",
    "C19_quotient_power_partial",
    "C19_functions_partial",
    "C19_if_then_else",
    "C19_comparison_partial",
    "C19_plain_sum_partial",
    "C19_plain_difference_partial",
    "C19_plain_product_partial",
    "C19_plain_quotient_power_partial",
    "C19_plain_comparison_partial",
    "C19_rounding_refuted",
    "C19_nested_power_refuted",
    "C19_literals_refuted",
    "C19_power_undefined_behaviour_refuted",
    "C19_constant_power_throws",
    "C19_large_integer_power_refuted"
   ],
   "note": "Proved when every constant computed on the way is exact, merged literals have their representative's value and merged exponents are integers; the unrestricted claim is refuted by four runs. That the recursion ends is C53."
  },
  {
   "property": "C20",
   "status": "partial",
   "theorems": [
    "C20_substitute_expression_partial",
    "C20_substitute_formula_partial",
    "C20_capture_refuted",
    "C20_uninterpreted_function_refuted"
   ],
   "note": "Proved without capture, without uninterpreted-function arguments and under the exactness conditions of C19; capture and lost arguments are refuted by runs."
  },
  {
   "property": "C21",
   "status": "partial",
   "theorems": [
    "C21_strengthen_partial",
    "C21_weaken_partial",
    "C21_if_then_else_refuted"
   ],
   "note": "Proved for formulas without if-then-else under the exactness conditions of C19; with if-then-else refuted."
  },
  {
   "property": "C22",
   "status": "partial",
   "theorems": [
    "C22_derivative_partial"
   ],
   "note": "For every expression, variable and point where each sub-expression is at a point of its rule, the expression Differentiate returns is defined and its value is the derivative (limit of difference quotients) of the original in that variable. Missing: points where a factor of a product is zero (the rule multiplies by base^-exponent, which the simplifier usually cancels), and constants that round (assumptions recorded in the run)."
  },
  {
   "property": "C23",
   "status": "proved",
   "theorems": [
    "C23_expression_variables",
    "C23_formula_free_variables"
   ],
   "note": "For every expression, formula and interpretation."
  },
  {
   "property": "C24",
   "status": "proved",
   "theorems": [
    "C24_push_pop_restores"
   ],
   "note": "Box, assertions, SAT clauses and variable maps after Push/balanced calls/Pop."
  },
  {
   "property": "C25",
   "status": "proved",
   "theorems": [
    "C25_scoped_vector",
    "C25_scoped_vector_pop_count",
    "C25_scoped_map",
    "C25_scoped_set",
    "C25_vector_less",
    "C25_vector_not_less"
   ],
   "note": "All three containers refine a current value plus a stack of snapshots, for every operation sequence; the undo log never reaches undefined behaviour. The hash table is modelled by an association list."
  },
  {
   "property": "C26",
   "status": "proved",
   "theorems": [
    "C26_option_precedence"
   ],
   "note": "For every sequence of writes from any source."
  },
  {
   "property": "C27",
   "status": "partial",
   "theorems": [
    "C27_get_option_reports_last_set",
    "C27_config_reflects_accepted",
    "C27_rejected_commands",
    "C27_get_option_agrees_partial",
    "C27_rejected_value_reported_refuted",
    "C27_underscore_spelling_ignored_refuted",
    "C27_overridden_value_reported_refuted"
   ],
   "note": "The configuration part is proved for every history. The get-option part is false of the code in three ways, each with a witness; proved where those do not occur. Number formatting is a parameter."
  },
  {
   "property": "C28",
   "status": "partial",
   "theorems": [
    "C28_minimize_problem_partial",
    "C28_maximize_problem_partial",
    "C28_minimize_partial",
    "C28_maximize_partial",
    "C28_search_ends",
    "C28_strict_bound_refuted",
    "C28_boolean_refuted"
   ],
   "note": "Proved for the problem in force after any calls (C28_*_problem_partial), and for arbitrary contents of the context (C28_minimize_partial). Left out: strict bounds of real variables by literals, which the context rounds to the next double (C28_strict_bound_refuted), bounds by interval literals, if-then-else, quantified assertions, and constraints or objectives undefined somewhere in the domains. Minimize throws when a Boolean variable is connected to the objective (C28_boolean_refuted)."
  },
  {
   "property": "C29",
   "status": "partial",
   "theorems": [
    "C29_model_variables_and_domains_partial",
    "C29_parallel_model_variables_and_domains_partial",
    "C29_quantified_model_partial",
    "C29_parallel_quantified_model_partial",
    "C29_internal_variable_refuted",
    "C29_fractional_domain_refuted"
   ],
   "note": "Every delta-sat answer along every admissible history, with or without quantifiers: exactly the marked variables, each within its domain. Left out: the exclusions of C01, integer-valued variables with non-integral bounds (refuted), popped model variables (refuted)."
  },
  {
   "property": "C30",
   "status": "partial",
   "theorems": [
    "C30_model_tightened_partial",
    "C30_parallel_model_tightened_partial",
    "C30_width_refuted"
   ],
   "note": "Width is bounded by the precision plus rounding of the two ends (the exact bound is refuted). Non-emptiness is relative to the accepted box, of which only dimension 0 is known to be non-empty."
  },
  {
   "property": "C31",
   "status": "partial",
   "theorems": [
    "C31_unsat_after_domain_changes_partial",
    "C31_learned_clauses_refuted",
    "C31_emptied_box_refuted"
   ],
   "note": "Narrowing domains keeps unsat answers right; widening after a check or an assertion is refuted (two witnesses: learned clauses survive, emptied box stays empty)."
  },
  {
   "property": "C32",
   "status": "partial",
   "theorems": [
    "C32_valid_partial",
    "C32_parallel_valid_partial",
    "C32_earlier_boxes_refuted",
    "C32_other_variables_refuted",
    "C32_exact_refuted"
   ],
   "note": "VALID means the body holds up to epsilon on the box, for nested boxes over the free variables. Refuted: boxes not nested, boxes with other variables, exactness."
  },
  {
   "property": "C33",
   "status": "partial",
   "theorems": [
    "C33_pruning_partial",
    "C33_parallel_pruning_partial",
    "C33_contradictory_bounds_refuted"
   ],
   "note": "Pruning keeps every point where the quantified formula is defined and true; real variables. Refuted for bounds on the quantified variables that contradict each other."
  },
  {
   "property": "C34",
   "status": "partial",
   "theorems": [
    "C34_terms_partial",
    "C34_lost_bounds_refuted",
    "C34_empty_bounds_refuted"
   ],
   "note": "Every accepted term of the modelled grammar has the standard's value, under exact folding and inside its domain; excluded, with refutations: quantifiers whose bounds concern a variable missing from the body, and empty quantifier ranges. Int terms are not truncated and Int/Real sorts are not distinguished."
  },
  {
   "property": "C35",
   "status": "partial",
   "theorems": [
    "C35_expansion_partial",
    "C35_arity_and_sorts_partial",
    "C35_int_parameter_refuted"
   ],
   "note": "Calls evaluate to the body with the arguments' values (bodies without let); arity and Boolean/number sorts are checked; an Int parameter accepts a Real argument (refuted)."
  },
  {
   "property": "C36",
   "status": "partial",
   "theorems": [
    "C36_scripts_partial",
    "C36_let_under_forall_refuted",
    "C36_let_in_function_refuted",
    "C36_let_in_function_sat_refuted"
   ],
   "note": "Every check of a script with let outside quantifiers and functions has exactly the solutions the script describes; let under forall and in functions is refuted."
  },
  {
   "property": "C37",
   "status": "partial",
   "theorems": [
    "C37_forall_partial",
    "C37_no_boolean_quantified"
   ],
   "note": "forall over Booleans and numbers means all values; no Boolean variable is bound by a quantifier that reaches the solver. Partial: exact folding, no let in the body, bounds kept."
  },
  {
   "property": "C38",
   "status": "partial",
   "theorems": [
    "C38_scopes_partial",
    "C38_popped_name_refuted"
   ],
   "note": "For scripts that use only visible names, checks have the meaning of the standard's scoping; uses of popped names are accepted (refuted)."
  },
  {
   "property": "C39",
   "status": "proved",
   "theorems": [
    "C39_is_integer",
    "C39_int64_to_int",
    "C39_int64_to_double",
    "C39_bloat_point"
   ],
   "note": ""
  },
  {
   "property": "C40",
   "status": "proved",
   "theorems": [
    "C40_translation_faithful",
    "C40_no_constraint_cases",
    "C40_negated_true_refuted"
   ],
   "note": "Finding: the literal not-true yields no constraint."
  },
  {
   "property": "C41",
   "status": "proved",
   "theorems": [
    "C41_interval_evaluation_encloses",
    "C41_interval_evaluation_total"
   ],
   "note": "IBEX arithmetic is any enclosing arithmetic (ia_ok)."
  },
  {
   "property": "C42",
   "status": "proved",
   "theorems": [
    "C42_generated_contractor_sound"
   ],
   "note": "Down to the library contract ibex_ok."
  },
  {
   "property": "C43",
   "status": "partial",
   "theorems": [
    "C43_lines_report_last_check_partial",
    "C43_model_values",
    "C43_check_sat_values",
    "C43_term_values",
    "C43_rationals",
    "C43_model_before_check_refuted",
    "C43_value_after_unsat_refuted",
    "C43_value_after_unsat_undefined_refuted",
    "C43_int_model_undefined_refuted",
    "C43_undecided_boolean_refuted"
   ],
   "note": "Every printed line reports the last check; printed values contain the model. Refuted: get-model before a check, get-value after unsat, Int models outside int, undecided Booleans."
  },
  {
   "property": "C44",
   "status": "partial",
   "theorems": [
    "C44_check_problem",
    "C44_unsat_partial",
    "C44_delta_sat_partial",
    "C44_minimize_partial",
    "C44_minimize_problem_partial",
    "C44_box_written_only_on_success",
    "C44_minimize_box_written_only_on_success",
    "C44_quantified_unsat_partial",
    "C44_parallel_quantified_unsat_partial"
   ],
   "note": "The problem posed and the box argument: proved in full. For Minimize the points of the posed problem are the optima of f (C44_minimize_problem_partial). That the answer is right for it inherits the limits of C01, C02 and C28 (quantifier-free formulas, regular solutions). The quantified theorems cover formulas with universal quantifiers."
  },
  {
   "property": "C45",
   "status": "proved",
   "theorems": [
    "C45_have_intersection",
    "C45_sets_are_ordered"
   ],
   "note": "Variable sets built by any insertion sequence."
  },
  {
   "property": "C46",
   "status": "partial",
   "theorems": [
    "C46_calls",
    "C46_problem",
    "C46_prints_verdict",
    "C46_unsat_partial",
    "C46_minimum_partial",
    "C46_file_unsat_partial",
    "C46_file_delta_sat_partial",
    "C46_decimals_refuted"
   ],
   "note": "The calls made, their meaning and what is printed: proved in full from the abstract syntax of the file. A file with costs poses exactly its minima (missing: strict bounds by literals, undefinedness within the bounds, names declared twice); unsat and delta-sat are related to the file itself, within the limits of C01 and C02. Not modelled: the lexer (include, comments). Decimals are rounded (refuted)."
  },
  {
   "property": "C47",
   "status": "proved",
   "theorems": [
    "C47_no_undefined_behaviour",
    "C47_at_most_once",
    "C47_destructor",
    "C47_no_deadlock",
    "C47_termination",
    "C47_no_workers_refuted"
   ],
   "note": "Transition system of mutex, condition variable, queue and stop flag; every schedule, any number of workers, enqueuing threads and tasks, spurious wake-ups included. A pool with no worker (refuted) drops tasks; dReal never enqueues on one."
  },
  {
   "property": "C48",
   "status": "partial",
   "theorems": [
    "C48_queries_partial",
    "C48_history_partial",
    "C48_unsat_sound_partial",
    "C48_variables_refuted",
    "C48_precision_refuted"
   ],
   "note": "The full statement is false of the code (two refutations: a cached contractor keeps the variable order it was built for, and a cached contractor or evaluator of a quantified literal keeps its precision). Proved: when no literal is re-checked under other variables (or, if quantified, another precision), the caching solver answers as one that builds everything anew; every two-phase history satisfies that; unsat answers of the caching context are then right. Missing: state inside quantified contractors and evaluators, polytope and worklist options."
  },
  {
   "property": "C49",
   "status": "partial",
   "theorems": [
    "C49_numbers_partial",
    "C49_two_pools_refuted",
    "C49_reset_refuted",
    "C49_second_thread_refuted"
   ],
   "note": "Holds when one pool is alive at a time and one user thread is involved. False in general: two parallel solvers alive at once index past the end of the per-job tables, and the reset of the counter in the destructor gives two workers the same number."
  },
  {
   "property": "C50",
   "status": "partial",
   "theorems": [
    "C50_strict_order_partial",
    "C50_equality_partial",
    "C50_equal_iff_unordered_partial",
    "C50_equal_meaning",
    "C50_sets_partial",
    "C50_sets_meaning_partial",
    "C50_literals_refuted",
    "C50_nan_refuted"
   ],
   "note": "All laws are proved for terms without NaN coefficients; agreement of EqualTo with the order and the meaning of sets also without decimal literals. The refutations show both restrictions are needed."
  },
  {
   "property": "C51",
   "status": "partial",
   "theorems": [
    "C51_literal_enclosed",
    "C51_accepted_partial",
    "C51_plus_refuted",
    "C51_integer_refuted",
    "C51_interpreted_partial",
    "C51_confused_refuted"
   ],
   "note": "Every accepted literal is enclosed as stated. Not all are accepted (a plus sign, integers beyond 2^53: refuted), and literals between the same neighbouring doubles become one term (refuted); otherwise the decimal values are an admissible interpretation. Hexadecimal literals are not modelled; strtod is assumed to honour the rounding mode."
  },
  {
   "property": "C52",
   "status": "partial",
   "theorems": [
    "C52_refined",
    "C52_start",
    "C52_problem_covers_partial",
    "C52_problem_means_partial",
    "C52_objective",
    "C52_pruning_partial",
    "C52_infinite_refuted",
    "C52_other_bound_refuted",
    "C52_equality_refuted",
    "C52_negation_refuted"
   ],
   "note": "Missing: pruning is false when the optimiser answers with an infinity, and a bound on a variable that is not quantified is misplaced (both refuted). The two problem theorems ask that bounds are on quantified variables and that literal bounds are exact; constraints with a rounding constructor step are outside."
  },
  {
   "property": "C53",
   "status": "partial",
   "theorems": [
    "C53_arithmetic_finishes",
    "C53_functions_finish",
    "C53_substitution_finishes",
    "C53_differentiation_finishes",
    "C53_strengthening_finishes_partial",
    "C53_reading_finishes"
   ],
   "note": "Proved in full except for DeltaStrengthen/DeltaWeaken of formulas with if-then-else (the operands of == are visited again after being rebuilt, and the rebuilt condition may be larger)."
  },
  {
   "property": "C54",
   "status": "proved",
   "theorems": [
    "C54_worklist_reaches_rest",
    "C54_integer_rest",
    "C54_fixpoint_last_round",
    "C54_stop_rule",
    "C54_worklist_hangs_refuted",
    "C54_only_changes_reported"
   ],
   "note": "Partial correctness of ContractorWorklistFixpoint and ContractorFixpoint with the default termination condition. The library's narrowing is an oracle assumed sound and decided by the constraint's variables. That the worklist returns at all is refuted for unbounded integer variables."
  },
  {
   "property": "C55",
   "status": "proved",
   "theorems": [
    "C55_split_choice",
    "C55_ruled_out",
    "C55_max_diam",
    "C55_quantified_width"
   ],
   "note": "The brancher is BranchLargestFirst (the default). Boxes without Boolean variables, as the theory solver sees them; for a Boolean variable bisecting throws."
  },
  {
   "property": "C56",
   "status": "proved",
   "theorems": [
    "C56_digits",
    "C56_constant",
    "C56_expression",
    "C56_formula",
    "C56_text_scanned",
    "C56_large_integer_refuted",
    "C56_decimal_refuted",
    "C56_name_refuted"
   ],
   "note": "Round trip through the printer, the scanner and the grammar of terms, for all terms that meet the stated conditions; three theorems show that the conditions on constants, decimal literals and names are needed. Quantifiers and uninterpreted functions throw in the printer. C56_text_scanned ties the words of that reader to the scanner of C60."
  },
  {
   "property": "C57",
   "status": "proved",
   "theorems": [
    "C57_differentiable",
    "C57_expressions",
    "C57_formulas",
    "C57_throws_refuted"
   ],
   "note": "The points of differentiability are those at which every operation is inside the open part of its domain (positive base, or constant integer exponent)."
  },
  {
   "property": "C58",
   "status": "partial",
   "theorems": [
    "C58_runs",
    "C58_exit_code",
    "C58_front_end",
    "C58_input_partial",
    "C58_options_partial",
    "C58_precision_positive",
    "C58_seed_refuted",
    "C58_in_refuted"
   ],
   "note": "Proved for every command line after the option parser (ezOptionParser is external). Refuted: a seed of 2^32 or more is truncated; --in with a file name reads the file as SMT-LIB, or nothing if it does not exist."
  },
  {
   "property": "C59",
   "status": "partial",
   "theorems": [
    "C59_answers_sound",
    "C59_answer_means_no_error",
    "C59_failures_have_a_cause",
    "C59_lost_box_blocks",
    "C59_error_hangs",
    "C59_error_not_reported_refuted",
    "C59_error_in_caller_refuted",
    "C59_interrupt_refuted"
   ],
   "note": "Proved: an answer is never the product of a failed search, and failures have a cause. The rest is false of the code: an error in a worker of the pool makes the call wait forever unless a box is accepted, and an error or Ctrl-C in the calling thread leaves the pool using destroyed variables (three refutations)."
  },
  {
   "property": "C60",
   "status": "partial",
   "theorems": [
    "C60_lexemes_read_back",
    "C60_layout_irrelevant",
    "C60_numbers_are_numbers",
    "C60_every_text_scanned",
    "C60_open_string_dropped",
    "C60_last_comment_refuted",
    "C60_carriage_return_refuted",
    "C60_quoted_symbol_refuted",
    "C60_backslash_refuted",
    "C60_signed_name_refuted"
   ],
   "note": "Proved for every file made of reserved words, symbols, numbers (decimal and hexadecimal), attributes, strings, quoted symbols and parentheses with any gaps. False, with witnesses: an unterminated last comment, CR-only line ends, |x| versus x, backslash in a quoted symbol, names such as -1 (numbers here, symbols in the standard)."
  },
  {
   "property": "C61",
   "status": "partial",
   "theorems": [
    "C61_lexemes_read_back",
    "C61_layout_irrelevant",
    "C61_every_text_scanned",
    "C61_last_comment_refuted",
    "C61_carriage_return_refuted"
   ],
   "note": "Proved for every file made of the listed lexemes with any gaps. False, with witnesses: an unterminated last comment and CR-only line ends. Numbers without a digit before or after the point are modelled, but the reading theorem does not list them as lexemes."
  }
 ]
}