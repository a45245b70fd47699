{"id": "C01", "title": "unsat is sound", "statement": "If Context::CheckSat() returns no box, then no assignment of the declared variables inside their declared domains (integers for Int, 0/1 for Binary, true/false for Bool) at which every asserted term is defined makes all currently asserted formulas true over the real numbers.", "quantifier": "every history of DeclareVariable/Assert/Push/Pop/CheckSat calls, every formula, every SAT-solver answer sequence and every sound contractor", "why_tests_cant": "Unsat is a universally quantified claim over a continuum of assignments; a test can only try some assignments on some formulas.", "anchors": ["dreal/solver/context_impl.cc: Context::Impl::CheckSatCore, Assert", "dreal/solver/theory_solver.cc: TheorySolver::CheckSat", "dreal/solver/icp_seq.cc: IcpSeq::CheckSat"]}
{"id": "C02", "title": "delta-sat is sound", "statement": "If Context::CheckSat() returns a box, every point of the box satisfies the delta-weakening of every asserted formula: each comparison used by the answer is violated by at most the configured precision.", "quantifier": "every quantifier-free formula set, every precision, every SAT answer sequence, every branching order", "why_tests_cant": "The returned box contains infinitely many points; the weakening must hold at all of them for all formulas.", "anchors": ["dreal/solver/icp.cc: EvaluateBox", "dreal/solver/icp_seq.cc: IcpSeq::CheckSat", "dreal/solver/context_impl.cc: CheckSatCore"]}
{"id": "C03", "title": "sequential branch-and-prune never loses a solution", "statement": "The sequential ICP search answers 'no solution' only if the start box contains no solution of the constraints, whatever the branching heuristics and pruning operators do as long as each is individually sound.", "quantifier": "every start box, contractor, evaluator set, branching heuristic, precision and run length", "why_tests_cant": "The search tree is unbounded; a lost sub-box shows only for particular prune/branch sequences.", "anchors": ["dreal/solver/icp_seq.cc: IcpSeq::CheckSat", "dreal/solver/icp.cc: EvaluateBox", "dreal/solver/brancher.cc: BranchLargestFirst"]}
{"id": "C04", "title": "parallel branch-and-prune never loses a solution, for every schedule", "statement": "With --jobs N the parallel ICP answers 'no solution' only if the start box has no solution, and answers a box only if a worker accepted that box, for every interleaving of the workers.", "quantifier": "every number of workers and every interleaving of their atomic actions", "why_tests_cant": "Schedules are unbounded; races between the shared stack, the counter and the found flag appear only in rare interleavings.", "anchors": ["dreal/solver/icp_parallel.cc: Worker, IcpParallel::CheckSat, ParallelBranch"]}
{"id": "C05", "title": "parallel work accounting", "statement": "In the parallel ICP the shared counter always equals the number of boxes that are queued or held by a worker, so no worker can leave the search as 'exhausted' while an unexplored box exists, and the counter never goes below zero.", "quantifier": "every interleaving and every number of workers", "why_tests_cant": "A counter off by one makes workers quit early or spin forever only under specific interleavings.", "anchors": ["dreal/solver/icp_parallel.cc: Worker (number_of_boxes, need_to_pop)"]}
{"id": "C06", "title": "bisection covers the box", "statement": "Splitting a box along a dimension yields two boxes, both inside the original, whose union contains every admissible point (every real point for continuous variables, every integer point for integer/binary variables), and both parts are strictly smaller in that dimension.", "quantifier": "every box, every bisectable dimension, every variable type, every IEEE double bound", "why_tests_cant": "Rounding and infinite bounds make this a statement about all double pairs.", "anchors": ["dreal/util/box.cc: Box::bisect, bisect_int, bisect_continuous, MaxDiam", "dreal/solver/brancher.cc: FindMaxDiam"]}
{"id": "C07", "title": "three-valued evaluation is sound", "statement": "When the evaluator reports VALID on a box, every point of the box satisfies the comparison; when it reports UNSAT, no point does; when it reports UNKNOWN with an interval of width at most delta, every point satisfies the comparison up to delta.", "quantifier": "every comparison, every polarity, every box", "why_tests_cant": "Ranges over all real points of all boxes.", "anchors": ["dreal/solver/relational_formula_evaluator.cc: RelationalFormulaEvaluator::operator()", "dreal/solver/formula_evaluator_cell.cc"]}
{"id": "C08", "title": "pruning keeps every solution", "statement": "Every contractor built from sound leaf contractors (sequence, join, fixpoint, worklist fixpoint, integer, id) only shrinks the box and never removes a point satisfying its constraints, for every number of iterations.", "quantifier": "every composition tree, every box, every iteration count", "why_tests_cant": "Composition trees and fixpoint iteration counts are unbounded.", "anchors": ["dreal/contractor/contractor_seq.cc", "dreal/contractor/contractor_join.cc", "dreal/contractor/contractor_fixpoint.cc", "dreal/contractor/contractor_worklist_fixpoint.cc", "dreal/contractor/contractor_integer.cc"]}
{"id": "C09", "title": "conflict explanations are valid", "statement": "The set of literals returned as explanation of a theory conflict is a subset of the asserted literals and is by itself infeasible on the current box, so blocking it removes no solution.", "quantifier": "every literal set, every pruning history that empties the box", "why_tests_cant": "An explanation that is too small silently removes solutions only for particular variable-sharing patterns.", "anchors": ["dreal/contractor/contractor_status.cc: GenerateExplanation, AddUsedConstraint", "dreal/solver/theory_solver.cc: CheckSat"]}
{"id": "C10", "title": "the SAT/theory loop is sound and makes progress", "statement": "The lazy SMT loop answers unsat only if no Boolean assignment is theory-consistent, answers sat only with a theory-accepted assignment that satisfies every clause, and each learned clause excludes the assignment just tried so the loop cannot return to it.", "quantifier": "every clause set, every sequence of SAT answers", "why_tests_cant": "The loop length is exponential in the number of atoms and depends on the SAT solver's choices.", "anchors": ["dreal/solver/context_impl.cc: CheckSatCore", "dreal/solver/sat_solver.cc: AddLearnedClause, CheckSat"]}
{"id": "C11", "title": "boxes are independent values", "statement": "Copying a box and then changing either copy (adding variables, narrowing, emptying) never changes what the other copy reports, for every sequence of copies and updates.", "quantifier": "every sequence of copy/add/update operations over any number of boxes", "why_tests_cant": "Aliasing through shared tables shows only for particular copy/update orders.", "anchors": ["dreal/util/box.cc: Box::Add, operator[], set_empty"]}
{"id": "C12", "title": "negation normal form preserves meaning", "statement": "Converting a formula to negation normal form keeps its truth value under every assignment, and the result contains negation only directly on atoms.", "quantifier": "every formula, every assignment, both conversion modes", "why_tests_cant": "Formulas are unbounded trees.", "anchors": ["dreal/util/nnfizer.cc: Nnfizer::Convert"]}
{"id": "C13", "title": "naive clausal form preserves meaning", "statement": "Converting a quantifier-free formula to clausal form by distribution keeps its truth value under every assignment and yields a conjunction of clauses.", "quantifier": "every formula and assignment", "why_tests_cant": "Formulas are unbounded trees; distribution is recursive.", "anchors": ["dreal/util/naive_cnfizer.cc: NaiveCnfizer::Convert"]}
{"id": "C14", "title": "Tseitin clausal form is equisatisfiable", "statement": "The clauses produced for an asserted formula are satisfiable by an extension of an assignment exactly when the assignment satisfies the formula; the added Boolean variables are fresh, and a clause satisfying assignment restricted to the user's variables satisfies the formula.", "quantifier": "every formula, every assignment", "why_tests_cant": "Formulas are unbounded trees; a missing polarity or clause changes only some assignments.", "anchors": ["dreal/util/tseitin_cnfizer.cc: TseitinCnfizer::Convert"]}
{"id": "C15", "title": "predicate abstraction is faithful", "statement": "Replacing comparisons by Boolean variables keeps truth: the same comparison always gets the same variable, complementary comparisons get complementary literals, and mapping a literal back gives the comparison it stands for, across any sequence of conversions.", "quantifier": "every sequence of formulas converted by one abstractor and every assignment", "why_tests_cant": "The cache is history-dependent.", "anchors": ["dreal/util/predicate_abstractor.cc: PredicateAbstractor::Convert"]}
{"id": "C16", "title": "if-then-else elimination is equisatisfiable", "statement": "Eliminating if-then-else terms from an assertion yields a formula that is true for some value of the fresh variables exactly when the original is true, and the result contains no if-then-else term.", "quantifier": "every formula (arbitrarily nested if-then-else, both polarities) and every assignment", "why_tests_cant": "Nesting of conditions is unbounded.", "anchors": ["dreal/util/if_then_else_eliminator.cc: IfThenElseEliminator::Process"]}
{"id": "C17", "title": "bound assertions folded into the domain lose nothing", "statement": "When an asserted comparison of a variable with a constant is absorbed into the variable's interval instead of being kept as a constraint, the points of the new interval are exactly the points of the old interval satisfying the comparison.", "quantifier": "every comparison kind and polarity, every double constant, every variable type, every box", "why_tests_cant": "The claim is about every double bound and its neighbours, including zero, subnormals and infinities.", "anchors": ["dreal/solver/filter_assertion.cc: FilterAssertion"]}
{"id": "C18", "title": "formula constructors preserve meaning", "statement": "Conjunction, disjunction, negation, implication, iff and comparison construction simplify their arguments but the resulting formula is true exactly when the unsimplified one is.", "quantifier": "every operand set and assignment", "why_tests_cant": "Operand sets are unbounded; simplification depends on structural coincidences.", "anchors": ["third_party/.../symbolic_formula.cc: make_conjunction, make_disjunction, operator!, operator&&, operator||", "dreal/symbolic/symbolic.cc: imply, iff"]}
{"id": "C19", "title": "expression constructors preserve value", "statement": "Building a sum, product, quotient or power of expressions yields an expression whose real value equals the corresponding operation on the operands' values wherever the latter is defined.", "quantifier": "every pair of expressions and every environment", "why_tests_cant": "Simplification rules fire on structural coincidences; expressions are unbounded trees.", "anchors": ["third_party/.../symbolic_expression.cc: operator+=, operator*=, operator/=, pow, sqrt", "third_party/.../symbolic_expression_cell.cc: ExpressionAddFactory, ExpressionMulFactory"]}
{"id": "C20", "title": "substitution is semantic substitution", "statement": "Substituting expressions for variables in a formula or expression gives an object whose value in an environment equals the value of the original in the environment updated with the values of the substituted expressions.", "quantifier": "every formula, every substitution, every environment", "why_tests_cant": "Bound variables and simplification interact only for particular names/shapes.", "anchors": ["third_party/.../symbolic_formula_cell.cc: FormulaForall::Substitute, FormulaAnd::Substitute", "third_party/.../symbolic_expression_cell.cc: *::Substitute"]}
{"id": "C21", "title": "delta-strengthening and weakening bracket the formula", "statement": "For delta>=0, the delta-strengthened formula implies the formula and the formula implies the delta-weakened one; strengthening then holding leaves slack delta in every inequality.", "quantifier": "every quantifier-free formula, delta and assignment", "why_tests_cant": "Formulas are unbounded trees with nested negation flipping the direction.", "anchors": ["dreal/symbolic/symbolic.cc: DeltaStrengthen, DeltaWeaken, DeltaStrengthenVisitor"]}
{"id": "C22", "title": "symbolic differentiation is correct", "statement": "The derivative expression returned for an expression evaluates to the derivative of the expression at every point of its domain where the rule applies.", "quantifier": "every expression of the supported operators, every variable, every point", "why_tests_cant": "Ranges over all expression trees and real points.", "anchors": ["third_party/.../symbolic_expression_cell.cc: *::Differentiate, DifferentiatePow"]}
{"id": "C23", "title": "free variables determine value", "statement": "The value of an expression and the truth of a formula depend only on the variables reported by GetVariables/GetFreeVariables.", "quantifier": "every expression/formula and every pair of environments agreeing on the reported variables", "why_tests_cant": "Ranges over all trees and pairs of environments.", "anchors": ["third_party/.../symbolic_formula_cell.cc: GetFreeVariables", "third_party/.../symbolic_expression_cell.cc: ExtractVariables"]}
{"id": "C24", "title": "push/pop restores the context", "statement": "After Push, any well-bracketed sequence of operations, and Pop, the context has the same assertions, the same variable domains and the same SAT clauses as before the Push, so a following CheckSat is about the same problem.", "quantifier": "every well-bracketed operation sequence of any nesting depth", "why_tests_cant": "Histories are unbounded.", "anchors": ["dreal/solver/context_impl.cc: Push, Pop", "dreal/solver/sat_solver.cc: Push, Pop"]}
{"id": "C25", "title": "scoped containers behave like stacks of snapshots", "statement": "ScopedVector, ScopedUnorderedMap and ScopedUnorderedSet behave, for every sequence of insert/push/pop, like an ordinary container whose push saves a snapshot and whose pop restores it; popping with no open scope is an error and changes nothing.", "quantifier": "every operation sequence", "why_tests_cant": "The undo log is history-dependent; overwrites at several depths interact.", "anchors": ["dreal/util/scoped_vector.h", "dreal/util/scoped_unordered_map.h", "dreal/util/scoped_unordered_set.h"]}
{"id": "C26", "title": "option precedence", "statement": "For every order in which an option is set from the default, the input file, the command line and the API, the effective value is the last one written by the highest-priority source that wrote it (API over command line over file over default).", "quantifier": "every sequence of sets from any source", "why_tests_cant": "Order-dependence over unbounded sequences.", "anchors": ["dreal/util/option_value.h: OptionValue", "dreal/solver/config.h"]}
{"id": "C27", "title": "set-option/get-option agree with the solver configuration", "statement": "After any sequence of set-option commands, get-option reports the last accepted value of each option, the configuration reflects exactly the accepted options, and a rejected value changes neither.", "quantifier": "every sequence of set-option commands with any keys and values", "why_tests_cant": "History-dependent and includes error paths.", "anchors": ["dreal/solver/context_impl.cc: SetOption, GetOption, ParseBooleanOption"]}
{"id": "C28", "title": "Minimize encodes exact optimality", "statement": "A point satisfies the constraints added by Minimize(f1..fk) together with the assertions exactly when it satisfies the assertions and no point of the domain satisfying the constraints is strictly smaller in every objective simultaneously.", "quantifier": "every constraint set, objective list, domain and assignment", "why_tests_cant": "The statement quantifies over all competing points.", "anchors": ["dreal/solver/context_impl.cc: Context::Impl::Minimize", "dreal/solver/context.cc: Maximize"]}
{"id": "C29", "title": "model contains exactly the user's variables", "statement": "After a satisfiable CheckSat, get_model reports exactly the variables declared by the user (never solver-internal ones), each with an interval inside its declared domain.", "quantifier": "every history of declarations, assertions with if-then-else, push/pop and checks", "why_tests_cant": "History-dependent: the extraction has a shortcut based on counts.", "anchors": ["dreal/solver/context_impl.cc: ExtractModel, mark_model_variable, AddToBox, Pop"]}
{"id": "C30", "title": "tightening stays inside the answer", "statement": "The model reported to the user is a non-empty sub-box of the box accepted by the solver, with every continuous dimension no wider than the precision and every over-wide integer dimension a single integer inside it.", "quantifier": "every accepted box, every precision", "why_tests_cant": "Rounding over all doubles.", "anchors": ["dreal/solver/context_impl.cc: Tighten, CheckSat"]}
{"id": "C31", "title": "changing a domain after a check cannot produce a wrong unsat", "statement": "After any sequence of checks and SetInterval/SetDomain calls, a CheckSat answering unsat means the assertions have no solution in the domains in force at that moment.", "quantifier": "every interleaving of SetInterval and CheckSat calls", "why_tests_cant": "Requires a history in which knowledge learned under one domain is reused under another.", "anchors": ["dreal/solver/context_impl.cc: SetInterval, CheckSatCore", "dreal/solver/forall_formula_evaluator.cc", "dreal/solver/sat_solver.cc: AddLearnedClause"]}
{"id": "C32", "title": "universally quantified constraints: VALID is sound", "statement": "When the evaluator of a forall constraint reports VALID on a box, the quantified formula holds at every point of the box, whatever boxes were evaluated before.", "quantifier": "every quantified formula, every sequence of evaluated boxes", "why_tests_cant": "Quantifies over all points, all values of bound variables and all evaluation histories.", "anchors": ["dreal/solver/forall_formula_evaluator.cc: ForallFormulaEvaluator::operator()"]}
{"id": "C33", "title": "forall contractor keeps solutions", "statement": "Pruning with a forall constraint by counterexamples removes only points at which the quantified formula is false.", "quantifier": "every quantified formula, box and counterexample sequence", "why_tests_cant": "Number of counterexample rounds is unbounded.", "anchors": ["dreal/contractor/contractor_forall.h: ContractorForall::Prune, PruneWithCounterexample"]}
{"id": "C34", "title": "SMT-LIB Boolean operators mean what the standard says", "statement": "The terms built for and, or, xor, =>, not, ite, =, distinct-like negated equality over Booleans and reals are true exactly when SMT-LIB says so.", "quantifier": "every operand list and assignment", "why_tests_cant": "Operand lists are unbounded and nest.", "anchors": ["dreal/smt2/parser.yy: term rules", "dreal/smt2/driver.cc"]}
{"id": "C35", "title": "define-fun is macro expansion", "statement": "Applying a defined function to arguments yields the body evaluated with the parameters bound to the arguments' values simultaneously; wrong arity or sort is rejected.", "quantifier": "every definition, every argument list, every assignment", "why_tests_cant": "Ranges over all bodies and arguments (including ones sharing variables).", "anchors": ["dreal/smt2/driver.cc: FunctionDefinition::operator()"]}
{"id": "C36", "title": "let bindings are local definitions", "statement": "A let term has the value of its body with the bound names denoting the bound terms, wherever the let occurs (top level, inside a defined function, under a quantifier).", "quantifier": "every nesting of let, define-fun and forall", "why_tests_cant": "Depends on where the binder occurs and how often it is instantiated.", "anchors": ["dreal/smt2/parser.yy: let_binding_list", "dreal/smt2/driver.cc: DeclareLocalVariable"]}
{"id": "C37", "title": "Boolean quantification is expansion", "statement": "Eliminating Boolean variables from a universally quantified formula gives a formula with no Boolean quantifier, equivalent to the original.", "quantifier": "every formula and every set of Boolean bound variables", "why_tests_cant": "Exponential expansion over arbitrary formulas.", "anchors": ["dreal/smt2/driver.cc: EliminateBooleanVariables", "dreal/smt2/parser.yy: forall"]}
{"id": "C38", "title": "names declared inside a pushed scope disappear at pop", "statement": "After (pop), names declared since the matching (push) are no longer usable; using one is an error and cannot alter another variable's domain or value.", "quantifier": "every script with push/pop and declarations", "why_tests_cant": "Script histories are unbounded.", "anchors": ["dreal/smt2/driver.h: PushScope, PopScope", "dreal/smt2/parser.yy: push, pop", "dreal/util/box.cc: operator[]"]}
{"id": "C39", "title": "checked integer conversions", "statement": "Converting 64-bit integers to int or double either returns exactly the same number or reports an error; is_integer is true exactly on doubles that are integers in int range. Bloating a finite double yields the interval between its two neighbouring doubles.", "quantifier": "all 2^64 inputs / all doubles", "why_tests_cant": "Domain is too large to enumerate.", "anchors": ["dreal/util/math.cc: is_integer, convert_int64_to_int, convert_int64_to_double", "dreal/util/interval.cc: BloatPoint"]}
{"id": "C40", "title": "constraint translation to the interval library is faithful", "statement": "The numerical constraint handed to the interval library for a comparison and polarity has exactly the same solutions as the comparison, except for the documented cases where no constraint is produced.", "quantifier": "every comparison, polarity and assignment", "why_tests_cant": "Ranges over all expressions and points.", "anchors": ["dreal/util/ibex_converter.cc: IbexConverter::Visit*"]}
{"id": "C41", "title": "interval evaluation encloses the value", "statement": "Evaluating an expression over a box returns an interval containing the expression's value at every point of the box where it is defined.", "quantifier": "every expression, every box, every point", "why_tests_cant": "Ranges over all expressions and real points.", "anchors": ["dreal/solver/expression_evaluator.cc: ExpressionEvaluator"]}
{"id": "C42", "title": "constraint-tree contractors are sound", "statement": "The contractor generated for a nested and/or formula never removes a point satisfying the formula.", "quantifier": "every negation-normal formula and box", "why_tests_cant": "Formula trees are unbounded.", "anchors": ["dreal/contractor/generic_contractor_generator.cc: GenericContractorGenerator"]}
{"id": "C43", "title": "script answers reflect the last check", "statement": "The printed sat/unsat answer, get-model and get-value report the state of the last CheckSat: a model is printed only after delta-sat, and after unsat get-model/get-value report an error or nothing, for every command sequence.", "quantifier": "every command sequence", "why_tests_cant": "History-dependent.", "anchors": ["dreal/smt2/driver.cc: CheckSat, GetModel, GetValue, PrintModel"]}
{"id": "C44", "title": "one-shot API calls agree with the context", "statement": "CheckSatisfiability(f, delta) and Minimize(objective, constraint, delta) give the answer of a fresh context containing exactly the free variables and the formula; the box argument is written only on success.", "quantifier": "every formula, objective and delta", "why_tests_cant": "Ranges over all formulas.", "anchors": ["dreal/api/api.cc"]}
{"id": "C45", "title": "variable-overlap test is exact", "statement": "The test deciding whether two formulas share a variable returns true exactly when the intersection is non-empty.", "quantifier": "every pair of sorted variable sequences", "why_tests_cant": "Merge loops have boundary cases of unbounded length.", "anchors": ["dreal/symbolic/symbolic.cc: HaveIntersection"]}
{"id": "C46", "title": "solver input language .dr: constraints and objectives are solved as written", "statement": "Running a .dr problem asserts every constraint once in order, minimizes exactly the listed objectives, and prints the verdict of that context.", "quantifier": "every problem", "why_tests_cant": "Ranges over all problems.", "anchors": ["dreal/dr/driver.cc: DrDriver::Solve"]}
{"id": "C47", "title": "worker thread pool runs every task exactly once", "statement": "Every task enqueued before the pool is destroyed is executed exactly once and the destructor returns only after all have finished, for every schedule.", "quantifier": "every number of threads/tasks and every interleaving", "why_tests_cant": "Schedules are unbounded.", "anchors": ["third_party/com_github_progschj_threadpool/ThreadPool/ThreadPool.h"]}
{"id": "C48", "title": "cached contractors and evaluators follow the current precision and box", "statement": "After changing the precision or the set of variables, the next check uses constraints built for the new precision and variables.", "quantifier": "every sequence of option changes, declarations and checks", "why_tests_cant": "History-dependent cache keyed by formula only.", "anchors": ["dreal/solver/theory_solver.cc: BuildContractor, BuildFormulaEvaluator"]}
{"id": "C49", "title": "parallel workers use separate per-thread entries", "statement": "The contractors and evaluators that keep one entry per job are entered by each thread at its own entry: thread numbers are distinct among the threads working for a solver and below its number of jobs, whatever solvers were created and destroyed before.", "quantifier": "every sequence of creating, using and destroying parallel solvers", "why_tests_cant": "Depends on the history of thread pools in the process.", "anchors": ["third_party/com_github_progschj_threadpool/ThreadPool/ThreadPool.h: get_thread_id, ~ThreadPool", "dreal/contractor/contractor_ibex_fwdbwd_mt.cc: GetCtcOrCreate", "dreal/solver/forall_formula_evaluator.cc: GetContext"]}
{"id": "C50", "title": "terms have a consistent order, equality and hash", "statement": "Less on expressions and on formulas is a strict weak order, as the ordered sets and maps of the standard library require; EqualTo is an equivalence that does not depend on hash values or on which cells happen to be shared; terms that are EqualTo are neither before nor after each other and mean the same; terms that are neither before nor after each other are EqualTo; a conjunction or disjunction, which keeps its operands in an ordered set, means the conjunction or disjunction of everything that was given to it, whatever the order of insertion.", "quantifier": "every pair or triple of expressions or formulas, every sharing of cells, every hash function consistent with ==, every sequence of insertions", "why_tests_cant": "Transitivity and consistency range over all triples of unbounded terms; a violation silently drops constraints from a set or corrupts the tree of a std::map.", "anchors": ["third_party/com_github_robotlocomotion_drake/dreal/symbolic/symbolic_expression.cc: Expression::Less, Expression::EqualTo", "third_party/com_github_robotlocomotion_drake/dreal/symbolic/symbolic_expression_cell.cc: Less, EqualTo of the cells", "third_party/com_github_robotlocomotion_drake/dreal/symbolic/symbolic_formula_cell.cc: Less, EqualTo of the cells", "third_party/com_github_robotlocomotion_drake/dreal/symbolic/hash.h: hash_combine"]}
{"id": "C51", "title": "numeric literals keep their value", "statement": "A decimal literal in an SMT-LIB file is read as the double that equals its exact decimal value or, if there is none, as the interval between the two neighbouring doubles around that value, whose representative is the nearer one; literals within the range of doubles are accepted; different literals are different terms.", "quantifier": "every lexeme the scanner recognises as a decimal number (any number of digits, any exponent, any sign)", "why_tests_cant": "There are unboundedly many literals; whether both directed roundings enclose the exact value depends on every digit.", "anchors": ["dreal/util/string_to_interval.cc: StringToInterval", "dreal/util/rounding_mode_guard.h: RoundingModeGuard", "dreal/smt2/scanner.ll: number rules", "dreal/smt2/parser.yy: DOUBLE, INT"]}
{"id": "C52", "title": "local optimisation only helps", "statement": "With local optimisation on, the counterexample to a universally quantified constraint is improved by an optimiser: the problem handed to it admits exactly the points of the counterexample query, it minimises the total violation of the constraints that mix quantified and other variables, only the quantified variables change, and whatever the optimiser answers no box loses a point that satisfies the quantified constraint.", "quantifier": "every quantified constraint, box and counterexample, every answer of the optimiser (success, failure, exception, any vector)", "why_tests_cant": "The optimiser is an external, numerically imprecise search whose answers cannot be enumerated; soundness has to hold for every answer.", "anchors": ["dreal/contractor/counterexample_refiner.cc: CounterexampleRefiner, Refine", "dreal/optimization/nlopt_optimizer.cc: AddConstraint, AddRelationalConstraint, SetMinObjective", "dreal/contractor/contractor_forall.h: ContractorForall::Prune", "dreal/symbolic/symbolic.cc: IsDifferentiable"]}
{"id": "C53", "title": "building and reading terms finishes", "statement": "Every arithmetic operation, comparison, substitution, differentiation and delta-strengthening of terms, every call of Minimize and the reading of every SMT-LIB script or .dr file finishes: with a result, an exception or (where the code has it) undefined behaviour, but never by endless recursion.", "quantifier": "all expressions, formulas, substitutions, scripts and files", "why_tests_cant": "The constructors of sums and products call each other on terms they have just built, so termination is a property of the whole recursion, not of any finite set of runs.", "anchors": ["third_party/com_github_robotlocomotion_drake/dreal/symbolic/symbolic_expression.cc: operator+=, operator*=", "third_party/com_github_robotlocomotion_drake/dreal/symbolic/symbolic_expression_cell.cc: ExpressionAddFactory, ExpressionMulFactory, Substitute, Differentiate", "dreal/symbolic/symbolic.cc: DeltaStrengthenVisitor", "dreal/smt2/parser.yy", "dreal/solver/context_impl.cc: Minimize"]}
{"id": "C54", "title": "propagation stops only at rest or when little is gained", "statement": "When interval propagation returns a non-empty box, then with the worklist option no constraint can narrow that box any further unless the stop rule applied; without it the last round over all constraints was accepted by the stop rule. The stop rule, although computed in floating point, accepts only if no variable's interval lost two percent of its width or became bounded, and refuses only if one lost at least 0.9 percent or became bounded. A constraint contractor that leaves the box non-empty reports as changed only components that changed, and the library-based ones record a constraint as used only if something changed.", "quantifier": "all boxes, lists of constraints, branching dimensions and sound constraint libraries whose narrowing of a box depends on the constraint's own variables", "why_tests_cant": "The worklist skips constraints by bookkeeping of inputs and outputs; a missing entry only shows as a weaker box on particular inputs, and rounding in the stop rule depends on the operands.", "anchors": ["dreal/contractor/contractor_worklist_fixpoint.cc: ContractorWorklistFixpoint::Prune, UpdateWorklist", "dreal/contractor/contractor_fixpoint.cc: ContractorFixpoint::Prune", "dreal/contractor/contractor_integer.cc: ContractorInteger::Prune", "dreal/contractor/contractor_ibex_fwdbwd.cc: Prune", "dreal/solver/theory_solver.cc: DefaultTerminationCondition"]}
{"id": "C55", "title": "the search splits where it must", "statement": "When pruning leaves a non-empty box that no constraint rules out, the search accepts it exactly if no splittable dimension belongs to a constraint that is still undecided at the precision; otherwise it splits the widest one of those dimensions. A box on which some constraint is false is given up, with such a constraint recorded in the explanation. The reported maximal width of a box and the reported width of an undecided quantified constraint are the largest ones there are.", "quantifier": "every box, every list of constraints, every evaluator, pruner, midpoint function and precision", "why_tests_cant": "The choice depends on widths of unboundedly many dimensions and on evaluations of arbitrary constraints, including infinite and undefined widths.", "anchors": ["dreal/solver/brancher.cc: BranchLargestFirst, FindMaxDiam", "dreal/solver/icp.cc: EvaluateBox", "dreal/solver/icp_seq.cc: CheckSat", "dreal/util/box.cc: MaxDiam", "dreal/solver/forall_formula_evaluator.cc: operator()"]}
{"id": "C56", "title": "the prefix form of a term reads back as the same term", "statement": "The prefix text of an expression or formula is one SMT-LIB term, and reading it gives a term with the same value at every point, provided names are legal symbols, constants are finite, zero or at least 2^-1020 in size and not integers between 2^53 and 10^19, and there are no quantifiers, uninterpreted functions or decimal literals. A printed constant is within half a unit of its 19th digit, and whatever the reader makes of it uses the same double; constants of at most 19 digits come back as themselves. Outside these conditions the text need not read back.", "quantifier": "every expression and formula, every assignment, every naming of the variables", "why_tests_cant": "It ranges over all terms and over all 2^64 doubles, whose decimal texts must determine them.", "anchors": ["dreal/symbolic/prefix_printer.cc: ToPrefix, PrefixPrinter", "dreal/smt2/scanner.ll", "dreal/smt2/parser.yy: term", "dreal/util/math.cc: convert_int64_to_double", "dreal/util/string_to_interval.cc: StringToInterval"]}
{"id": "C57", "title": "IsDifferentiable is right", "statement": "If the library says that an expression is differentiable, then it has a derivative with respect to every variable at every point at which its arithmetic operations are applied inside the open part of their domains. It says no exactly if an absolute value, minimum, maximum, if-then-else or uninterpreted function occurs; for a formula, exactly if a quantifier or such an expression in a comparison occurs.", "quantifier": "every expression, formula, point and variable", "why_tests_cant": "Differentiability at all points of all expressions is a statement about real functions; a test can only probe difference quotients.", "anchors": ["dreal/symbolic/symbolic.cc: IsDifferentiable", "dreal/contractor/counterexample_refiner.cc: CounterexampleRefiner"]}
{"id": "C58", "title": "The command line decides what runs and with which options", "statement": "The program runs a front end exactly when the command line is valid, names one existing file (or says --in) and its kind is known from --format or the extension; otherwise it exits with 1 (0 for --version and --help) and runs nothing. --in reads standard input. Every option given takes effect for the whole run and is not changed by set-option in the file; options not given have the last value accepted from the file or else the documented default; the precision in force is always positive.", "quantifier": "every command line, every set of files and every sequence of set-option commands in the file", "why_tests_cant": "Twenty options combine with each other and with the commands of the file; tests try a few lines.", "anchors": ["dreal/dreal_main.cc: MainProgram::ValidateOptions, ExtractOptions, Run", "dreal/util/filesystem.cc: get_extension", "dreal/util/option_value.h", "dreal/smt2/run.cc: RunSmt2", "dreal/dr/run.cc: RunDr"]}
{"id": "C59", "title": "An error during the parallel search is reported, never answered", "statement": "If an error occurs in some thread of a parallel search (an unsupported function is evaluated, the user presses Ctrl-C), the call reports it to the caller, as the sequential search does: it does not return an answer, does not wait forever, and no thread goes on using data of the finished call.", "quantifier": "every problem, number of jobs, interleaving of the threads, and every moment and thread in which errors occur", "why_tests_cant": "Errors arise in a particular thread at a particular moment; a test sees one interleaving, and a call that never returns or touches freed data may look like success.", "anchors": ["dreal/solver/icp_parallel.cc: Worker, IcpParallel::CheckSat", "dreal/solver/expression_evaluator.cc: VisitUninterpretedFunction", "dreal/util/interrupt.cc", "dreal/contractor/contractor_fixpoint.cc: ContractorFixpoint::Prune", "dreal/dreal_py.cc: sigint_handler"]}
{"id": "C60", "title": "The text of an SMT-LIB file determines its tokens, whatever the layout", "statement": "Every reserved word, symbol, quoted symbol, number, attribute, string and parenthesis of an SMT-LIB file reaches the parser as exactly the token it stands for, in order, with its own characters; blanks, line breaks and comments between them leave no trace, and may be omitted next to a parenthesis. Names the standard identifies are the same name, and names it distinguishes are different.", "quantifier": "every sequence of lexemes of any length and every choice of blanks and comments between them; for totality, every byte string", "why_tests_cant": "The rules compete by longest match and order, so whether one of ninety rules captures part of a neighbouring lexeme depends on all pairs of lexemes and all layouts; tests use a handful of files.", "anchors": ["dreal/smt2/scanner.ll: rules, states str and quoted"]}
{"id": "C61", "title": "The text of a .dr file determines its tokens, whatever the layout", "statement": "Every keyword, function name, identifier, number, bracket and operator of a .dr file reaches the parser as exactly the token it stands for, in order; blanks, line breaks and comments between them leave no trace. Next to an operator or bracket no gap is needed, except where two operators would merge into <=, >= or =>.", "quantifier": "every sequence of lexemes of any length and every choice of blanks and comments between them; for totality, every byte string", "why_tests_cant": "Longest match lets a rule reach into the next lexeme; whether it does depends on all pairs of neighbours and all spellings of numbers and names.", "anchors": ["dreal/dr/scanner.ll: rules"]}
