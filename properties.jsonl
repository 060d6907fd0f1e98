{"id": "C01", "title": "Postfix validity check is exact", "statement": "is_valid_postfix(nodes) returns true exactly when the node list is the post-order serialisation of one expression tree whose every operator has arity >= 1 and as many children as its arity; that tree is unique.", "quantifier": "every finite list of nodes", "why_tests_cant": "The set of node lists is infinite; a test samples a few shapes, and cannot show that no malformed list is accepted.", "anchors": ["dynamic_expressions/src/node_utils.rs: is_valid_postfix", "dynamic_expressions/src/node.rs: PNode"]}
{"id": "C02", "title": "Subtree sizes and ranges delimit exactly the subtree", "statement": "For every valid expression and every node index i, subtree_sizes succeeds and subtree_range(sizes, i) returns a range ending at i whose nodes are exactly the serialisation of the subtree rooted at i; the child ranges used by mutation and constraint checks are consecutive, disjoint, in argument order and cover the range minus its root.", "quantifier": "every valid expression, every node index", "why_tests_cant": "Unbounded depth and arity; an off-by-one shows only for particular nestings.", "anchors": ["dynamic_expressions/src/node_utils.rs: subtree_sizes, subtree_range", "symbolic_regression/src/mutation_functions.rs: child_ranges", "symbolic_regression/src/check_constraints.rs: child_ranges"]}
{"id": "C03", "title": "Tree folds compute the recursive value", "statement": "tree_mapreduce(nodes, leaf, branch, op) equals the recursive fold over the expression tree, with or without a reusable stack and whatever that stack held before; count_depth is the height of the tree; both panic on exactly the inputs that are not a serialised tree (arity 0 aside). The counters count_nodes, count_constant_nodes, count_variable_nodes, count_operator_nodes, the predicates has_constants, has_variables, has_operators and is_leaf, and max_arity give the tree's number of nodes of each kind, whether it has any, whether it is a leaf, and the largest number of children of a node.", "quantifier": "every node list, every leaf/branch/op function, every prior stack content", "why_tests_cant": "Needs all trees and all stack contents.", "anchors": ["dynamic_expressions/src/node_utils.rs: tree_mapreduce, tree_mapreduce_with_stack, count_depth", "dynamic_expressions/src/node_utils.rs: count_nodes, count_constant_nodes, count_variable_nodes, count_operator_nodes, has_constants, has_variables, has_operators, is_leaf, max_arity"]}
{"id": "C04", "title": "Compiled evaluation equals recursive evaluation", "statement": "For every valid expression, operator set, data matrix and evaluation options, eval_tree_array/eval_plan_array_into never panic, and when they report complete (or early exit is off) the output at every row is the value of the expression tree at that row computed recursively with the operators' scalar functions.", "quantifier": "every valid expression, data matrix (any number of rows and features), constants, operator set, options, number type", "why_tests_cant": "Slot allocation and reuse is exercised by unboundedly many tree shapes; a slot aliasing bug needs a specific nesting.", "anchors": ["dynamic_expressions/src/compile.rs: compile_plan", "dynamic_expressions/src/evaluate.rs: eval_tree_array, eval_plan_array_into, kernels::eval_nary"]}
{"id": "C05", "title": "Compiled plans never alias or read unwritten slots", "statement": "In every plan produced by compile_plan no instruction reads its own destination slot, every slot read was written by an earlier instruction and not overwritten in between, all slot indices are below n_slots, and n_slots is at most the number of operators and at most the expression depth plus (depth-1)*(D-1).", "quantifier": "every valid expression", "why_tests_cant": "Quantifies over all trees; the panic 'source references dst slot' is reachable only if the allocator is wrong for some shape.", "anchors": ["dynamic_expressions/src/compile.rs: compile_plan", "dynamic_expressions/src/evaluate.rs: resolve_val_src"]}
{"id": "C06", "title": "Completion flag tells whether all intermediate values were finite", "statement": "With check_finite on, evaluation of an expression returns complete = true iff every operator application at every row (and a bare constant root) produced a finite value; with check_finite off it always returns true. In particular complete = true implies a finite output for every expression that is not a bare variable.", "quantifier": "every valid expression, data, options", "why_tests_cant": "Every expression and every data matrix; the refutation for a bare variable needs the right shape.", "anchors": ["dynamic_expressions/src/evaluate.rs: eval_plan_array_into, kernels::eval_nary, __maybe_mark_nonfinite"]}
{"id": "C07", "title": "Reusing an evaluation context does not change results", "statement": "Evaluating through a context that has served any history of earlier evaluations gives the same output, flag and no panic, as evaluating through a fresh one, as long as no formula evaluated earlier in the same context has the same length and the same 64-bit plan hash as this one without being equal to it; with such a collision it need not (refuted).", "quantifier": "every history of evaluations on one context, every expression", "why_tests_cant": "History dependent: stale plans or stale scratch contents appear only after particular sequences.", "anchors": ["dynamic_expressions/src/evaluate.rs: EvalContext::setup, needs_recompile, ensure_scratch", "dynamic_expressions/src/evaluate_derivative.rs: DiffContext, GradContext"]}
{"id": "C08", "title": "Forward derivative follows the chain rule", "statement": "eval_diff_tree_array returns at each row the value of the expression and the directional derivative obtained by applying the chain rule with the operators' partial functions along the tree (derivative of the chosen variable is one, of every other leaf zero); it never reaches its 'malformed expression' panic.", "quantifier": "every valid expression, direction, data, options", "why_tests_cant": "All shapes and all mixes of constant/variable/computed arguments.", "anchors": ["dynamic_expressions/src/evaluate_derivative.rs: eval_diff_tree_array", "dynamic_expressions/src/evaluate.rs: kernels::diff_nary, grad_unary_loop, grad_binary_loop"]}
{"id": "C09", "title": "Gradient agrees with the per-direction derivative", "statement": "eval_grad_tree_array returns, for each variable (or each constant slot) d and row r, at position d*n_rows + r, the chain-rule derivative with respect to d; for variables this is what eval_diff_tree_array returns in direction d. The history of the context does not matter unless the 64-bit plan hash confuses the formula with another of the same length seen in it; and even then the call does not panic: it returns the value and gradient of the other formula with the constants of this one.", "quantifier": "every valid expression, data, options", "why_tests_cant": "All shapes, all directions; layout errors show only with several rows and directions.", "anchors": ["dynamic_expressions/src/evaluate_derivative.rs: eval_grad_tree_array", "dynamic_expressions/src/evaluate.rs: kernels::grad_nary, grad_dir_view", "dynamic_expressions/src/dispatch.rs: grad_at"]}
{"id": "C10", "title": "Constant compression preserves meaning", "statement": "compress_constants leaves the value of the expression unchanged, makes the constants exactly the ones used, numbered in order of first use, is idempotent, and returns true iff it changed something.", "quantifier": "every expression whose constant indices are in range", "why_tests_cant": "All expressions, including shared, unused and permuted constants.", "anchors": ["dynamic_expressions/src/utils.rs: compress_constants"]}
{"id": "C11", "title": "Constants can be read and written back", "statement": "set_scalar_constants after get_scalar_constants is the identity; setting then getting returns the values set; setting constants changes nothing but the constants, and panics iff the number of values differs from the number of constants.", "quantifier": "every expression, every value vector", "why_tests_cant": "All expressions and vectors.", "anchors": ["dynamic_expressions/src/utils.rs: get_scalar_constants, set_scalar_constants"]}
{"id": "C12", "title": "Operator overloading composes meanings", "statement": "Building an expression from sub-expressions with +,-,*,/,neg or the generic application yields an expression whose value at every row is the operator applied to the values of the parts, with the parts' constants kept apart; it stays valid, and it panics only when constants exceed the 16-bit index space.", "quantifier": "every tuple of valid expressions, every operator", "why_tests_cant": "All expressions; constants colliding needs a particular mix.", "anchors": ["dynamic_expressions/src/expression_algebra.rs: __apply_postfix"]}
{"id": "C13", "title": "Constant folding preserves value and never grows the tree", "statement": "simplify's folding step leaves the value of the expression at every input unchanged (bit for bit, in any arithmetic), yields a valid expression with no more nodes, folds every all-constant operator whose result is finite, and keeps non-finite ones.", "quantifier": "every valid expression, constants, operator set", "why_tests_cant": "All expressions; a wrong frame boundary needs a specific nesting.", "anchors": ["dynamic_expressions/src/simplify.rs: simplify_tree_in_place"]}
{"id": "C14", "title": "Operator combination preserves value", "statement": "simplify's re-association of +, -, * with constants leaves the mathematical value of the expression (exact arithmetic) unchanged for every input.", "quantifier": "every valid expression, constants, operator set", "why_tests_cant": "All shapes; the counterexample requires an operator-id coincidence across arities.", "anchors": ["dynamic_expressions/src/simplify.rs: combine_operators_in_place, combine_node"]}
{"id": "C15", "title": "Simplification yields a well-formed expression that is no larger", "statement": "simplify_in_place returns a valid expression with at most as many nodes as before, using only operators and variables that occurred before, with constants exactly the used ones.", "quantifier": "every valid expression", "why_tests_cant": "All shapes.", "anchors": ["dynamic_expressions/src/simplify.rs: simplify_in_place, parse_postfix_to_arena, emit_postfix"]}
{"id": "C16", "title": "Operator lookup is deterministic and reports ambiguity", "statement": "lookup_with_arity(token, arity) returns the unique operator of that arity matching the trimmed token (name case-insensitively, display or infix symbol exactly), Unknown when none matches and Ambiguous when several do; lookup does the same over all arities; the answer does not depend on table order.", "quantifier": "every operator table, every token", "why_tests_cant": "All tokens and tables.", "anchors": ["dynamic_expressions/src/traits.rs: OperatorSet::lookup, lookup_with_arity, matches_token"]}
{"id": "C17", "title": "Operator registries hold each requested operator once", "statement": "Building the registry from names (all arities, or per arity) either returns exactly the requested operators, each under its own arity and none twice, or an error naming an unknown/ambiguous/duplicate/wrong-arity token; sampling an operator never returns one outside the registry and never panics when the registry is non-empty for that arity.", "quantifier": "every list of names, every random stream", "why_tests_cant": "All name lists; all random draws.", "anchors": ["symbolic_regression/src/operators.rs: Operators::from_names, from_names_by_arity, push, sample_arity, sample_op"]}
{"id": "C18", "title": "Random expressions are valid and within size", "statement": "random_expr and random_expr_append_ops return, for every random stream, a valid expression over the given operators and features with in-range constant indices whose size does not exceed the requested size bound (or is the documented minimum), and never panic for a non-empty operator set.", "quantifier": "every random stream, operator registry, feature count, size", "why_tests_cant": "All random streams.", "anchors": ["symbolic_regression/src/mutation_functions.rs: random_expr, random_expr_append_ops"]}
{"id": "C19", "title": "Mutations keep expressions well-formed", "statement": "Every tree mutation (constant, operator, feature, swap, rotate, insert, prepend, append, add, delete, randomize) applied to a valid expression over the registry gives, for every random stream, a valid expression over the same registry and feature range with all constant indices in range; a mutation reporting failure leaves the expression unchanged.", "quantifier": "every valid expression, every random stream, every mutation", "why_tests_cant": "All expressions and all random choices.", "anchors": ["symbolic_regression/src/mutation_functions.rs: mutate_*, swap_operands_in_place, rotate_tree_in_place, insert_random_op_in_place, prepend_random_op_in_place, append_random_op_in_place, delete_random_op_in_place"]}
{"id": "C20", "title": "Crossover exchanges two subtrees", "statement": "crossover_trees returns two valid expressions obtained by exchanging one subtree of each parent: total node count is conserved, every constant keeps its value, and the values of the untouched parts are unchanged.", "quantifier": "every pair of valid expressions, every random stream", "why_tests_cant": "All pairs and choices.", "anchors": ["symbolic_regression/src/mutation_functions.rs: crossover_trees"]}
{"id": "C21", "title": "Swap and rotate only rearrange", "statement": "Swapping operands or rotating the tree keeps the multiset of nodes and the constants; swapping changes only the order of the operands of one operator.", "quantifier": "every valid expression, every random stream", "why_tests_cant": "All shapes and choices.", "anchors": ["symbolic_regression/src/mutation_functions.rs: swap_operands_in_place, rotate_tree_in_place"]}
{"id": "C22", "title": "Complexity is the sum of configured node costs", "statement": "compute_complexity is the number of nodes by default, and with custom costs it is the saturating sum over all nodes of the configured variable, constant and operator costs; it does not depend on tree shape otherwise and never panics on a valid expression.", "quantifier": "every valid expression, every cost table", "why_tests_cant": "All expressions and tables, including overflow.", "anchors": ["symbolic_regression/src/complexity.rs: compute_complexity, compute_custom_complexity_checked"]}
{"id": "C23", "title": "Constraint check is exact", "statement": "check_constraints accepts an expression iff its complexity is at most the current maximum, its depth at most the maximum depth, every limited operator argument has complexity at most its limit, and no nested-operator limit is exceeded, each stated on the expression tree.", "quantifier": "every valid expression, every option set", "why_tests_cant": "All expressions and constraint tables.", "anchors": ["symbolic_regression/src/check_constraints.rs: check_constraints, child_ranges"]}
{"id": "C24", "title": "Hall of fame keeps the best per complexity", "statement": "After any sequence of considered members, each hall-of-fame slot of complexity c holds a member of complexity c that satisfies the constraints and whose cost is no worse than that of every considered feasible member of the same complexity (ties keep the earlier); slots never get worse and never become empty.", "quantifier": "every sequence of considered members", "why_tests_cant": "History property over all sequences.", "anchors": ["symbolic_regression/src/hall_of_fame.rs: HallOfFame::consider, members"]}
{"id": "C25", "title": "Pareto front is exactly the non-dominated set", "statement": "pareto_front returns, in order of strictly increasing complexity and strictly decreasing loss, exactly the hall-of-fame members whose loss is strictly lower than that of every member of smaller complexity (and below infinity).", "quantifier": "every hall of fame content, including NaN and infinite losses", "why_tests_cant": "All contents.", "anchors": ["symbolic_regression/src/hall_of_fame.rs: HallOfFame::pareto_front"]}
{"id": "C26", "title": "Regularised evolution replaces the oldest members", "statement": "replace_oldest removes exactly the first member with the least birth stamp and keeps all others in place; replace_two_oldest removes the two oldest distinct members; population size never changes.", "quantifier": "every population, every newcomer", "why_tests_cant": "All populations including ties.", "anchors": ["symbolic_regression/src/population.rs: oldest_index, two_oldest_indices, replace_oldest, replace_two_oldest"]}
{"id": "C27", "title": "Migration copies members under fresh identities", "statement": "migrate_into keeps the population size and replaces exactly as many members as the sampled number, but no more than there are members or migrants; each replaced place holds a copy of one of the migrants with the expression, loss and cost unchanged, a fresh id and birth stamp, and the migrant's id as parent; all other members stay untouched.", "quantifier": "every population, migrant pool, random stream", "why_tests_cant": "All random choices.", "anchors": ["symbolic_regression/src/migration.rs: migrate_into, best_sub_pop"]}
{"id": "C28", "title": "Tournament selection picks the best of a uniform sample", "statement": "best_of_sample draws pairwise distinct in-range members and returns, for the drawn place k, a member of the sample that has exactly k sample members ranked before it by (parsimony-adjusted) cost; with place 0 no sampled member has a lower adjusted cost.", "quantifier": "every population, sample size, random stream", "why_tests_cant": "All random choices and cost ties.", "anchors": ["symbolic_regression/src/selection.rs: best_of_sample, sample_indices, sample_tournament_place"]}
{"id": "C29", "title": "Weighted choice respects zero weights", "statement": "weighted_index returns an in-range index and panics exactly on invalid weight vectors. In exact arithmetic the index has positive weight and is the one into whose share of the total the draw falls. In binary64 the zero-weight guarantee fails: rounding can make the loop fall through to the last index even if its weight is zero (refuted by a witness). For given binary64 weights this depends on the largest draw only: if the draw 1 - 2^-53 leads to an index of positive weight, every draw does.", "quantifier": "every non-negative weight vector, every draw", "why_tests_cant": "All weights and draws; in floating point the fall-through needs a crafted vector.", "anchors": ["symbolic_regression/src/selection.rs: weighted_index"]}
{"id": "C30", "title": "Frequency statistics stay positive and bounded", "statement": "The adaptive-parsimony statistics keep one frequency, at least 1, per complexity; observing changes only the counter of the observed complexity, by one; normalising gives proportions summing to one. In exact arithmetic move_window lowers all frequencies by one common amount, not below 1, never below the window total, and reaches the window size or all ones whenever unequal frequencies differ by at least 1e-6. In binary64 the window total is not enforced (refuted by a reachable witness). In a running search, whatever the schedule, the statistics are those obtained from all ones by counting the complexities of each delivered population in order of delivery, moving the window of 100000 after each; a task evolves with the normalised statistics of the moment it was dispatched. In binary64 with fewer than 2^53 complexities, after any history of calls, every frequency is a finite number from 1 to 2^53 and every proportion a finite number, greater than 0 and at most 1.", "quantifier": "every sequence of updates; every schedule of a search", "why_tests_cant": "History property.", "anchors": ["symbolic_regression/src/adaptive_parsimony.rs: RunningSearchStatistics", "symbolic_regression/src/search_utils.rs: apply_task_result, dispatch in step_one_cycle and run_scoped_search"]}
{"id": "C31", "title": "Warm-up size limit is monotone and bounded", "statement": "The current maximum size during warm-up lies between 3 and maxsize, never decreases as cycles complete, and equals maxsize once warm-up is over or disabled. This holds in the code's own binary32 arithmetic, for every maxsize from 3 to 2^23 and every number of cycles from 1 to 2^64. The last warm-up step, which ends at maxsize in exact arithmetic, can fall one short in binary32 until the next cycle (refuted by a witness: 10 cycles, warm-up fraction 0.9, maxsize 6). A maxsize below 3 panics during warm-up.", "quantifier": "every option set and cycle count", "why_tests_cant": "All cycle counts and sizes.", "anchors": ["symbolic_regression/src/warmup.rs: get_cur_maxsize"]}
{"id": "C32", "title": "Constant optimisation never makes a member worse", "statement": "optimize_constants reports success only if the loss on the given dataset of the new constants is strictly below that of the old ones, and then the loss, cost and complexity stored are those of the new constants; otherwise the constants, birth, loss and cost are as before. The tree shape, the number of constants, the identity and the plan never change. (The loss comparison supposes that the plan hash tells the formula from the others whose gradients used the same context; without that supposition it still never panics.)", "quantifier": "every member, dataset, optimiser outcome, random stream", "why_tests_cant": "All optimiser traces.", "anchors": ["symbolic_regression/src/constant_optimization.rs: optimize_constants"]}
{"id": "C33", "title": "Line search only accepts sufficient decrease", "statement": "A step accepted by the backtracking line search is the point x + alpha s, with a finite objective value satisfying the Armijo condition in the machine's arithmetic; in exact arithmetic the decrease is at least c1*alpha*|slope|. When BFGS returns a result, it is the objective at the returned point, finite, and no larger than at the start; the same for Newton in one dimension if at least one iteration is allowed (with none it returns the start with the value infinity). The objective is called at most limit+1 times by BFGS and limit+2 times by Newton, and the count reported is the number of calls. A line search that fails (also by running out of budget) discards the progress made: no result is returned. All of this but the exact amount of the decrease holds in IEEE binary64 arithmetic, for every objective, start point and budget.", "quantifier": "every objective function, start point and budget", "why_tests_cant": "All objective functions.", "anchors": ["symbolic_regression/src/optim.rs: backtracking_linesearch, bfgs_minimize, newton_1d_minimize"]}
{"id": "C34", "title": "Loss and cost definitions", "statement": "The aggregated loss is the weighted (or plain) mean of the pointwise loss (0 when the weights sum to 0), and RMSE is the square root of the mean squared loss; cost is the loss divided by the baseline loss, if that is used, finite and at least 0.01, and by 0.01 otherwise, plus parsimony times complexity; evaluating a member stores the loss and cost of its expression on the dataset when every value is finite, and infinite loss and cost otherwise. The average of the target that a dataset stores is the weighted mean of the target (the plain mean without weights, 0 without rows).", "quantifier": "every prediction, target and weight vector", "why_tests_cant": "All vectors.", "anchors": ["symbolic_regression/src/loss_functions.rs", "symbolic_regression/src/pop_member.rs: evaluate", "symbolic_regression/src/dataset.rs: compute_avg_y"]}
{"id": "C35", "title": "Batches are rows of the full dataset", "statement": "After resampling, every batch row (features, target, weight) equals one row of the full dataset, the same row for all columns; sizes are those of the buffer; the full dataset is unchanged. With batching on, each of the two phases of a task (evolution, then optimisation) works on such a batch of max(batch_size, 1) rows drawn anew with the population's generator; with batching off, on the full data. Drawing a batch touches no member and no counter.", "quantifier": "every dataset, batch size, random stream, task", "why_tests_cant": "All random draws.", "anchors": ["symbolic_regression/src/dataset.rs: resample_from, make_batch_buffer", "symbolic_regression/src/search_utils.rs: execute_task"]}
{"id": "C36", "title": "Shuffles are permutations", "statement": "The shuffle used for scheduling and data splitting returns a permutation of its input for every random stream, and every permutation is reachable.", "quantifier": "every list, every random stream", "why_tests_cant": "All lengths, all streams.", "anchors": ["symbolic_regression/src/random.rs: shuffle", "web/wasm/src/lib.rs: shuffle"]}
{"id": "C37", "title": "Search engine performs exactly the configured cycles", "statement": "Stepping a new engine with any sequence of step sizes performs exactly min(total requested, niterations*populations) cycles and the calls report exactly these; cycles go round the populations in shuffled rounds, so at any time two populations differ by at most one cycle, and on completion each has been advanced exactly niterations times; splitting a step into several gives the identical engine and total; after completion steps change nothing; run_to_completion terminates and equals stepping by the total.", "quantifier": "every configuration and every sequence of step calls", "why_tests_cant": "History property over all step sequences.", "anchors": ["symbolic_regression/src/search_utils.rs: SearchEngine::step, step_one_cycle, prepare_iteration, run_to_completion, SearchCounters"]}
{"id": "C38", "title": "Parallel scheduling loses no population", "statement": "For every order in which worker results arrive and every number of threads: the parallel search never has more tasks in flight than workers; no population is ever in two tasks, and one is missing from the pool exactly while its task is in flight; the k-th dispatched task gets the size limit for cycle k; when the coordinator finishes, every population has been advanced exactly niterations times and all are back; it performs at most niterations*(2*populations+1) actions and never waits when no task is in flight; with one worker it ends in exactly the state of the stepwise engine. Refuted: if a task panics (as happens with batching when the batch size is not the number of rows) the coordinator waits forever instead of propagating the panic.", "quantifier": "every completion order, worker count, population count, iteration count", "why_tests_cant": "Thread schedules: all interleavings.", "anchors": ["symbolic_regression/src/search_utils.rs: equation_search_parallel, run_scoped_search, run_iteration_phase, execute_task, apply_task_result"]}
{"id": "C39", "title": "Members have distinct identities", "statement": "With skip_mutation_failures on (the default): at every moment of a search, under any schedule, the ids of one population's members are pairwise distinct and lie in that population's id block; while no population has used up its block of 2^32 ids, ids are distinct across populations; ids are only taken from a growing counter, so an id that has left a population never comes back; copies made by migration get new ids. Refuted when skip_mutation_failures is off: a failed crossover puts copies of its parents, ids included, into the population.", "quantifier": "every run, every random stream", "why_tests_cant": "History property.", "anchors": ["symbolic_regression/src/search_utils.rs: init_populations", "symbolic_regression/src/regularized_evolution.rs", "symbolic_regression/src/mutate.rs: next_generation, crossover_generation", "symbolic_regression/src/migration.rs"]}
{"id": "C40", "title": "Printed form determines the expression", "statement": "Printing an expression: stripping outer brackets removes exactly the pairs that enclose the whole text, for any text; the printed text is balanced, not empty and not enclosed in brackets as a whole; two expressions that print alike are the same tree with constants that print alike (so they compute the same function when different constants print differently), whenever variable names, constants and operator symbols are words that can be told apart — proved for the built-in operators with the default variable names. Refuted without those conditions: a variable-name list shorter than the features, or names with blanks, can make different expressions print alike.", "quantifier": "every text; every pair of valid expressions; plain and pretty form", "why_tests_cant": "All pairs of expressions.", "anchors": ["dynamic_expressions/src/strings.rs: string_tree, strip_outer_parens"]}
{"id": "C41", "title": "Train/validation split partitions the rows", "statement": "The validation and training rows of the web front end's split are a partition of all rows (each row in exactly one, once), for every seed; the validation list has the rounded requested size (within half a row of the clamped fraction, exact arithmetic); the two datasets are made of exactly those rows in that order, with features, target and weight copied; out-of-range rows are refused; with six or more rows the training set is not empty. Refuted: with five rows and fraction 0.9 the training set is empty.", "quantifier": "every row count, fraction, seed, dataset", "why_tests_cant": "All sizes and seeds.", "anchors": ["web/wasm/src/lib.rs: make_split_indices, split_train_val, select_rows"]}
{"id": "C42", "title": "Evolution step only admits feasible offspring", "statement": "Let every node cost at least 1 and sizes stay well below 2^16. If every member of a population is sound (complete tree over the configured operators and features, plan compiled from it, complexity of that expression, cost computed from its loss) then, for every random stream: a mutation step yields a sound child under the next id and birth stamp, feasible at the current maximum size if accepted and otherwise with exactly its parent's expression, loss and cost; a crossover yields two sound feasible children or the two parents; a cycle keeps the population size, and each member that was not there before is feasible or a copy of one that was; a whole iteration does the same, and the hall of fame it returns holds at each complexity only sound feasible members of that complexity, being the hall of fame of a history containing the starting and final populations; optimising and simplifying keeps members in their places with their ids, never adds nodes, and leaves all of them sound.", "quantifier": "every run, every random stream", "why_tests_cant": "History property over whole runs.", "anchors": ["symbolic_regression/src/mutate.rs: next_generation, crossover_generation", "symbolic_regression/src/regularized_evolution.rs: reg_evol_cycle", "symbolic_regression/src/single_iteration.rs"]}
{"id": "C43", "title": "Mutation weights are conditioned on the tree", "statement": "After conditioning, every mutation that cannot apply (constant mutation or optimisation on a tree without constants, operator mutation or deletion on a leaf, operand swap without a binary operator, growth at the size limit of an operator tree, feature mutation with a single feature or on a constant, disabled simplification) has weight zero and every applicable one keeps its weight (constant mutation scaled by min(n,8)/8); in exact arithmetic the sampled mutation is applicable, and sampling panics exactly if no positive weight remains. In binary64 sampling can fall through to the last choice of weight zero (refuted by a witness). In binary64, with the default weights, the sampled mutation is applicable and has a positive weight for every expression, size limit, set of options and draw.", "quantifier": "every expression, weight vector, option set", "why_tests_cant": "All expressions.", "anchors": ["symbolic_regression/src/mutate.rs: condition_mutation_weights, sample_mutation"]}
{"id": "C44", "title": "Wrapped equations lose no characters", "statement": "Wrapping an equation for the hall-of-fame table never fails, cuts no character in two and loses none: the lines, without their trailing dots, concatenate to the equation, and none is longer than the room left next to the statistics (at least 13 bytes). In the plain-text table every member's lines spell out its whole equation, and no line is wider than the terminal (at least 80 columns), as long as the statistics columns leave 14 columns. Whatever the width of the statistics, the table is always produced, with at least one line for each member shown; every line is well-formed text that fits the terminal: a line that is too long is cut between two characters, after as many as fit.", "quantifier": "every UTF-8 string, terminal width, statistics width, member list", "why_tests_cant": "All strings.", "anchors": ["symbolic_regression/src/progress_bars.rs: wrap_equation, truncate_to_width, format_hall_of_fame"]}
{"id": "C45", "title": "The web dataset is the chosen CSV columns", "statement": "The web front end accepts a table exactly when it has rows, at least two columns, all rows of one width, and the target, weight and feature columns exist and are different; otherwise it returns an error, never a panic. An accepted dataset has the table's rows in order, the chosen target column, the chosen feature columns (all the others by default) in increasing order without repetition, the chosen weights, and the headings of exactly those columns as variable names.", "quantifier": "every table, header row and column choice", "why_tests_cant": "All tables and column choices.", "anchors": ["web/wasm/src/lib.rs: build_full_dataset"]}
{"id": "C46", "title": "Everything a running search holds is well formed, consistent and (where reported) feasible", "statement": "At every moment of a parallel search, under every schedule of the workers, and after every sequence of engine steps: every population holds exactly population_size members; every member anywhere (populations at home or in a task, the best of each population, the hall of fame, the best overall) has a valid expression over the registered operators and the data's features, a compiled plan that is the plan of that expression, the complexity of that expression, and a cost derived from its loss; every hall-of-fame entry is stored under its own complexity, between 1 and maxsize, and satisfies all size, depth and nesting constraints. So does every equation of the Pareto front.", "quantifier": "all configurations with u16-sized options and a positive cost per node, all data, seeds, schedules of worker results, and moments of the search", "why_tests_cant": "the members that reach the hall of fame depend on the random streams and on the order in which worker results arrive", "anchors": ["symbolic_regression/src/search_utils.rs: equation_search_parallel, run_scoped_search, SearchEngine::step, execute_task, apply_task_result, init_populations", "symbolic_regression/src/hall_of_fame.rs", "symbolic_regression/src/mutate.rs", "symbolic_regression/src/migration.rs"]}
{"id": "C47", "title": "Reported losses are the losses of the reported expressions on the data", "statement": "The best member reported, and the best members of every population, always carry the loss of their own expression on the full data (infinity if evaluation fails), also with mini-batches. Without mini-batches, and if simplification does not change losses (proved for exact arithmetic), the same holds of every member of every population, of the hall of fame and of the Pareto front. It fails otherwise: with mini-batches the hall of fame and the Pareto front keep losses measured on a batch; and in binary64 the Simplify mutation stores its parent's loss with an expression whose loss differs.", "quantifier": "all configurations, data, seeds, schedules and moments of the search", "why_tests_cant": "whether a stored loss belongs to the stored expression depends on every path that copies, mutates, migrates or re-evaluates members, in every interleaving", "anchors": ["symbolic_regression/src/search_utils.rs: execute_task, apply_task_result", "symbolic_regression/src/single_iteration.rs", "symbolic_regression/src/mutate.rs: next_generation, crossover_generation", "symbolic_regression/src/pop_member.rs: evaluate", "symbolic_regression/src/constant_optimization.rs"]}
{"id": "C48", "title": "The reported best is the best feasible member delivered", "statement": "At every moment of a search (parallel, under every schedule, or stepwise) the best member reported is an initial member or one a worker delivered; it satisfies all constraints if any initial member does; and no initial member, and no member delivered so far, that satisfied the constraints when it arrived has a lower loss. It need not have the lowest loss the search has seen: members seen during a task and lost before its end enter the hall of fame only, so a member of the Pareto front can beat the reported best.", "quantifier": "all configurations, data, seeds, schedules and moments of the search; arithmetic whose comparison is a strict order on numbers (proved for binary32/64)", "why_tests_cant": "the order in which results are compared is the schedule's; ties, infeasible members and NaN losses arise only in some runs", "anchors": ["symbolic_regression/src/search_utils.rs: apply_task_result, init_populations, SearchResult, SearchEngine::best", "symbolic_regression/src/check_constraints.rs"]}
{"id": "C49", "title": "A search with sane options never panics", "statement": "If the options are consistent (at least one population of at least two members, tournaments of at least one, mutation weights that are finite, not negative and can be drawn from after conditioning, tournament probability that can be drawn with, an operator registry with known operators, sizes that fit the 16-bit encodings, no batching or batches with as many rows as the data) and the data are well-formed, then neither creating the stepwise engine, nor any sequence of step calls, nor running it to the end panics; and in the parallel search, with any number of workers and any order of results, no worker panics, no arriving result and no dispatch makes the coordinator panic, so the search never hangs on a lost task. The default mutation weights and tournament options can always be drawn from in binary64. With the default options in binary64 all conditions on the options hold, so such a search on well-formed data never panics, whatever the data, operators, built-in loss, seed, number of threads and order of arrival, and whatever collisions the 64-bit plan hash has. Without the conditions on batch size, weights, tournament, number and size of the populations, searches do panic (refuted): in particular every search with batching and a batch size other than the number of rows panics at its first step.", "quantifier": "every configuration meeting the conditions, dataset, random stream, sequence of step calls, number of workers and order of arrival of results", "why_tests_cant": "a panic needs a particular expression, draw and interleaving; tests run a few seeds, while the code has some forty expect/assert/index sites reachable from the search loop", "anchors": ["symbolic_regression/src/search_utils.rs: equation_search_parallel, SearchEngine::step, SearchEngine::new", "symbolic_regression/src/single_iteration.rs", "symbolic_regression/src/regularized_evolution.rs", "symbolic_regression/src/mutate.rs: next_generation, condition_mutation_weights, sample_mutation", "symbolic_regression/src/selection.rs", "symbolic_regression/src/pop_member.rs: evaluate, Evaluator::ensure_n_rows", "symbolic_regression/src/constant_optimization.rs", "symbolic_regression/src/options.rs"]}
{"id": "C50", "title": "Losses and costs are never NaN", "statement": "Every member a search holds (in any population, among the best delivered, in the hall of fame, as the best) has a loss that is a finite number or +infinity, and a cost that is the normalised loss plus parsimony times complexity, or +infinity after a failed evaluation. In binary64 this cost is never NaN as long as parsimony times complexity is finite, so any two costs can be compared and sorting by cost is consistent. The costs compared in a tournament are numbers if frequencies are not used there or the factor exp(scaling * frequency) is finite and not zero. Exception (refuted): with the default scaling of 1040, a perfect member (cost 0) of a size more than about 70% of recent members have gets the adjusted cost NaN and can lose to a worse member of the same size in a tournament that always takes the best.", "quantifier": "all searches (schedules, settings, data, random streams, user loss functions) and every state they reach; all binary64 losses, baselines and parsimonies", "why_tests_cant": "one NaN in a sort or a comparison is enough to corrupt the ordering; NaNs come from rare data and overflow", "anchors": ["symbolic_regression/src/pop_member.rs: evaluate", "symbolic_regression/src/loss_functions.rs: loss_to_cost", "symbolic_regression/src/selection.rs: best_of_sample"]}
{"id": "C51", "title": "Derivatives of the builtin operators are their derivatives", "statement": "For every builtin operator and every point where the function is differentiable (inside its domain, away from its kinks), the partial derivative the library computes with respect to each argument is, over the real numbers, the derivative of the value the library computes; and along every differentiable curve of arguments the value changes at the rate the chain rule gives from these partials. Exception (refuted): clamp(x, lo, hi) with hi < x < lo, where the value is lo but the partial with respect to hi is 1.", "quantifier": "all 40 builtin operators, all arguments at which the operator is smooth, all curves through them; exact real arithmetic", "why_tests_cant": "tests compare a few points against finite differences with a tolerance; a wrong factor in an unusual region or an uncommon operator passes", "anchors": ["dynamic_expressions/src/operator_enum.rs: builtin, UnaryOp::partial, BinaryOp::partial, TernaryOp::partial"]}
{"id": "C52", "title": "Derivatives and gradients of an expression are its derivatives", "statement": "Over the real numbers, for every valid expression of builtin operators and every row at which all its operators are smooth at the values they are applied to, evaluating the derivative in a direction returns the derivative of the expression's value with respect to that variable, and evaluating the gradient returns, for each constant (or variable), the derivative of the value with respect to it; evaluation is always complete.", "quantifier": "all valid expressions, data, rows, directions and reachable states of the derivative context", "why_tests_cant": "expressions are unbounded and the derivative code runs a separate compiled plan with sparse slots; tests check small expressions by finite differences", "anchors": ["dynamic_expressions/src/evaluate_derivative.rs: eval_diff_tree_array, eval_grad_tree_array", "dynamic_expressions/src/operator_enum.rs: builtin"]}
{"id": "C53", "title": "The gradient of a loss is its gradient", "statement": "For every builtin loss (mean squared, mean absolute, root mean squared, Huber, log-cosh, Lp, quantile, epsilon-insensitive), with or without weights, and every list of predictions at which the loss is differentiable, the derivative the library returns has one entry per prediction, each being over the real numbers the partial derivative of the loss with respect to that prediction; and along every differentiable curve of predictions the loss changes at the rate of the inner product with it.", "quantifier": "all losses and loss parameters, targets, weights (also summing to zero), predictions and curves of predictions; exact real arithmetic", "why_tests_cant": "tests compare a few predictions; normalisation by weights, branch boundaries and parameters range over the reals", "anchors": ["symbolic_regression/src/loss_functions.rs: MeanLoss, SquaredLoss, AbsLoss, HuberLoss, LogCoshLoss, LpLoss, QuantileLoss, EpsilonInsensitiveLoss, Rmse, make_loss"]}
{"id": "C54", "title": "Constant optimisation descends the true gradient", "statement": "Over the real numbers, the value and gradient the constant optimiser evaluates for a member are the loss of the member's predictions on the data and, for each constant of the expression, the derivative of that loss with respect to that constant, whenever the expression's operators are smooth at each row and the loss is smooth at the predictions.", "quantifier": "all expressions of builtin operators, datasets with at least one row, weights, losses and loss parameters, reachable states of the gradient buffers", "why_tests_cant": "the gradient composes three independently written derivative codes over every expression and dataset; an optimiser with a slightly wrong gradient still improves most test cases", "anchors": ["symbolic_regression/src/constant_optimization.rs: loss_and_grad, ConstObjective", "symbolic_regression/src/loss_functions.rs", "dynamic_expressions/src/evaluate_derivative.rs: eval_grad_tree_array"]}
{"id": "C55", "title": "Which mutated children are accepted", "statement": "A mutated expression becomes a new member exactly if it can be evaluated, its cost is finite and a uniform draw is not above the acceptance probability; otherwise the parent is copied. Over the real numbers that probability is exp(-(new cost - old cost) / (temperature * alpha)) when annealing (1 otherwise), times the ratio of how common the old size is to how common the new size is when frequencies are used (1 otherwise). So it is positive, falls with the new cost and with how common the new size is, and a child that is no worse and of a size no more common is always accepted. If no attempt produced a candidate the parent is copied; a simplification is always accepted and keeps the loss. At temperature 0, in arithmetic with infinities and NaN, a child is accepted exactly if its cost is not higher or the draw is exactly 0, however common its size is.", "quantifier": "all members, candidates, temperatures, statistics, settings and random streams", "why_tests_cant": "the rule composes floating point comparisons, statistics and random draws; tests exercise a handful of draws and an inverted ratio still gives plausible searches", "anchors": ["symbolic_regression/src/mutate.rs: next_generation", "symbolic_regression/src/adaptive_parsimony.rs"]}
{"id": "C56", "title": "How much work a cycle and an iteration do", "statement": "A cycle of regularised evolution performs the population size divided by the tournament size, rounded up, steps (mutation or crossover), each of which creates at most two members; ids and birth stamps advance together. An iteration performs ncycles_per_iteration cycles (at least one), the i-th at temperature 1 - i/(n-1) when annealing and 1 otherwise: over the reals, and also in binary32 and binary64 arithmetic with its rounding (when the number of cycles is within the range of the format), the temperature starts at exactly 1, stays between 0 and 1, never increases and, with annealing and at least two cycles, ends at exactly 0.", "quantifier": "all populations, settings, data and random streams", "why_tests_cant": "effort and temperatures are functions of unbounded settings, only visible inside the loop", "anchors": ["symbolic_regression/src/regularized_evolution.rs: reg_evol_cycle", "symbolic_regression/src/single_iteration.rs: s_r_cycle"]}
{"id": "C57", "title": "What applying a task result does to the populations", "statement": "Applying a task's result puts the delivered population back in its place, with members replaced only by copies (fresh ids and birth stamps) of the best members other populations delivered last (if migration is on) or of members on the hall of fame's Pareto front (if that migration is on); the candidates are all of those and never the population's own best. Its best members are remembered for the others, every other population and its remembered best are untouched, and evaluations and completed tasks are counted.", "quantifier": "all search states, task results, settings and random streams", "why_tests_cant": "which populations exchange members depends on the schedule and on every random draw", "anchors": ["symbolic_regression/src/search_utils.rs: apply_task_result, select_migrants", "symbolic_regression/src/migration.rs: migrate_into"]}
{"id": "C58", "title": "The metrics of the web front end", "statement": "Evaluating a member of a stepwise search on its training data, or on any other data with as many features, never panics: it returns the values of the member's expression on every row together with their metrics, or reports failure exactly when some operator (or a lone constant) is not finite on some row, or when no member has the id. The id is looked up in the hall of fame (least complexity first) and then compared with the best. On unweighted data the metrics mse, mae and rmse are bit for bit the losses of these names, and in real arithmetic mse, mae, rmse, r2 and corr are the textbook mean squared and absolute error, root, coefficient of determination and Pearson correlation (0 for constant lists), with |corr| <= 1, r2 <= 1, mae <= rmse; a perfect prediction of targets that are not constant has errors 0, r2 = 1 and corr = 1. Weighted mse, mae and r2 are the weighted versions, with errors 0 if the weights do not add up to a positive number. The smallest and largest absolute errors are attained and bound the others. The list of equations shown is the last k of the front. Exceptions (refuted): with weights corr is Pearson's correlation shrunk by sqrt(v / (v + n (mean - weighted mean)^2)), since the targets are centred at their weighted mean, so a perfect prediction can have corr < 1; an id need not single out a member of the hall of fame.", "quantifier": "all predictions, targets and weights of any length; all searches, numbers of steps, ids and data sets", "why_tests_cant": "formulas over all data sets; a few examples do not distinguish a wrong centring, denominator or range", "anchors": ["web/wasm/src/lib.rs: compute_metrics", "web/wasm/src/lib.rs: r2_and_corr", "web/wasm/src/lib.rs: find_member_by_id", "web/wasm/src/lib.rs: eval_member_on_dataset", "web/wasm/src/lib.rs: evaluate_member"]}
{"id": "C59", "title": "Migration counts are Poisson distributed", "statement": "The number of members a migration replaces is drawn by a sampler that returns 0 without using a draw if the mean is not a positive finite number. For means below 30, in real arithmetic, it returns the number of uniform draws whose running product stays above exp(-mean), using exactly one draw more, and stops as soon as a product is at most exp(-mean); with independent uniform draws the probability of k (the volume of the draws that give k) is exactly exp(-mean) mean^k / k!. For larger means it returns the number accepted by the first accepting round of a rejection method, each round using two draws and accepting at most one number; outside the two quick tests, a round accepts k (below 256) exactly when the second draw times a constant is at most the probability of k times the slope of the transformation of the first. For larger k the same holds up to a factor between exp(-10^-16) and exp(10^-16), because the logarithm of k! it uses is exact below 256 and, for every k, within 10^-16 of the true one in real arithmetic. Standard normal draws are at most sqrt(2 * 1022 * ln 2) in absolute value. The normal sampler is that of Box and Muller: given the angle of its second draw, the value over the cosine of the angle exceeds t with probability exp(-t^2/2).", "quantifier": "all means, all sequences of draws, all results k", "why_tests_cant": "a distribution over infinitely many outcomes; a test sees a few samples and cannot tell a biased sampler", "anchors": ["symbolic_regression/src/random.rs: poisson_sample", "symbolic_regression/src/random.rs: log_factorial", "symbolic_regression/src/random.rs: standard_normal", "symbolic_regression/src/migration.rs: migrate_into"]}
{"id": "C60", "title": "The number of evaluations a search reports", "statement": "A search reports one evaluation per initial member, and afterwards its count never goes down. Each completed task adds what its evolution steps and its constant optimisations report plus one per member (the final evaluation on all the data): at least the population size, and at most a budget computed from the options (cycles, steps per cycle, ten attempts per mutation, restarts, and an optimiser limit that is exceeded by at most two calls). A crossover reports two evaluations or none, a successful optimisation at least one, an optimisation of a member without constants none. Refuted: that the count includes every evaluation. A mutated child that is evaluated but fails (or has a non-finite cost) is reported as 0 evaluations, together with all the optimisation calls of its attempts.", "quantifier": "all options, datasets, random streams, numbers of threads and arrival orders, at every moment of the search", "why_tests_cant": "the count sums over every path through evolution, optimisation and scheduling; a test sees one run", "anchors": ["symbolic_regression/src/search_utils.rs: execute_task, apply_task_result, init_populations", "symbolic_regression/src/single_iteration.rs: s_r_cycle, optimize_and_simplify_population", "symbolic_regression/src/mutate.rs: next_generation, crossover_generation", "symbolic_regression/src/constant_optimization.rs: optimize_constants"]}
{"id": "C61", "title": "Constant optimisation is textbook BFGS and stops early only at stationary points", "statement": "Over the real numbers, BFGS as implemented is the textbook method: the inverse Hessian estimate starts as the identity and after each step with positive curvature is the textbook update of the step and the change of gradient; it is always symmetric and positive definite and maps the change of gradient to the step; every search direction is a direction of descent, so the fallback to steepest descent never acts. When BFGS returns a result with calls and iterations to spare, every partial derivative at the returned point is at most g_abstol in absolute value. In any arithmetic, such a return means that the gradient there is small or not finite, or its square is not positive (underflow, overflow), or the value is not finite. One-dimensional Newton, in exact arithmetic, also returns early only at a point with a small derivative.", "quantifier": "all objectives, start points, dimensions, options and line search parameters", "why_tests_cant": "a wrong coefficient in the update still gives a converging optimiser on most test functions; the claims range over all objectives", "anchors": ["symbolic_regression/src/optim.rs: bfgs_minimize, newton_1d_minimize"]}
{"id": "C62", "title": "The line search tries the interpolated steps and succeeds on smooth objectives", "statement": "Over the real numbers, along a descent direction the line search evaluates the objective at the start plus alpha times the direction, for these alphas in this order and nowhere else: first the requested step, shortened so that no coordinate moves more than maxstep; then, as long as the sufficient decrease f + c1 alpha slope is missed, the minimiser of the parabola through the start value, the slope and the last value, from the third trial on (if the order is 3) the local minimiser of the cubic through the last two values, each clamped between rho_lo and rho_hi times the last alpha. The first alpha with sufficient decrease is returned with its value and point, none if the iterations run out. If the objective lies under a parabola of curvature M with its value and slope at the start, a step is accepted after at most n reductions, where rho_hi^n times the first step is at most 2 (1 - c1) |slope| / M, and it is at least the smaller of the first step and rho_lo times that bound. In exact arithmetic Newton on a parabola ends exactly at the minimum after at most five calls, or at the start if the derivative there is within the tolerance.", "quantifier": "all objectives, points, directions, slopes, first steps and sensible settings", "why_tests_cant": "a wrong interpolation coefficient still gives a converging backtracking search on any given test function", "anchors": ["symbolic_regression/src/optim.rs: BackTracking, linesearch, quadratic_step, cubic_step, newton_1d_minimize"]}
{"id": "C63", "title": "A model linear in its only constant is fitted by least squares", "statement": "In exact arithmetic with squared error, for a member whose expression is linear in its only constant (built from the constant and constant-free parts by +, -, negation, multiplication and division by constant-free parts, fused multiply-add) and finite on the data, optimising the constants ends with a constant whose (weighted) mean squared error is the least over all rational constants, or exceeds the least by at most g_abstol^2 / (4 e), where e is the mean squared effect of the constant; for any number of restarts and any random numbers, with at least two iterations, no limit on calls below five, and e zero or not negligible (twice e at least the tiny threshold of Newton's step).", "quantifier": "all datasets, linear expressions, starting constants, random streams, restart counts and sensible optimiser settings", "why_tests_cant": "ranges over all expressions and datasets; a gradient or loss error in one operator or in the weighting would shift the optimum only for expressions and data a test does not contain", "anchors": ["symbolic_regression/src/constant_optimization.rs: optimize_constants, loss_and_grad", "symbolic_regression/src/optim.rs: newton_1d_minimize", "symbolic_regression/src/loss_functions.rs: MeanLoss", "dynamic_expressions/src/evaluate_derivative.rs: eval_grad_tree_array"]}
{"id": "C64", "title": "Restarts: where the optimiser starts and whose result is kept", "statement": "With constant optimisation on, for a member with constants and a loss on the data, the optimiser is run once from the current constants and once from each of optimizer_nrestarts points; constant j of restart i starts at its current value times 1 + eps/2, eps being the number i n + j of the member's normal stream (n constants), which advances by exactly nrestarts n numbers. The constants are replaced exactly if some run ended strictly below the current loss, and then by the minimiser of a run no other run is below; otherwise they are unchanged. The evaluations reported are the calls of the runs that returned a result, plus one if the constants were replaced.", "quantifier": "all members, datasets, optimiser settings, random streams and number types whose < is a strict order on numbers", "why_tests_cant": "ranges over all objectives and random streams; keeping the last instead of the best restart, or perturbing cumulatively, shows only when the runs end at different optima", "anchors": ["symbolic_regression/src/constant_optimization.rs: optimize_constants"]}
{"id": "C65", "title": "A child is one variation of its parent; what an iteration can reach", "statement": "In an evolution step a random number above crossover_probability leads to a mutation, any other to a crossover of two tournament winners. A mutation draws one kind among those with weight left after conditioning (or Optimize, the last kind, through rounding), and an accepted child's formula is its parent's with exactly one change of that kind: one constant (some of its occurrences, at least one) multiplied by the drawn factor, one operator replaced by a configured one of its arity, one variable replaced by another, two operands swapped, one rotation, a leaf grown or a subtree wrapped by a configured operator over fresh leaves, an operator replaced by one of its operands, a formula no larger (simplify), a fresh formula within the current size limit, the same formula, or the same formula with other constants; a rejected child has its parent's formula. Ten attempts yield no candidate only if the kind has nothing to do on the parent's formula or a variation violates the constraints (or a variable drew its own feature eight times). Crossover children are the parents with one subtree exchanged. A failure leaves the population unchanged if skip_mutation_failures is on, otherwise the children replace the oldest members. Hence every formula in a population or the hall of fame after an iteration is reachable from the formulas before by such changes of enabled kinds only, and a kind configured with weight zero is never used (Optimize apart).", "quantifier": "all options, populations, datasets, random streams, temperatures and numbers of cycles", "why_tests_cant": "ranges over all random streams and histories; a kind applied twice, applied to the wrong member, or applied although disabled shows only for particular streams", "anchors": ["symbolic_regression/src/mutate.rs: next_generation, crossover_generation, MutationChoice::apply", "symbolic_regression/src/regularized_evolution.rs: reg_evol_cycle", "symbolic_regression/src/single_iteration.rs: s_r_cycle"]}
{"id": "C66", "title": "A web session answers every call, and looking does not disturb it", "statement": "Given a parsed table, the session constructor returns an error exactly if some operator token names no operator or several, an operator is asked for twice (or none at all), the columns asked for are not usable, or the loss name is unknown (names are trimmed and case-insensitive; each loss takes its parameter from the options). Otherwise the rows are divided into training and validation rows; the training data hold, for each training row, the target, weight and feature cells of that row of the table, in column order and with the headers as names; the search starts on them with the operators and the loss asked for, and the validation data are the other rows. If the options are reasonable for the data (C49), no later sequence of calls panics, and each reply is determined by the calls before: a step reports the total, the cycles completed (the sum of the steps, at most the total), the best member and the last pareto_k members of the Pareto front with their ids in decimal, complexity, loss and cost, and the printed equation; is_finished says whether the steps add up to the total; best_equations gives the last k of the front; evaluate_member gives an error for an id that is not a 64-bit number, an unknown data set, no member with this id, or a value that is not finite, else the predictions of that member on those data and their metrics. Only the step calls change the search. An id shown can be sent back and names some member. The operator list names every built-in operator once, and each is accepted under its listed name. What does not hold: that training rows are left; if the validation fraction takes them all, the session opens and reports loss 0 for every equation.", "quantifier": "all tables, options, operator tokens and sequences of calls, over any number type and random streams", "why_tests_cant": "tests drive a few call sequences on small tables; the claim is about every table and every interleaving of calls", "anchors": ["web/wasm/src/lib.rs: WasmSearch::new, step, best_equations, evaluate_member, set_pareto_k, get_split_indices, is_finished, options_from_wasm, snapshot, summary_from_member, builtin_operator_registry", "symbolic_regression/src/loss_functions.rs: LossKind::parse"]}
{"id": "C67", "title": "The hall of fame is, complexity by complexity, the best of everything the search produced", "statement": "At every moment of a search, parallel under any schedule or stepwise, the hall of fame holds at each complexity the champion of everything the search has produced so far: the members of the initial populations and, for each task result received, the members the task reported as seen and the members of the population it returned. An entry is empty exactly if none of these is of that complexity and feasible at the size limit then in force; otherwise it holds one of them, none of them has a lower cost, and of several with the lowest cost the first to arrive. Moreover nothing a task saw is lost: for every task whose result has been received and every member that was in the task's population at its start or after any of its evolution cycles and was feasible, the hall of fame holds a member of the same complexity whose cost is not higher (provided costs of numeric losses are not NaN).", "quantifier": "all options, datasets, random streams, thread counts, schedules and prefixes of a run", "why_tests_cant": "a lost update shows only under particular arrival orders and random streams; the claim is about every history", "anchors": ["symbolic_regression/src/search_utils.rs: apply_task_result, execute_task, init_populations, SearchEngine::step", "symbolic_regression/src/single_iteration.rs: s_r_cycle", "symbolic_regression/src/hall_of_fame.rs: consider, update_from_members"]}
{"id": "C68", "title": "What depends on the schedule of a parallel search", "statement": "If the populations exchange nothing (migration and hall-of-fame migration off, frequency statistics unused in selection and acceptance), then for every thread count and every order in which results arrive, a complete parallel search gives each population exactly the history it has on its own: niterations tasks, each starting from the population the last one returned, at the size limit that goes with its place in the shuffled order of its iteration. Hence any two complete runs, and the stepwise engine run to completion, have the same populations, number of evaluations and set of task results; their halls of fame have entries at the same complexities and at the same costs, and their best members the same loss (members of equal cost may differ). In general, with migration or statistics, the order in which results arrive is the only thing the schedule decides: with the same number of workers, two complete runs with the same arrival order end in the same state. What does not hold: that the seed reproduces a parallel search; with migration on, two runs with the same seeds and workers end with best members of different loss. Each population has a generator of its own: the population a search starts with, and without exchange the one it ends with, depends on no other population's generator. What also does not hold: that different seeds give unrelated searches; population i of seed s is seeded with s + i, so population i + 1 of seed s starts with the same formulas as population i of seed s + 1.", "quantifier": "all options, datasets, random streams, thread counts and pairs of schedules", "why_tests_cant": "compares all schedules with each other; a test sees one schedule at a time", "anchors": ["symbolic_regression/src/search_utils.rs: run_scoped_search, run_iteration_phase, dispatch of tasks, apply_task_result, SearchEngine::run_to_completion", "symbolic_regression/src/regularized_evolution.rs: reg_evol_cycle", "symbolic_regression/src/mutate.rs: next_generation"]}
{"id": "C69", "title": "How far and in which direction a constant is mutated", "statement": "The mutation of a constant multiplies one constant of the formula by a factor and changes nothing else. Over the real numbers, with m = perturbation_factor * max(temperature, 0) + 1.1, the magnitude of the factor is log-uniform between 1 and m when growing and between 1/m and 1 when shrinking; so the constant stays within a factor m of what it was, zero stays zero, and every other value within that factor, of either sign, can be reached by some draws. The factor is negative exactly if a uniform draw is above probability_negate_constant. What does not hold: that a constant is negated with that probability; it is negated with the complementary one, more than 99 times in 100 with the default 0.00743.", "quantifier": "all expressions, temperatures, perturbation factors, negation probabilities and random draws", "why_tests_cant": "the law of the factor is a statement about all draws, and a test that sees some negations and some growth cannot tell a probability from its complement", "anchors": ["symbolic_regression/src/mutation_functions.rs: mutate_constant_in_place", "symbolic_regression/src/options.rs: perturbation_factor, probability_negate_constant"]}
{"id": "C70", "title": "Every variation can occur", "statement": "The random operations reach everything their description allows. For every valid expression and every change of the kind an operation makes - any constant by any factor of its law, any operator by any registered one of the same arity, any feature leaf by any other feature, any two operands swapped, any rotation (operator, operator below it, grandchild), a registered operator inserted above any subtree or at the root with the old tree at any argument position and any leaves beside it, any leaf turned into any registered operator over any leaves, any operator replaced by any of its arguments, any pair of subtrees exchanged by crossover - some random draws produce exactly that result, whatever the later draws are, and the only draws from the distribution of constants are the values of the new constants. Every formula over the registered operators can be the random expression of its size, and every formula with at least one operator can be the initial expression with its number of operators. From any formula any other can be reached by additions and deletions of nodes alone, so no part of the search space is cut off.", "quantifier": "all valid expressions, registries, features, changes of the described kinds and continuations of the random stream", "why_tests_cant": "an operation that can never choose some position, operand or operator passes every test that checks its results are valid; that nothing is unreachable quantifies over all expressions and all changes", "anchors": ["symbolic_regression/src/mutation_functions.rs: mutate_constant_in_place, mutate_operator_in_place, mutate_feature_in_place, swap_operands_in_place, rotate_tree_in_place, insert_random_op_in_place, prepend_random_op_in_place, append_random_op_in_place, add_node_in_place, delete_random_op_in_place, crossover_trees, random_expr, random_expr_append_ops", "symbolic_regression/src/operators.rs: sample_arity, sample_op"]}
{"id": "C71", "title": "What the options do", "statement": "An option that belongs to a feature that is switched off has no effect on any search: two option sets that agree except for alpha without annealing, adaptive_parsimony_scaling without use_frequency_in_tournament, the optimizer_ options without should_optimize_constants, fraction_replaced without migration, fraction_replaced_hof without hof_migration, batch_size without batching, the weight of the simplify mutation without should_simplify, progress, output_style, and the three options no code reads (fraction_replaced_guesses and the weights form_connection and break_connection) give the same initial population, the same result of every step call, and the same runs of the parallel search for every arrival order. In the second phase of an iteration every member keeps its position, id and parent; without should_simplify no formula changes its form; without should_optimize_constants no constant is moved, no random number drawn and no birth stamp changed; without both the formulas are exactly as before. (Refuted: the weight of the optimize mutation still matters for formulas that are a single constant when constant optimisation is off.) The web front end passes on every core option, the operators and the loss and nothing else, so a web search is the library's search with those options; it is refused exactly for an unknown loss name; the web defaults are the library's defaults. Every option reaches exactly the part of the search it is named after; in particular the constant optimizer reports at most (1 + optimizer_nrestarts) times (optimizer_f_calls_limit + 2) plus 1 evaluations, a mutation is accepted by annealing, use_frequency and alpha, and population i draws from a generator seeded with seed + i modulo 2^64: different populations get different seeds, but population i of a search with seed s + n starts with the same formulas as population i + n of the search with seed s, so searches with neighbouring seeds are not independent.", "quantifier": "all pairs of option sets that agree on the options in use, all data, random streams, numbers of steps and arrival orders", "why_tests_cant": "independence of an option quantifies over pairs of runs on every input; a test compares a few runs and cannot show that no execution ever reads the value", "anchors": ["symbolic_regression/src/options.rs: Options, Options::default, MutationWeights", "symbolic_regression/src/single_iteration.rs: optimize_and_simplify_population", "symbolic_regression/src/search_utils.rs: SearchEngine::new, SearchEngine::step, equation_search_parallel", "symbolic_regression/src/mutate.rs: condition_mutation_weights, next_generation", "web/wasm/src/lib.rs: options_from_wasm, WasmOptionsShim::apply_to"]}
{"id": "C72", "title": "No admissible formula is ever out of reach of a running search", "statement": "Take any formula over the configured operators and the features of the data that satisfies the size, depth and nesting limits in force, is finite on all rows, and has a finite loss and cost. Whatever a search has done so far, whatever populations and statistics it has reached and whichever tasks are in flight, there are random draws (uniform ones in [0,1), integers, and the formula's own constants where a constant is drawn, taken as values its distribution can give) with which the very next evolution step puts that formula into the population, the iteration reports, at the formula's complexity, a member that is not dearer, and the result of the task, when it is received, leaves in the hall of fame a member of that complexity whose cost is at most the formula's - and so does every later hall of fame, whatever happens afterwards. The draws wanted later are free: the statement holds whatever the generator gives next. This needs that mutation, the choice of a new random formula and acceptance have a positive chance, which every configuration with a positive randomize weight has in exact arithmetic, and the default options have in binary64 for every expression, temperature and state of the statistics (with an exp that is never negative). In a search without batching.", "quantifier": "all configurations, data, operators, losses, target formulas, populations, statistics, temperatures, schedules and histories of the parallel search and of the stepwise engine, later random draws", "why_tests_cant": "a test runs some seeds; here a draw sequence must exist for every formula from every reachable state, and what it gains must survive every later schedule", "anchors": ["symbolic_regression/src/regularized_evolution.rs: reg_evol_cycle", "symbolic_regression/src/single_iteration.rs: s_r_cycle", "symbolic_regression/src/mutate.rs: next_generation", "symbolic_regression/src/mutation_functions.rs: random_expr", "symbolic_regression/src/selection.rs: best_of_sample, weighted_index, sample_indices", "symbolic_regression/src/search_utils.rs: execute_task, apply_task_result", "symbolic_regression/src/hall_of_fame.rs: consider"]}
{"id": "C73", "title": "A search sees the data only through the losses of formulas and their gradients; row order does not matter", "statement": "Let two datasets have the same number of features and agree, for every admissible formula, on whether it evaluates to finite numbers, on its loss, on whether all predictions are finite, and on the derivatives of the loss in its constants. Then a search without batching cannot tell them apart: with the same configuration, seeds and schedule it gives the same baseline, the same hall of fame, best member, populations, counts and statistics, event by event in the parallel search, and step by step (with the same reports) in the stepwise engine up to and including run_to_completion; each panics or stops exactly when the other does. In particular, when addition is associative and commutative, listing the rows in another order changes nothing, for any of the eight losses, weighted or not. (In binary64, where addition is not associative, reordering rows can change a loss: C73_order_refuted. And a row of weight zero is not the same as no row: a formula that is not finite on it is rejected, C73_zero_weight_refuted.)", "quantifier": "all configurations without batching, all pairs of datasets, all losses, seeds, schedules, numbers of threads, sequences of step calls, permutations of the rows", "why_tests_cant": "a relational claim over pairs of runs of any length; tests compare a few datasets and seeds", "anchors": ["symbolic_regression/src/pop_member.rs: PopMember::evaluate", "symbolic_regression/src/constant_optimization.rs: optimize_constants, EvalWorkspace::loss_and_grad", "symbolic_regression/src/loss_functions.rs", "symbolic_regression/src/search_utils.rs: equation_search, SearchEngine::step, execute_task, apply_task_result", "symbolic_regression/src/single_iteration.rs", "symbolic_regression/src/regularized_evolution.rs"]}
{"id": "C74", "title": "Weights are relative: losses and gradients depend on the data only through weighted means", "statement": "Over the real numbers: call the mean of a quantity (any function of a row's features and target) its sum over the rows, each times its weight (1 without weights), over the sum of the weights. If two datasets have the same means of all quantities, and weights that do not sum to zero, then every formula has the same loss on both, for each of the eight losses, and the loss the same derivatives in the formula's constants, so that the constant optimizer minimises the same function. Two datasets have the same means if the rows of one are copies of rows of the other and the weights of the copies of a row add up to a fixed nonzero multiple of its weight: so rows may be reordered, repeated instead of weighted, or dropped if their weight is zero, all weights may be scaled, and equal weights are like none. (With floats, order can matter, and a row of weight zero on which a formula is not finite does: C73_order_refuted, C73_zero_weight_refuted.)", "quantifier": "all formulas over any operators, all pairs of datasets of any size with the same means, all eight losses and their parameters, all constants, all nonzero scale factors", "why_tests_cant": "equality of two functions of the formula and its constants, for all datasets that share their means", "anchors": ["symbolic_regression/src/loss_functions.rs: MeanLoss::loss, MeanLoss::dloss_dyhat, Rmse", "symbolic_regression/src/constant_optimization.rs: EvalWorkspace::loss_and_grad", "symbolic_regression/src/dataset.rs: Dataset"]}
{"id": "C75", "title": "Losses and costs are never negative", "statement": "In every IEEE binary format with rounding to nearest (so f32 and f64), the built-in losses are never below zero, whatever the predictions and targets (also NaN and infinite ones), without weights or with weights that are not below zero: mean squared, mean absolute, root mean squared, epsilon-insensitive, Huber with delta not below zero, quantile with tau between 0 and 1, and log-cosh and Lp as far as the platform's ln(cosh x) and powf of non-negative numbers are not below zero. For a search with such a loss, non-negative weights and a finite parsimony of at least 0, every loss and every cost the search holds (populations, pools of best members, hall of fame, best so far) is a number of at least 0 or +infinity, never NaN and never negative, whatever the generators, schedule, batching and mutations; so is what the engine shows after every step. With tau above 1, or with a negative weight, the loss can be negative (C75_quantile_refuted, C75_weights_refuted).", "quantifier": "all IEEE formats, predictions, targets and weights of any length, all eight losses with proper parameters, all datasets, operators, options, generator streams and schedules", "why_tests_cant": "every rounding of every sum and every member of every generation on every schedule", "anchors": ["symbolic_regression/src/loss_functions.rs: MeanLoss::loss, Rmse, mse, mae, huber, log_cosh, lp, quantile, epsilon_insensitive, loss_to_cost", "symbolic_regression/src/pop_member.rs: evaluate", "symbolic_regression/src/dataset.rs: resample_from", "symbolic_regression/src/search_utils.rs"]}
