{
 "claims": [
  {
   "property": "C01",
   "status": "proved",
   "theorems": [
    "C01_valid_postfix_exact"
   ],
   "note": "exact equivalence, with uniqueness of the tree"
  },
  {
   "property": "C02",
   "status": "proved",
   "theorems": [
    "C02_subtree_ranges",
    "C02_child_ranges"
   ],
   "note": ""
  },
  {
   "property": "C03",
   "status": "proved",
   "theorems": [
    "C03_tree_fold",
    "C03_panics_exactly",
    "C03_count_depth",
    "C03_counts"
   ],
   "note": ""
  },
  {
   "property": "C04",
   "status": "proved",
   "theorems": [
    "C04_compiled_eval"
   ],
   "note": ""
  },
  {
   "property": "C05",
   "status": "proved",
   "theorems": [
    "C05_plan_sound",
    "C05_slots_by_depth"
   ],
   "note": ""
  },
  {
   "property": "C06",
   "status": "proved",
   "theorems": [
    "C06_flag_exact",
    "C06_complete_output_finite",
    "C06_bare_variable_refuted",
    "C06_zero_rows_refuted"
   ],
   "note": "exact for n_rows >= 1; the 'finite output' reading is refuted for a bare variable root, and the row-wise reading for zero rows (theorems _refuted)"
  },
  {
   "property": "C07",
   "status": "proved",
   "theorems": [
    "C07_context_reuse",
    "C07_same_as_fresh_array",
    "C07_collision_refuted"
   ],
   "note": "premise told_apart: the 64-bit hash separates the formula from those of equal length seen in the same context; refuted without it"
  },
  {
   "property": "C08",
   "status": "proved",
   "theorems": [
    "C08_forward_derivative",
    "C08_chain_rule"
   ],
   "note": "exact order of operations in any arithmetic (der_at); textbook chain rule when zero behaves as zero (ZeroLaws)"
  },
  {
   "property": "C09",
   "status": "proved",
   "theorems": [
    "C09_gradient",
    "C09_gradient_is_derivative",
    "C09_collision",
    "C09_float_agreement_refuted",
    "C09_zero_rows_refuted"
   ],
   "note": "layout and values for n_rows >= 1; agreement with eval_diff in exact arithmetic, refuted in binary64; zero-row panic shown as _refuted"
  },
  {
   "property": "C10",
   "status": "proved",
   "theorems": [
    "C10_compress_constants",
    "C10_compress_total_iff"
   ],
   "note": ""
  },
  {
   "property": "C11",
   "status": "proved",
   "theorems": [
    "C11_constants_round_trip",
    "C11_any_reference"
   ],
   "note": ""
  },
  {
   "property": "C12",
   "status": "proved",
   "theorems": [
    "C12_apply_operator",
    "C12_overloads"
   ],
   "note": ""
  },
  {
   "property": "C13",
   "status": "proved",
   "theorems": [
    "C13_constant_folding"
   ],
   "note": "exact description of folding while there is room for constants (2^16); value preservation in any arithmetic, unconditionally"
  },
  {
   "property": "C14",
   "status": "proved",
   "theorems": [
    "C14_combine_preserves_value",
    "C14_simplify_preserves_value",
    "C14_value_refuted_for_shared_id"
   ],
   "note": "exact arithmetic (stdlib ring_theory) and subtraction's id used with two operands only; refuted without the latter (built-in atanh shares id 7)"
  },
  {
   "property": "C15",
   "status": "proved",
   "theorems": [
    "C15_simplify_well_formed",
    "C15_idempotent_refuted"
   ],
   "note": "for trees of at most 65535 nodes, any configuration; idempotence refuted in binary64"
  },
  {
   "property": "C16",
   "status": "proved",
   "theorems": [
    "C16_lookup",
    "C16_lookup_with_arity",
    "C16_order_independent"
   ],
   "note": ""
  },
  {
   "property": "C17",
   "status": "proved",
   "theorems": [
    "C17_from_names",
    "C17_from_names_by_arity",
    "C17_sample_arity",
    "C17_sample_op"
   ],
   "note": ""
  },
  {
   "property": "C18",
   "status": "proved",
   "theorems": [
    "C18_random_expr",
    "C18_random_expr_append_ops"
   ],
   "note": ""
  },
  {
   "property": "C19",
   "status": "proved",
   "theorems": [
    "C19_mutate_constant",
    "C19_mutate_operator",
    "C19_mutate_feature",
    "C19_insert",
    "C19_prepend",
    "C19_append",
    "C19_add",
    "C19_delete"
   ],
   "note": ""
  },
  {
   "property": "C20",
   "status": "proved",
   "theorems": [
    "C20_crossover"
   ],
   "note": ""
  },
  {
   "property": "C21",
   "status": "proved",
   "theorems": [
    "C21_swap",
    "C21_rotate"
   ],
   "note": ""
  },
  {
   "property": "C22",
   "status": "proved",
   "theorems": [
    "C22_complexity_is_node_cost_sum",
    "C22_default_is_node_count",
    "C22_shape_independent"
   ],
   "note": ""
  },
  {
   "property": "C23",
   "status": "proved",
   "theorems": [
    "C23_check_constraints_exact",
    "C23_setters",
    "C23_nested_setter"
   ],
   "note": ""
  },
  {
   "property": "C24",
   "status": "proved",
   "theorems": [
    "C24_hall_of_fame",
    "C24_slots_only_improve"
   ],
   "note": ""
  },
  {
   "property": "C25",
   "status": "proved",
   "theorems": [
    "C25_pareto_front"
   ],
   "note": ""
  },
  {
   "property": "C26",
   "status": "proved",
   "theorems": [
    "C26_replace_oldest",
    "C26_replace_two_oldest"
   ],
   "note": ""
  },
  {
   "property": "C27",
   "status": "proved",
   "theorems": [
    "C27_migration",
    "C27_best_sub_pop"
   ],
   "note": ""
  },
  {
   "property": "C28",
   "status": "proved",
   "theorems": [
    "C28_sample",
    "C28_sample_terminates",
    "C28_sample_reachable",
    "C28_best_of_sample",
    "C28_place",
    "C28_place_first",
    "C28_no_panic"
   ],
   "note": "ranking for any arithmetic with ordered comparisons (NaN-free scores); law of the drawn place in exact arithmetic; termination of the rejection loop given enough distinct draws"
  },
  {
   "property": "C29",
   "status": "proved",
   "theorems": [
    "C29_largest_draw",
    "C29_in_range",
    "C29_weighted_index",
    "C29_panics_exactly",
    "C29_zero_weight_refuted"
   ],
   "note": "exact arithmetic; zero-weight guarantee refuted in binary64 PropDraw.v: C29_largest_draw (binary64, through Flocq; axioms of the standard library's real numbers)."
  },
  {
   "property": "C30",
   "status": "proved",
   "theorems": [
    "C30_binary64",
    "C30_search",
    "C30_task",
    "C30_search_positive",
    "C30_new",
    "C30_observe",
    "C30_move_window",
    "C30_normalize",
    "C30_freq",
    "C30_history",
    "C30_window_refuted"
   ],
   "note": "exact arithmetic, at most 1001 complexities; C30_binary64: IEEE binary64 (Flocq), any history, fewer than 2^53 complexities (standard-library axioms); window total refuted in binary64"
  },
  {
   "property": "C31",
   "status": "proved",
   "theorems": [
    "C31_warmup_formula",
    "C31_warmup",
    "C31_small_maxsize_refuted",
    "C31_binary32",
    "C31_last_step_refuted"
   ],
   "note": "exact arithmetic, and C31_binary32: IEEE binary32 (Flocq; standard-library axioms), maxsize from 3 to 2^23; C31_last_step_refuted: the last step rounds down; a maxsize below 3 panics (C31_small_maxsize_refuted)"
  },
  {
   "property": "C32",
   "status": "proved",
   "theorems": [
    "C32_optimize_constants",
    "C32_never_panics",
    "C32_stored_loss_decreases",
    "C32_gradient"
   ],
   "note": "every arithmetic in which infinity is below nothing and < is irreflexive; includes absence of panics"
  },
  {
   "property": "C33",
   "status": "proved",
   "theorems": [
    "C33_step_binary64",
    "C33_bfgs_binary64",
    "C33_newton_binary64",
    "C33_armijo",
    "C33_step_no_worse",
    "C33_exact_decrease",
    "C33_bfgs_no_worse",
    "C33_newton_no_worse",
    "C33_bfgs_budget",
    "C33_newton_budget",
    "C33_bfgs_total",
    "C33_newton_total"
   ],
   "note": "every objective; no-worse theorems for arithmetics satisfying OrderLaws and SignLaws, which are proved for extended rationals and for every IEEE format (b_sign_laws; C33_*_binary64; standard-library axioms); lost progress and budget overshoot shown by refutation examples"
  },
  {
   "property": "C34",
   "status": "proved",
   "theorems": [
    "C34_plain_mean",
    "C34_weighted_mean",
    "C34_rmse_is_root",
    "C34_uniform_weights",
    "C34_cost",
    "C34_cost_monotone",
    "C34_evaluate",
    "C34_baseline",
    "C34_average"
   ],
   "note": "means, RMSE and cost in exact arithmetic; evaluate in any arithmetic"
  },
  {
   "property": "C35",
   "status": "proved",
   "theorems": [
    "C35_resample_rows",
    "C35_any_rows",
    "C35_buffer_fits",
    "C35_phase",
    "C35_task"
   ],
   "note": ""
  },
  {
   "property": "C36",
   "status": "proved",
   "theorems": [
    "C36_shuffle_is_permutation",
    "C36_every_permutation_reachable",
    "C36_no_bias"
   ],
   "note": "permutation for all streams, all permutations reachable, by exactly one draw sequence"
  },
  {
   "property": "C37",
   "status": "proved",
   "theorems": [
    "C37_cycles",
    "C37_split",
    "C37_finished",
    "C37_run_to_completion"
   ],
   "note": "every step sequence, configuration and random stream, for runs in which no task panics"
  },
  {
   "property": "C38",
   "status": "proved",
   "theorems": [
    "C38_no_population_lost",
    "C38_every_population_advanced",
    "C38_terminates",
    "C38_panic_hangs_refuted",
    "C38_one_worker_is_sequential"
   ],
   "note": "every completion order and worker count; termination for tasks that return; a panicking task is shown to hang the search (refuted part), reached e.g. with batching and batch_size <> n_rows"
  },
  {
   "property": "C39",
   "status": "proved",
   "theorems": [
    "C39_task_ids",
    "C39_distinct_ids",
    "C39_without_skipping_refuted"
   ],
   "note": "the id stride is a parameter (2^32 in the code); without skip_mutation_failures refuted by a concrete run"
  },
  {
   "property": "C40",
   "status": "proved",
   "theorems": [
    "C40_strip",
    "C40_grammar",
    "C40_balanced",
    "C40_injective",
    "C40_same_function",
    "C40_builtin_lexicon",
    "C40_short_name_list_refuted",
    "C40_free_names_refuted"
   ],
   "note": "the Display of floating-point constants is a parameter: words that do not start with 'x'"
  },
  {
   "property": "C41",
   "status": "proved",
   "theorems": [
    "C41_partition",
    "C41_faithful",
    "C41_out_of_range",
    "C41_proportions",
    "C41_training_may_be_empty_refuted"
   ],
   "note": "the float product is an arbitrary function in the partition theorem and exact in the proportion theorem; empty training set shown for five rows"
  },
  {
   "property": "C42",
   "status": "proved",
   "theorems": [
    "C42_mutation",
    "C42_crossover",
    "C42_cycle",
    "C42_iteration",
    "C42_optimize_and_simplify"
   ],
   "note": "every random stream; one mutation, one crossover, one cycle, one whole iteration, and the optimise-and-simplify half; every member stays sound"
  },
  {
   "property": "C43",
   "status": "proved",
   "theorems": [
    "C43_conditioning",
    "C43_sampled_is_applicable",
    "C43_zero_weight_refuted",
    "C43_leaf_ignores_options_refuted",
    "C43_default_weights"
   ],
   "note": "conditioning in any arithmetic; choice in exact arithmetic; binary64 fall-through to Optimize refuted PropDraw.v: C43_default_weights (binary64, through Flocq; axioms of the standard library's real numbers)."
  },
  {
   "property": "C44",
   "status": "proved",
   "theorems": [
    "C44_wrap",
    "C44_table",
    "C44_truncate",
    "C44_any_table"
   ],
   "note": "plain rendering; the ANSI branch (console crate) and number formatting are not modelled"
  },
  {
   "property": "C45",
   "status": "proved",
   "theorems": [
    "C45_columns"
   ],
   "note": "CSV text parsing (csv crate) is not modelled: rows of parsed numbers are the input"
  },
  {
   "property": "C46",
   "status": "proved",
   "theorems": [
    "C46_parallel_search_sound",
    "C46_engine_sound",
    "C46_front_sound"
   ],
   "note": "PropWhole.v: C46_parallel_search_sound, C46_engine_sound, C46_front_sound."
  },
  {
   "property": "C47",
   "status": "proved",
   "theorems": [
    "C47_best_loss_is_true",
    "C47_engine_best_loss_is_true",
    "C47_all_losses_true",
    "C47_exact_simplification_keeps",
    "C47_batch_losses_refuted",
    "C47_float_simplification_refuted"
   ],
   "note": "PropWhole.v. The parts of the naive claim that are false of the code are refuted by C47_batch_losses_refuted and C47_float_simplification_refuted."
  },
  {
   "property": "C48",
   "status": "proved",
   "theorems": [
    "C48_parallel_best",
    "C48_engine_best",
    "C48_best_of_front_refuted"
   ],
   "note": "PropBest.v. C48_best_of_front_refuted shows that the best is not the best of the hall of fame."
  },
  {
   "property": "C49",
   "status": "proved",
   "theorems": [
    "C49_defaults",
    "C49_weights",
    "C49_place",
    "C49_default_weights",
    "C49_default_place",
    "C49_batching_refuted",
    "C49_draws_refuted",
    "C49_sizes_refuted",
    "C49_engine",
    "C49_parallel"
   ],
   "note": "PropPanic.v (record live = the conditions; C49_engine, C49_parallel) and PropLive.v (sufficient conditions, binary64 defaults, a configuration meeting all premises, refutations of the weakened statement). A tournament that keeps drawing duplicates is OutOfFuel in the model, which is not a panic and has no counterpart in the code. Outside the model: the panics Rust >= 1.81 allows sort_by to raise on an inconsistent comparison (only possible with NaN costs, see C50) and allocation failure."
  },
  {
   "property": "C50",
   "status": "proved",
   "theorems": [
    "C50_losses",
    "C50_engine_losses",
    "C50_binary64",
    "C50_comparable",
    "C50_tournament",
    "C50_tournament_refuted"
   ],
   "note": "PropCosts.v. Binary64 arithmetic is that of Coq's SpecFloat; exp is an arbitrary function (in the refutation: any function that overflows to +infinity above 710). Nothing is assumed about the loss function: a NaN loss counts as a failed evaluation."
  },
  {
   "property": "C51",
   "status": "proved",
   "theorems": [
    "C51_chain_rule",
    "C51_partial_derivatives",
    "C51_clamp_refuted",
    "C51_names"
   ],
   "note": "PropReal.v over Builtin.v (all 40 builtin operators) and RealOps.v. smooth lists for each operator where it is claimed. C51_clamp_refuted shows the exception. Axioms: those of the standard library of real numbers (sig_forall_dec, sig_not_dec, functional_extensionality_dep) and Classical_Prop.classic (through Coquelicot lemmas about derivatives)."
  },
  {
   "property": "C52",
   "status": "proved",
   "theorems": [
    "C52_forward_derivative",
    "C52_gradient"
   ],
   "note": "PropGradient.v, from C09 and C51. Axioms: those of the standard library of real numbers (sig_forall_dec, sig_not_dec, functional_extensionality_dep) and Classical_Prop.classic (through Coquelicot lemmas about derivatives)."
  },
  {
   "property": "C53",
   "status": "proved",
   "theorems": [
    "C53_loss_gradient",
    "C53_partial_derivatives"
   ],
   "note": "PropLossGrad.v. smooth_loss excludes the kinks, and for the root mean square the point where it is 0. Axioms: those of the standard library of real numbers (sig_forall_dec, sig_not_dec, functional_extensionality_dep) and Classical_Prop.classic (through Coquelicot lemmas about derivatives)."
  },
  {
   "property": "C54",
   "status": "proved",
   "theorems": [
    "C54_objective_gradient"
   ],
   "note": "PropLossGrad.v, from C52 and C53; the conversion to f64 is the identity here. Axioms: those of the standard library of real numbers (sig_forall_dec, sig_not_dec, functional_extensionality_dep) and Classical_Prop.classic (through Coquelicot lemmas about derivatives)."
  },
  {
   "property": "C55",
   "status": "proved",
   "theorems": [
    "C55_acceptance",
    "C55_real",
    "C55_without_evaluation",
    "C55_probability",
    "C55_frozen"
   ],
   "note": "PropAccept.v. C55_acceptance is for every arithmetic (a NaN probability accepts, as in the code); C55_real and C55_probability interpret it over the reals. Axioms: those of the standard library of real numbers, only in the theorems about the real numbers (C55_real, C55_probability, C56_real_temperature, C56_temperature). C55_frozen: temperature 0, over the extended rationals."
  },
  {
   "property": "C56",
   "status": "proved",
   "theorems": [
    "C56_cycle",
    "C56_iteration",
    "C56_real_temperature",
    "C56_temperature",
    "C56_births",
    "C56_temperature_ieee"
   ],
   "note": "PropAccept.v; PropIeeeTemp.v for the temperatures in every IEEE format (C56_temperature_ieee). Axioms: those of the standard library of real numbers, only in the theorems about the real numbers and Flocq's formats (C55_real, C55_probability, C56_real_temperature, C56_temperature, C56_temperature_ieee)."
  },
  {
   "property": "C57",
   "status": "proved",
   "theorems": [
    "C57_exchange",
    "C57_candidates"
   ],
   "note": "PropExchange.v."
  },
  {
   "property": "C58",
   "status": "proved",
   "theorems": [
    "C58_metrics",
    "C58_weighted",
    "C58_bounds",
    "C58_perfect",
    "C58_weighted_corr_refuted",
    "C58_extremes",
    "C58_no_panic",
    "C58_losses_agree",
    "C58_lookup",
    "C58_evaluate_member",
    "C58_last",
    "C58_id_refuted"
   ],
   "note": "PropMetrics.v. The formulas and bounds are over the reals (standard library axioms); the extremes, agreement with losses, lookup and evaluation hold in every arithmetic (with the order laws for the extremes)."
  },
  {
   "property": "C59",
   "status": "proved",
   "theorems": [
    "C59_no_mean",
    "C59_counts",
    "C59_distribution",
    "C59_stops",
    "C59_log_factorial",
    "C59_rejection",
    "C59_accepts_ratio",
    "C59_normal_bounded",
    "C59_normal_radius",
    "C59_log_factorial_close",
    "C59_accepts_any"
   ],
   "note": "PropPoisson.v, over the reals. Not proved: that Hormann's constants make the two quick tests of the rejection loop (means of at least 30) agree with the full test. The search model takes the sampler as an arbitrary function, so C27 and the search theorems hold for this one; C59_normal_radius: the law of the normal sampler's radius (that the two draws together are normal is not proved). C59_log_factorial_close: Stirling's series from 256 on, for all k, by an error bound on each step and a fixed-point computation of 256!; C59_accepts_any: the test of a round for all k"
  },
  {
   "property": "C60",
   "status": "proved",
   "theorems": [
    "C60_optimisation",
    "C60_mutation",
    "C60_crossover",
    "C60_task",
    "C60_task_sum",
    "C60_search",
    "C60_engine",
    "C60_failures_uncounted_refuted"
   ],
   "note": "PropEvals.v. Counts are naturals (f64 or u64 in the code). tournament_selection_n >= 1 is assumed for the upper bound."
  },
  {
   "property": "C61",
   "status": "proved",
   "theorems": [
    "C61_update",
    "C61_descent",
    "C61_textbook_bfgs",
    "C61_bfgs_stops",
    "C61_bfgs_stationary",
    "C61_newton_stationary"
   ],
   "note": "PropQuasi.v. BFGS over the reals (no rounding), Newton over exact arithmetic with an infinity; C61_bfgs_stops holds in any arithmetic."
  },
  {
   "property": "C62",
   "status": "proved",
   "theorems": [
    "C62_parabola",
    "C62_cubic",
    "C62_trials",
    "C62_shrinking",
    "C62_succeeds",
    "C62_newton_parabola"
   ],
   "note": "PropLine.v. The line search over the reals (no rounding), Newton on a parabola over exact arithmetic with an infinity."
  },
  {
   "property": "C63",
   "status": "proved",
   "theorems": [
    "C63_least_squares"
   ],
   "note": "PropFit.v. Extended rationals (exact, with infinity and NaN) with the operators neg, inv, add, sub, mul, div, fma; end to end through plan evaluation, gradient, loss, Newton, line search, restarts and re-evaluation."
  },
  {
   "property": "C64",
   "status": "proved",
   "theorems": [
    "C64_restarts"
   ],
   "note": "PropRestart.v. The optimiser itself is the model of optim.rs (C31, C59, C61, C62); random numbers are an arbitrary stream."
  },
  {
   "property": "C65",
   "status": "proved",
   "theorems": [
    "C65_child",
    "C65_no_candidate",
    "C65_children",
    "C65_step",
    "C65_reachable",
    "C65_disabled"
   ],
   "note": "PropVary.v. Formulas are literal trees (constants by value); any number type; the draws are arbitrary streams. What simplification does to the value is C13-C15."
  },
  {
   "property": "C66",
   "status": "proved",
   "theorems": [
    "C66_loss_name",
    "C66_loss_parse",
    "C66_number",
    "C66_decimal",
    "C66_error",
    "C66_accepted",
    "C66_no_panic",
    "C66_replies",
    "C66_looking",
    "C66_ids",
    "C66_listing",
    "C66_no_training_rows_refuted"
   ],
   "note": "Session.v, PropSession.v. The CSV parser, the conversions from and to JavaScript and the error messages are not modelled; text is ASCII; the largest u64 is a parameter. A reply other than a panic may be missing only if a tournament draws invalid numbers for ever (C49). C66_no_training_rows_refuted: the clause that fails."
  },
  {
   "property": "C67",
   "status": "proved",
   "theorems": [
    "C67_parallel",
    "C67_engine",
    "C67_nothing_lost",
    "C67_engine_nothing_lost"
   ],
   "note": "PropHall.v. Costs are compared by an order with the laws OrderLaws (proved for the SpecFloat and exact instances). Members created and displaced within one evolution cycle are not offered by the code, and the property does not speak of them. C67_nothing_lost: parallel; C67_engine_nothing_lost: stepwise"
  },
  {
   "property": "C68",
   "status": "proved",
   "theorems": [
    "C68_alone",
    "C68_schedule",
    "C68_engine",
    "C68_arrival_order",
    "C68_own_generator",
    "C68_neighbouring_seeds_refuted",
    "C68_reproducible_refuted"
   ],
   "note": "PropSchedule.v. C68_reproducible_refuted: the clause that fails (migration on, exact arithmetic, the same generators). C68_own_generator and C68_neighbouring_seeds_refuted: the generators; in the model a generator is a stream given to each population, and the code's seed + i (search_utils.rs:578) is the family the second theorem takes."
  },
  {
   "property": "C69",
   "status": "proved",
   "theorems": [
    "C69_range",
    "C69_log_uniform",
    "C69_sign",
    "C69_negation_probability_refuted",
    "C69_default_negates_refuted",
    "C69_mutation",
    "C69_reachable"
   ],
   "note": "PropFactor.v, model in Factor.v. Over the real numbers (powf = Rpower), so with the axioms of the standard library of real numbers; the rounding of f64's powf is not modelled. Probability: counted over N equally likely draws k/N, for every N (C69_negation_probability_refuted, C69_default_negates_refuted). SymbolicRegression.jl, which the code follows, has the same comparison."
  },
  {
   "property": "C70",
   "status": "proved",
   "theorems": [
    "C70_constant",
    "C70_operator",
    "C70_feature",
    "C70_swap",
    "C70_insert",
    "C70_prepend",
    "C70_append",
    "C70_add",
    "C70_delete",
    "C70_crossover",
    "C70_rotate",
    "C70_random_expr",
    "C70_random_expr_append_ops",
    "C70_connected"
   ],
   "note": "PropComplete.v. Converse of C18-C21. Integer draws are arbitrary naturals, real draws arbitrary scalars; that a given pseudo-random generator produces the needed stream from some seed is not claimed. Size premises are those of C19 (constant indices fit u16)."
  },
  {
   "property": "C71",
   "status": "proved",
   "theorems": [
    "C71_seeds",
    "C71_neighbouring_seeds",
    "C71_optimizer_limits",
    "C71_acceptance",
    "C71_reads",
    "C71_unused",
    "C71_second_phase",
    "C71_optimize_weight_refuted",
    "C71_apply_to",
    "C71_web",
    "C71_web_refused",
    "C71_web_default"
   ],
   "note": "PropOptions.v, PropDefaults.v. The relation same_but_unused lists the options that may differ. Command-line parsing and deserialisation of the web options object are not modelled (a malformed object silently yields the defaults).; C71_reads, C71_optimizer_limits, C71_acceptance: which option does what; C71_seeds, C71_neighbouring_seeds: seeds"
  },
  {
   "property": "C72",
   "status": "proved",
   "theorems": [
    "C72_step",
    "C72_iteration",
    "C72_parallel",
    "C72_engine",
    "C72_every_choice",
    "C72_defaults"
   ],
   "note": "C72_step, C72_iteration: one step, one iteration, on any dataset of the right shape; C72_parallel, C72_engine: whole searches without batching; C72_every_choice, C72_defaults: when the draws have a chance"
  },
  {
   "property": "C73",
   "status": "proved",
   "theorems": [
    "C73_parallel",
    "C73_engine",
    "C73_symmetric",
    "C73_row_order",
    "C73_reordered_search",
    "C73_order_refuted",
    "C73_zero_weight_refuted"
   ],
   "note": "C73_parallel, C73_engine: for data with the same view; C73_row_order, C73_reordered_search: another order of the rows; C73_order_refuted, C73_zero_weight_refuted: what is false"
  },
  {
   "property": "C74",
   "status": "proved",
   "theorems": [
    "C74_copies",
    "C74_same_view",
    "C74_objective",
    "C74_scaled_weights",
    "C74_equal_weights"
   ],
   "note": "C74_same_view: losses and slopes (same_view is defined in View.v); C74_objective: the minimised function; C74_copies, C74_scaled_weights, C74_equal_weights: when the means are the same. Over the reals; real-number axioms"
  },
  {
   "property": "C75",
   "status": "proved",
   "theorems": [
    "C75_loss",
    "C75_search",
    "C75_engine",
    "C75_quantile_refuted",
    "C75_weights_refuted"
   ],
   "note": "C75_loss: every IEEE format; C75_search: every schedule of a search; C75_engine: the engine. Log-cosh and Lp are conditional on the platform's ln(cosh x) and powf not being negative, since libm is not modelled. C75_quantile_refuted, C75_weights_refuted: outside the stated parameters losses can be negative"
  }
 ]
}