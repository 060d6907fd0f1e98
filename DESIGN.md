# Formal model of symbolic_regression.rs in Rocq (Coq 8.16.1)

## Approach

* The model is a set of total Gallina functions, one per Rust function, each with a comment citing file and lines. A Rust panic
  (index out of bounds, failed assertion, `unwrap` of `None`, usize underflow) is the value `Panic` of the type `res`, never a default.
  Loops whose number of turns depends on random rejection take fuel and return `OutOfFuel` when it runs out; theorems either exclude that
  result explicitly or prove that enough fuel exists.
* Specifications are separate: inductive expression trees, their post-order serialisation, their recursive value, chain rule, depth, cost,
  constraint satisfaction (`Tree.v`, `DerivSpec.v`, `PlanSpec.v`, `ComplexitySpec.v`, `Lit.v`, and the section "Specification" at the head of
  each `Prop*.v`). They do not use the algorithms.
* `Prop*.v` files contain the property theorems `Cxx_…`, next to each a concrete case that meets its hypotheses (`Cxx_case`), and
  `Print Assumptions`. A theorem `…_refuted` shows that a natural stronger reading of the property is false of the code; a theorem
  `…_partial` would be one that proves only part of a property (there is none at present).
* The scalar type `T: Float` is a record `FloatOps` of operations without laws (`Ieee.v` gives the IEEE formats as an instance, from Flocq's correctly rounded operations). Theorems that hold in every arithmetic quantify over it.
  Where laws are needed they are explicit premises, each proved for at least one concrete instance:
  `OrderLaws` (comparisons; proved for SpecFloat binary64/binary32 and extended rationals), `ZeroLaws`, `SignLaws`, `ExactLaws`/`ExactLoss`
  (exact arithmetic; extended rationals `xq`), `ring_theory` (Z), and the real numbers `rops` for the theorems of calculus (C51-C56, C58, C59, C61, C62, C69).
* The random generator is an arbitrary pair of streams of draws: theorems quantify over all streams. Thread schedules are arbitrary
  sequences of completion events. `usize::MAX` is the parameter `umax` (with `widths` saying it is at least 2^16-1), the id stride 2^32 the
  parameter `sc_stride`.

## Trusted base

1. Coq's kernel (8.16.1), including its virtual machine (`vm_compute` is used in cases and refutations).
2. Axioms, as printed by `Print Assumptions` for each theorem:
   * C01-C50, C57, C60, C63-C68, C70-C73, C61_bfgs_stops, C61_newton_stationary, C62_newton_parabola and the theorems of C55/C56 that are not about real numbers (and except the theorems of the next line): *Closed under the global context*.
   * the theorems named `*_binary64`, `*_binary32` (C30, C31, C33), the theorems of C75, C56_temperature_ieee, C29_largest_draw, C43_default_weights, b_sign_laws and C31_last_step_refuted, which use Flocq's IEEE formats, and C51-C54, C55_real, C55_probability, C56_real_temperature, C56_temperature, C58, C59, C69, C74 and the other theorems of C61 and C62 as marked in their files: the standard library's axioms of the real
     numbers `ClassicalDedekindReals.sig_forall_dec`, `ClassicalDedekindReals.sig_not_dec`,
     `FunctionalExtensionality.functional_extensionality_dep`, and `Classical_Prop.classic`. No other axioms.
     (vcheck's list also names the fields of the standard library's opaque modules `Rdefinitions.RbaseSymbolsImpl`/`RinvImpl` and of
     `ssr.ssrunder.Under_rel`, which are defined behind a module signature in Coq's own libraries, not axioms of a theorem.)
   * No axiom, `Variable`/`Hypothesis` outside a section, functor, module type, `Admitted` or disabled check of our own.
3. That the model is what the code does. This rests on reading the code; every definition cites its lines. It was tested by editing the model
   (`seeded/LOG.jsonl`), which checks the theorems, not the transcription.
4. Things taken from outside the repository as arbitrary parameters: `exp`, `ln`, `sqrt`, `cosh`, `tanh`, `powf` … in the arithmetic-independent
   theorems (over the reals they are the standard library's functions), the hash of node lists, `Display` of floats, the Poisson sampler
   where not stated otherwise, and `fastrand`'s streams. `slice::sort_by` is a stable insertion sort; that Rust's sort may panic or leave the
   order unspecified for inconsistent comparisons (NaN) is outside the model, and C50 shows when costs are not NaN.

## What is modelled

| Rust source | Coq model | not modelled there |
|---|---|---|
| dynamic_expressions: node.rs, expression.rs, node_utils.rs | `Node.v` | `Debug`/`Clone` derives |
| compile.rs | `Compile.v` | the hash function itself (a parameter) |
| evaluate.rs, dispatch.rs | `Eval.v` | SIMD-friendly chunking (the loops are modelled element by element) |
| evaluate_derivative.rs and derivative kernels | `Deriv.v` | |
| utils.rs, expression_algebra.rs | `Utils.v` | macro syntax (the resulting functions are modelled) |
| simplify.rs | `Simplify.v` | |
| strings.rs | `Strings.v` | `Display` of the constants (parameter) |
| traits.rs, symbolic_regression/operators.rs, operator_library.rs | `Registry.v` | |
| operator_enum.rs (40 built-in operators, presets) | `Builtin.v` | the macro syntax for user-defined operator sets |
| random.rs | `Rng.v`, `Selection.v`, `Poisson.v` | the generator's bit mixing (fastrand) |
| mutation_functions.rs | `Mutation.v` | |
| complexity.rs, check_constraints.rs | `Complexity.v` | |
| options.rs | `Options.v` | command-line parsing of options |
| pop_member.rs, population.rs, hall_of_fame.rs, migration.rs | `Member.v`, `Loss.v` | |
| selection.rs, adaptive_parsimony.rs | `Selection.v` | |
| warmup.rs, mutate.rs:20-139 | `Conditioning.v` | |
| dataset.rs | `Dataset.v` | variable names and units as text |
| loss_functions.rs | `Loss.v` | user-supplied losses are arbitrary functions |
| optim.rs, constant_optimization.rs | `Optim.v`, `ConstOpt.v` | |
| mutate.rs:141-475, regularized_evolution.rs, single_iteration.rs | `Evolution.v` | one scalar type for `T` and f64 |
| search_utils.rs | `Search.v` | progress bar, wall-clock limits, the channel's and pool's implementation (arbitrary schedules) |
| progress_bars.rs (table) | `Display.v` | ANSI branch, number formatting, indicatif |
| web/wasm/src/lib.rs | `Wasm.v`, `Metrics.v`, `Session.v` | CSV text parsing, conversions to and from JavaScript, error messages |

Not modelled at all: bench.rs, examples, proptest helpers, prelude.rs and lib.rs (re-exports).

## Per-property plan

| id | model | proof |
|----|-------|-------|
| C01 | `is_valid_postfix` | induction over lists: equivalence with "flatten of a unique tree" |
| C02 | `subtree_sizes`, `subtree_range`, `child_ranges` | induction over trees in a prefix/suffix context |
| C03 | `tree_mapreduce` with stack, the counters | stack induction on trees |
| C04 | `compile_plan`, kernels, plan execution on slot arrays | simulation: the slots on the symbolic stack hold the subtree columns |
| C05 | `compile_plan` | allocator invariant: free list and stack slots partition `[0,next)`; symbolic execution with trees in slots |
| C06 | kernel flags | simulation as C04; refutation for a bare variable by computation |
| C07 | `EvalContext` | history invariant: the cached plan is the plan of a node list seen earlier with the stored hash |
| C08, C09 | `diff_nary`, `grad_nary`, executors | simulation (`Machine.v`) against a recursive chain rule |
| C10, C11, C12 | `compress_constants`, get/set, `__apply_postfix` | list induction, tree semantics |
| C13, C14, C15 | `simplify.rs` | stack/arena invariants; `ring_theory` for C14; refutation with the built-in ids |
| C16, C17 | lookup and registries over arbitrary tables | case analysis, list induction |
| C18-C21 | `mutation_functions.rs` | postfix splice lemma, literal trees, per-mutation proofs for all draws |
| C22, C23 | `complexity.rs`, `check_constraints.rs` | tree induction; u16/usize saturation explicit |
| C24, C25 | `hall_of_fame.rs` | invariants over all `consider` histories; order laws as premises, SpecFloat instance |
| C26-C29 | `population.rs`, `migration.rs`, `selection.rs` | list lemmas; exact arithmetic for the law of the weighted draw |
| C30, C31 | `adaptive_parsimony.rs`, `warmup.rs` | history invariant, also along every schedule of a search; arithmetic; in IEEE binary64 and binary32 by monotone rounding (`Ieee.v`, Flocq) |
| C32, C33, C34 | `constant_optimization.rs`, `optim.rs`, `loss_functions.rs` | for every objective oracle; the sign laws the descent needs are proved for every IEEE format (`PropIeee.v`) |
| C35, C36, C41, C45 | `dataset.rs`, shuffles, web split and columns | permutation lemmas |
| C37, C38, C39 | `search_utils.rs` | transition system, invariants over all event lists |
| C40 | `strings.rs` | grammar of printed forms and a parser inverse to the printer |
| C42 | one evolution step, cycle, iteration | `sound` is preserved by every function for every stream |
| C43 | `condition_mutation_weights` | case analysis |
| C44 | wrapping, truncation and table layout in `progress_bars.rs` | list induction |
| C46, C47, C48, C50 | whole searches | one invariant scheme (`Invariant.v`) over all histories, instantiated with well-formedness, true losses, numeric losses |
| C49 | whole searches | every function shown panic-free under explicit conditions (`PropPanic.v`), the conditions shown for defaults and needed by refutations (`PropLive.v`) |
| C51 | the 40 built-in operators over the reals | derivatives with Coquelicot, operator by operator |
| C52 | C09 + C51 | induction over trees with the chain rule |
| C53, C54 | losses, optimiser's objective over the reals | derivatives of finite sums along curves; composition with C52 |
| C55, C56 | acceptance, numbers of steps, temperatures | case analysis, iteration count; real analysis of the probability; for the temperatures in IEEE formats, monotonicity of rounding (PropIeeeTemp.v) |
| C57 | `apply_task_result` | case analysis over C27 |
| C58 | `compute_metrics`, `evaluate_member` (`Metrics.v`) | loops as sums; Cauchy-Schwarz; shifting the centre; C46 for the members |
| C59 | `poisson_sample`, `log_factorial`, `standard_normal` (`Poisson.v`) | the loop's result as a condition on the draws; iterated integrals (Coquelicot) by induction on k; one round of the rejection loop; the radius of the normal sampler as the inverse of exp(-t^2/2); Stirling's series (`PropStirling.v`) by bounding each step, anchored at 256! by fixed-point repeated squaring |
| C60 | `execute_task`, `apply_task_result`, `next_generation`, `optimize_constants` | invariant over coordinator runs (populations keep their size, count within bounds); bounds by induction over attempts, steps, cycles, restarts and optimiser loops |
| C61 | `optim.rs` | over R: sums and quadratic forms; loop invariant (matrix symmetric positive definite), equality with a loop without the fallback; the stopping theorem by induction for any arithmetic |
| C62 | `optim.rs` (line search) | over R: algebra of the interpolation formulas; the loop refines a small relation `tries`, with an objective that logs its arguments; Newton by exact symbolic execution of two iterations |
| C63 | `constant_optimization.rs` end to end | induction on the expression: value a + b c and derivative b on every row; the objective is a parabola (sums over rows); C62_newton_parabola; invariant over the restarts |
| C64 | `optimize_constants`, `perturb`, restarts | invariant of the restart loop: stream position, least of the candidates so far and its relation to the base loss |
| C65 | `next_generation`, `crossover_generation`, `reg_evol_cycle`, `s_r_cycle` | the theorems of C18-C21 composed through the attempts; induction over steps and cycles with the invariant "sound and reachable" |
| C66 | Session.v: `WasmSearch::new` and its methods, `options_from_wasm`, `snapshot`, `summary_from_member`, `LossKind::parse`, `builtin_operator_registry`, `u64` parsing | C17, C41, C45, C49 composed for the constructor; for the calls, induction over the conversation with the invariant "the engine is the initial one advanced by the step calls", then C37, C46, C58 |
| C67 | Search.v as for C38, with the results received made visible (`receives`, `turns`) | the hall of fame as one fold of `consider` over all offers (initial members, seen members, returned members), then C24; for the members seen between cycles, induction over the cycles |
| C68 | Search.v as for C38 | tasks do not look at unused statistics; invariant along the run: every population (at home or in flight) has the history its deliveries determine; histories are unique, so results are permutations of each other; then C67 and C48. Determinism: the coordinator has no choice but the task received. Engine: simulated by the coordinator with one worker. Refutation by computing two schedules |
| C69 | Factor.v: the factor of mutate_constant_in_place (an arbitrary function in the other models) | over R, monotonicity of powers and logarithms; the number of negating draws among N equally likely ones by induction; composed with the mutation of C19 |
| C70 | Mutation.v, Registry.v, Rng.v as in C17-C21 | streams built backwards from the draws needed: each draw lemma puts one value in front of an arbitrary later stream; formulas grow from a leaf by induction on their size; connectedness by shrinking to a leaf and growing again |
| C71 | Options.v: the option records and their defaults, the part of the configuration each reader takes from them, `apply_to`, `options_from_wasm` | a congruence through every function of the search: equal results for configurations that agree on what is read; the second phase by the frames of its parts; seeds by modular arithmetic and an induction over the initial members, whose formulas depend on the generator only; limits and acceptance by C60 and C55 on this configuration (PropKnobs.v) |
| C72 | no new model: Rng.v, Mutation.v, Selection.v, Conditioning.v, Evolution.v, Search.v, Options.v | draws built backwards through the tournament, the choice of the mutation, the random formula, acceptance and replacement; the formula found differs from the target in the numbering of its constants only, which changes neither value, finiteness, cost nor feasibility; composed over steps and cycles with the same draws for every later stream; the hall of fame by a slot invariant that every later offer keeps; the default weights in binary64 by computing a draw for each of the finitely many conditioned weights |
| C73 | no new model: Loss.v, Optim.v, ConstOpt.v, Evolution.v, Search.v | a simulation (Simulate.v, View.v, ViewSearch.v) between two runs of every function from the evaluator up to the coordinator and the engine: the relation on results keeps everything but the evaluator's buffers and the gradient's scratch values; the premise is met by reordered data because a formula reads only its row and an associative, commutative sum does not depend on the order |
| C74 | no new model: Loss.v, Deriv.v, ConstOpt.v | over the reals each loss, and each slope of a loss in a constant, is a function of weighted means (of the pointwise loss; of its derivative times the formula's); copies by summing over the fibres of the map between the rows |
| C75 | no new model: Loss.v, Member.v, Dataset.v, Search.v | laws of rounding (sums, products, quotients and roots of floats not below zero are not below zero, `PropNonneg.v`, Flocq), then the value invariant of C47 carried along every schedule |

## Findings (places where a natural claim is false of the code; each has a `_refuted` theorem unless noted)

* C06: the completion flag is not "the output is finite" for an expression that is a bare variable; C09: gradients of zero rows panic.
* C07: two node lists with the same hash share a cached plan (C09: the gradient is then that of the other formula with the new constants; never a panic).
* C14: operator combination identifies subtraction by its id alone; built-in `atanh` has the same id at arity 1. C15: simplification is not
  idempotent in binary64.
* C29, C43: in binary64 a weighted choice can fall through to the last entry even when its weight is 0. With the default weights it never does (C43_default_weights).
* C75: the quantile loss with tau above 1, and any loss with a negative weight, can be negative; the code does not check either.
* C30: the moving window does not bring the total down to the window size in binary64.
* C31: a `maxsize` below 3 panics during warm-up; in binary32 the last warm-up step can be one below `maxsize`.
* C33: progress lost when the budget ends in the line search, and the call budget may be exceeded.
* C38: a panicking task makes the parallel search wait for ever. C49: batching with `batch_size` other than the number of rows panics;
  so do weights that are all 0 or negative, a tournament size of 0, p = 0, no populations, empty populations, and populations of one member with crossover.
* C39: ids repeat when failed crossovers reinsert their parents. C40: names of variables and operators can collide with the grammar.
* C41: five rows with a large test fraction leave no training rows.
* C47: with batching, or with simplification in binary64, stored losses need not be the losses on the data. C48: the reported best need not have
  the lowest loss in the hall of fame.
* C50: the adjusted cost in a tournament may be NaN. C51: the derivative of `clamp` with respect to its upper bound is wrong for reversed bounds.
* C60: an evaluated child that fails is reported as no evaluation.
* C58: the correlation shown for weighted data is not Pearson's; an id need not single out a member of the hall of fame.
* C68: a seed does not reproduce a parallel search with migration; neighbouring seeds share starting formulas (generator i is seeded with seed + i).
* C69: a constant is negated with probability 1-p instead of p.
* C71: the weight of the optimize mutation matters for single-constant formulas although constant optimisation is off; `fraction_replaced_guesses`,
  `form_connection` and `break_connection` are never read. Not theorems: the web constructor silently uses the defaults for a malformed options object
  (lib.rs:192-194); with crossover_probability 0 a draw of exactly 0 still crosses over.
* Not stated as theorems: a custom complexity callback that underflows its stack counts 0 (cannot happen for well-formed expressions).
