(** Model of the options: symbolic_regression/src/options.rs, and of how the rest of the code reads them. [T] is f64 (also the scalar type of the
    search), [W] is f32. The command-line names of the options are left out. *)
From Coq Require Import List ZArith NArith.
From Verif Require Import Base Node Eval Simplify Rng Registry Mutation Complexity Member Selection Conditioning Dataset Loss Optim ConstOpt Factor Evolution Search Session.
Import ListNotations.
Local Open Scope nat_scope.

(** options.rs:6-40 [MutationWeights]: the twelve weights of Conditioning.v, and two more. *)
Record mutation_weights (T : Type) : Type := mkMW { mw_used : weights T; mw_form_connection : T; mw_break_connection : T }.
Arguments mkMW {T}. Arguments mw_used {T}. Arguments mw_form_connection {T}. Arguments mw_break_connection {T}.

(** options.rs:42-125 [sr_options_spec]: the fields shared by [Options] and [WasmOptionsShim] (207-231), with the mutation weights. *)
Record knobs (T W : Type) : Type := mkKnobs {
  k_seed : N;
  k_niterations : nat;
  k_populations : nat;
  k_population_size : nat;
  k_ncycles_per_iteration : nat;
  k_batch_size : nat;
  k_complexity_of_constants : nat;
  k_complexity_of_variables : nat;
  k_maxsize : nat;
  k_maxdepth : nat;
  k_warmup_maxsize_by : W;
  k_parsimony : T;
  k_adaptive_parsimony_scaling : T;
  k_crossover_probability : T;
  k_perturbation_factor : T;
  k_probability_negate_constant : T;
  k_tournament_selection_n : nat;
  k_tournament_selection_p : W;
  k_alpha : T;
  k_optimizer_nrestarts : nat;
  k_optimizer_probability : T;
  k_optimizer_iterations : nat;
  k_optimizer_f_calls_limit : nat;
  k_fraction_replaced : T;
  k_fraction_replaced_hof : T;
  k_fraction_replaced_guesses : T;
  k_topn : nat;
  k_use_frequency : bool;
  k_use_frequency_in_tournament : bool;
  k_skip_mutation_failures : bool;
  k_annealing : bool;
  k_should_optimize_constants : bool;
  k_migration : bool;
  k_hof_migration : bool;
  k_use_baseline : bool;
  k_progress : bool;
  k_should_simplify : bool;
  k_batching : bool;
  k_mutation_weights : mutation_weights T }.
Arguments mkKnobs {T W}. Arguments k_seed {T W}. Arguments k_niterations {T W}. Arguments k_populations {T W}. Arguments k_population_size {T W}.
Arguments k_ncycles_per_iteration {T W}. Arguments k_batch_size {T W}. Arguments k_complexity_of_constants {T W}. Arguments k_complexity_of_variables {T W}.
Arguments k_maxsize {T W}. Arguments k_maxdepth {T W}. Arguments k_warmup_maxsize_by {T W}. Arguments k_parsimony {T W}. Arguments k_adaptive_parsimony_scaling {T W}.
Arguments k_crossover_probability {T W}. Arguments k_perturbation_factor {T W}. Arguments k_probability_negate_constant {T W}. Arguments k_tournament_selection_n {T W}.
Arguments k_tournament_selection_p {T W}. Arguments k_alpha {T W}. Arguments k_optimizer_nrestarts {T W}. Arguments k_optimizer_probability {T W}.
Arguments k_optimizer_iterations {T W}. Arguments k_optimizer_f_calls_limit {T W}. Arguments k_fraction_replaced {T W}. Arguments k_fraction_replaced_hof {T W}.
Arguments k_fraction_replaced_guesses {T W}. Arguments k_topn {T W}. Arguments k_use_frequency {T W}. Arguments k_use_frequency_in_tournament {T W}.
Arguments k_skip_mutation_failures {T W}. Arguments k_annealing {T W}. Arguments k_should_optimize_constants {T W}. Arguments k_migration {T W}. Arguments k_hof_migration {T W}.
Arguments k_use_baseline {T W}. Arguments k_progress {T W}. Arguments k_should_simplify {T W}. Arguments k_batching {T W}. Arguments k_mutation_weights {T W}.

(** options.rs:149-158 [OutputStyle]. *)
Inductive output_style : Type := Auto | Plain | Ansi.

(** options.rs:167-186 [Options]. Simplification: the fields that [Options] shares with [WasmOptionsShim] are one field of type [knobs], instead of being repeated. *)
Record options (T W : Type) : Type := mkOptions {
  o_knobs : knobs T W;
  o_operators : registry;
  o_loss : lossfn T;
  o_output_style : output_style;
  o_variable_complexities : option (list nat);
  o_operator_complexity_overrides : list (opid * nat);
  o_op_constraints : list (opid * list (option nat));
  o_nested_constraints : list (opid * list (opid * nat)) }.
Arguments mkOptions {T W}. Arguments o_knobs {T W}. Arguments o_operators {T W}. Arguments o_loss {T W}. Arguments o_output_style {T W}.
Arguments o_variable_complexities {T W}. Arguments o_operator_complexity_overrides {T W}. Arguments o_op_constraints {T W}. Arguments o_nested_constraints {T W}.

(** What the code takes from elsewhere: the arithmetic and its literals, the operator set and the ids of its +, * and -, the hash, the widths, the random
    generators. [ev_generator s] is [Rng::with_seed(s)], [ev_stride] is 2^32 (search_utils.rs:582), [ev_widen] is [as f64]; [ev_g_abstol] and [ev_ls] are fixed in constant_optimization.rs. *)
Record environment (T W : Type) : Type := mkEnv {
  ev_F : FloatOps T; ev_LO : LossOps T; ev_O : OpSet T; ev_hash : list pnode -> N; ev_umax : nat; ev_D : nat;
  ev_OO : OptOps T; ev_to : T -> option T; ev_of : T -> option T; ev_g_abstol : T; ev_ls : backtracking T;
  ev_powf : T -> T -> T; ev_1_1 : T; ev_ccfg : ccfg; ev_exp : T -> T; ev_eps : T; ev_of_nat : nat -> T; ev_fuel : nat; ev_stale : list nat;
  ev_poisson : rng T -> T -> nat * rng T; ev_generator : N -> rng T; ev_stride : nat;
  ev_F32 : FloatOps W; ev_of32 : nat -> W; ev_floor32 : W -> nat; ev_widen : W -> T }.
Arguments mkEnv {T W}. Arguments ev_F {T W}. Arguments ev_LO {T W}. Arguments ev_O {T W}. Arguments ev_hash {T W}. Arguments ev_umax {T W}. Arguments ev_D {T W}.
Arguments ev_OO {T W}. Arguments ev_to {T W}. Arguments ev_of {T W}. Arguments ev_g_abstol {T W}. Arguments ev_ls {T W}. Arguments ev_powf {T W}. Arguments ev_1_1 {T W}.
Arguments ev_ccfg {T W}. Arguments ev_exp {T W}. Arguments ev_eps {T W}. Arguments ev_of_nat {T W}. Arguments ev_fuel {T W}. Arguments ev_stale {T W}.
Arguments ev_poisson {T W}. Arguments ev_generator {T W}. Arguments ev_stride {T W}. Arguments ev_F32 {T W}. Arguments ev_of32 {T W}. Arguments ev_floor32 {T W}. Arguments ev_widen {T W}.

Section Reads.
Context {T W : Type} (V : environment T W) (o : options T W).
Local Notation k := (o_knobs o).

(** What complexity.rs and check_constraints.rs read. *)
Definition size_options : size_opts :=
  mkSizeOpts (k_complexity_of_constants k) (k_complexity_of_variables k) (o_variable_complexities o) (o_operator_complexity_overrides o) (k_maxdepth k)
    (o_op_constraints o) (o_nested_constraints o).
(** pop_member.rs, loss_functions.rs *)
Definition eval_options : eval_cfg T :=
  mkEvalCfg (ev_F V) (ev_LO V) (ev_O V) (ev_hash V) (ev_umax V) (ev_D V) size_options (o_loss o) (k_parsimony k) (k_use_baseline k).
(** constant_optimization.rs:176-200 *)
Definition optimizer_options : opt_cfg T T :=
  mkOptCfg (ev_F V) (ev_OO V) (ev_to V) (ev_of V) (k_should_optimize_constants k) (k_optimizer_iterations k) (k_optimizer_f_calls_limit k) (k_optimizer_nrestarts k)
    (ev_g_abstol V) (ev_ls V).
(** selection.rs:9-66; the probability is an f32, used as f64 (selection.rs:18). *)
Definition selection_options : sel_opts T :=
  mkSel (k_tournament_selection_n k) (ev_widen V (k_tournament_selection_p k)) (k_use_frequency_in_tournament k) (k_adaptive_parsimony_scaling k) (k_maxsize k).
(** mutate.rs, mutation_functions.rs, regularized_evolution.rs, single_iteration.rs *)
Definition evolution_options : evo_cfg T :=
  mkEvo eval_options optimizer_options (o_operators o) (mw_used (k_mutation_weights k)) (k_should_simplify k) (k_optimizer_probability k)
    (mutate_factor (ev_F V) (mkFactor (k_perturbation_factor k) (k_probability_negate_constant k) (ev_powf V) (ev_1_1 V)))
    (ev_ccfg V) (k_annealing k) (k_alpha k) (k_use_frequency k) (ev_exp V) (ev_eps V) (ev_of_nat V) (k_crossover_probability k) (k_skip_mutation_failures k)
    selection_options (ev_fuel V) (ev_stale V) (k_ncycles_per_iteration k).
(** search_utils.rs:578 (the generators of the populations), 178 and 262 (the order of the tasks), and the rest of search_utils.rs. *)
Definition population_seed (i : nat) : N := ((k_seed k + N.of_nat i) mod 2 ^ 64)%N.
Definition order_seed : N := N.lxor (k_seed k) 11400714819323198485%N.  (* 0x9e3779b97f4a7c15 *)
Definition search_options : search_cfg T W :=
  mkSearch evolution_options (k_niterations k) (k_populations k) (k_population_size k) (k_batching k) (k_batch_size k) (k_topn k) (k_migration k) (k_fraction_replaced k)
    (k_hof_migration k) (k_fraction_replaced_hof k) (ev_poisson V) (fun i => ev_generator V (population_seed i)) (ev_generator V order_seed) (ev_stride V)
    (ev_F32 V) (ev_of32 V) (ev_floor32 V) (k_warmup_maxsize_by k).
End Reads.

(** options.rs:127-147: the defaults; [dec m e] is the decimal literal m * 10^-e. *)
Definition default_mutation_weights {T} (dec : Z -> nat -> T) : mutation_weights T :=
  mkMW (mkWeights (dec 346%Z 4) (dec 293%Z 3) (dec 1%Z 1) (dec 198%Z 3) (dec 426%Z 2) (dec 247%Z 2) (dec 112%Z 4) (dec 870%Z 3) (dec 209%Z 5) (dec 502%Z 6) (dec 273%Z 3) (dec 0%Z 1))
    (dec 5%Z 1) (dec 1%Z 1).
(** options.rs:226-235, 188-194: the same values in [Options] and in [WasmOptionsShim]. *)
Definition default_knobs {T W} (dec : Z -> nat -> T) (dec32 : Z -> nat -> W) : knobs T W :=
  mkKnobs 0%N 100 31 27 380 50 1 1 30 30 (dec32 0%Z 1) (dec 0%Z 1) (dec 10400%Z 1) (dec 259%Z 4) (dec 129%Z 3) (dec 743%Z 5) 15 (dec32 982%Z 3) (dec 317%Z 2) 2 (dec 14%Z 2) 8
    (10 * 1000) (dec 36%Z 5) (dec 614%Z 4) (dec 1%Z 3) 12 true true true true true true true true true true false (default_mutation_weights dec).
(** options.rs:187-203: [Options::default]. [Operators::new] holds no operator (operators.rs:45-49). *)
Definition default_options {T W} (D : nat) (F : FloatOps T) (LO : LossOps T) (dec : Z -> nat -> T) (dec32 : Z -> nat -> W) : options T W :=
  mkOptions (default_knobs dec dec32) (reg_new D) (make_loss F LO LMse) Auto None [] [] [].

(** options.rs:238-246 [apply_to], field by field. *)
Definition apply_to {T W} (self : knobs T W) (opt : options T W) : options T W :=
  mkOptions
    (mkKnobs (k_seed self) (k_niterations self) (k_populations self) (k_population_size self) (k_ncycles_per_iteration self) (k_batch_size self)
      (k_complexity_of_constants self) (k_complexity_of_variables self) (k_maxsize self) (k_maxdepth self) (k_warmup_maxsize_by self) (k_parsimony self)
      (k_adaptive_parsimony_scaling self) (k_crossover_probability self) (k_perturbation_factor self) (k_probability_negate_constant self) (k_tournament_selection_n self)
      (k_tournament_selection_p self) (k_alpha self) (k_optimizer_nrestarts self) (k_optimizer_probability self) (k_optimizer_iterations self)
      (k_optimizer_f_calls_limit self) (k_fraction_replaced self) (k_fraction_replaced_hof self) (k_fraction_replaced_guesses self) (k_topn self)
      (k_use_frequency self) (k_use_frequency_in_tournament self) (k_skip_mutation_failures self) (k_annealing self) (k_should_optimize_constants self) (k_migration self)
      (k_hof_migration self) (k_use_baseline self) (k_progress self) (k_should_simplify self) (k_batching self) (k_mutation_weights self))
    (o_operators opt) (o_loss opt) (o_output_style opt) (o_variable_complexities opt) (o_operator_complexity_overrides opt) (o_op_constraints opt) (o_nested_constraints opt).

Definition no_progress {T W} (s : knobs T W) : knobs T W :=
  mkKnobs (k_seed s) (k_niterations s) (k_populations s) (k_population_size s) (k_ncycles_per_iteration s) (k_batch_size s)
    (k_complexity_of_constants s) (k_complexity_of_variables s) (k_maxsize s) (k_maxdepth s) (k_warmup_maxsize_by s) (k_parsimony s)
    (k_adaptive_parsimony_scaling s) (k_crossover_probability s) (k_perturbation_factor s) (k_probability_negate_constant s) (k_tournament_selection_n s)
    (k_tournament_selection_p s) (k_alpha s) (k_optimizer_nrestarts s) (k_optimizer_probability s) (k_optimizer_iterations s)
    (k_optimizer_f_calls_limit s) (k_fraction_replaced s) (k_fraction_replaced_hof s) (k_fraction_replaced_guesses s) (k_topn s)
    (k_use_frequency s) (k_use_frequency_in_tournament s) (k_skip_mutation_failures s) (k_annealing s) (k_should_optimize_constants s) (k_migration s)
    (k_hof_migration s) (k_use_baseline s) false (k_should_simplify s) (k_batching s) (k_mutation_weights s).

(** web/wasm/src/lib.rs:277-315 [options_from_wasm]. *)
Definition options_from_wasm {T W} (D : nat) (F : FloatOps T) (LO : LossOps T) (dec : Z -> nat -> T) (dec32 : Z -> nat -> W) (core : knobs T W) (l : loss_opts T)
    (operators : registry) : option (options T W) :=
  match loss_kind_of l with
  | None => None
  | Some kind =>
      let out := default_options D F LO dec dec32 in
      let out := mkOptions (o_knobs out) operators (o_loss out) (o_output_style out) (o_variable_complexities out) (o_operator_complexity_overrides out)
                   (o_op_constraints out) (o_nested_constraints out) in
      let out := apply_to core out in
      Some (mkOptions (no_progress (o_knobs out)) (o_operators out) (make_loss F LO kind) (o_output_style out) (o_variable_complexities out)
              (o_operator_complexity_overrides out) (o_op_constraints out) (o_nested_constraints out))
  end.
