(** Properties C49 and C71, continued: a search with the default options, in binary64. *)
From Coq Require Import List ZArith NArith QArith SpecFloat.
From Verif Require Import Base BaseLemmas Node Tree Compile Eval EvalTop Deriv Utils Simplify Rng Registry Lit Mutation MutationProofs PropMutation Complexity ComplexitySpec Num Member
  Selection Conditioning PropConditioning Dataset PropDataset Loss PropLoss Optim ConstOpt PropConstOpt Factor Evolution PropEvolution Search PropSearch PropWhole PropPanic PropLive
  Instances Session Options PropOptions PropEval PropSelection PropRegistry.
Import ListNotations.
Local Open Scope nat_scope.

(** ** Decimal literals: the quotient of two integers below 2^53 (2^24), rounded once, is the nearest binary64 (binary32). *)
Definition dec64 (m : Z) (e : nat) : spec_float := fdiv f64ops (f64lit m 0) (f64lit (10 ^ Z.of_nat e)%Z 0).
Definition dec32 (m : Z) (e : nat) : spec_float := fdiv f32ops (f32lit m 0) (f32lit (10 ^ Z.of_nat e)%Z 0).
(** [as f64], exact. *)
Definition widen (x : spec_float) : spec_float :=
  match x with S754_finite s m e => binary_normalize 53 1024 (if s then Zneg m else Zpos m) e false | _ => x end.

(** They are the literals of C49_default_weights and C49_default_place. *)
Lemma default_weights_dec : mw_used (default_mutation_weights dec64) = default_weights.
Proof. vm_compute. reflexivity. Qed.
Lemma default_p_dec : widen (dec32 982 3) = default_p.
Proof. vm_compute. reflexivity. Qed.

(** The default options, with any operators, any of the losses and any seed. *)
Definition with_seed {T W} (s : N) (k : knobs T W) : knobs T W :=
  mkKnobs s (k_niterations k) (k_populations k) (k_population_size k) (k_ncycles_per_iteration k) (k_batch_size k)
    (k_complexity_of_constants k) (k_complexity_of_variables k) (k_maxsize k) (k_maxdepth k) (k_warmup_maxsize_by k) (k_parsimony k)
    (k_adaptive_parsimony_scaling k) (k_crossover_probability k) (k_perturbation_factor k) (k_probability_negate_constant k) (k_tournament_selection_n k)
    (k_tournament_selection_p k) (k_alpha k) (k_optimizer_nrestarts k) (k_optimizer_probability k) (k_optimizer_iterations k)
    (k_optimizer_f_calls_limit k) (k_fraction_replaced k) (k_fraction_replaced_hof k) (k_fraction_replaced_guesses k) (k_topn k)
    (k_use_frequency k) (k_use_frequency_in_tournament k) (k_skip_mutation_failures k) (k_annealing k) (k_should_optimize_constants k) (k_migration k)
    (k_hof_migration k) (k_use_baseline k) (k_progress k) (k_should_simplify k) (k_batching k) (k_mutation_weights k).
Definition defaults (V : environment spec_float spec_float) (seed : N) (reg : registry) (loss : loss_kind spec_float) : options spec_float spec_float :=
  mkOptions (with_seed seed (default_knobs dec64 dec32)) reg (make_loss (ev_F V) (ev_LO V) loss) Auto None [] [] [].

(** The arithmetic is binary64 and binary32; the elementary functions, the hash, the generators and the operators are arbitrary. *)
Record ieee (V : environment spec_float spec_float) : Prop := {
  ie_F : ev_F V = f64ops;
  ie_of_nat : ev_of_nat V = f64_of_nat;
  ie_widen : ev_widen V = widen;
  ie_F32 : ev_F32 V = f32ops;
  ie_umax : u16_max < ev_umax V;
  ie_D : 1 <= ev_D V <= u8_max }.

Lemma defaults_live V seed reg loss full : ieee V -> data_ok full ->
  (List.length reg = ev_D V /\ forall a op, 1 <= a <= ev_D V -> In op (ops_of_arity reg a) -> fst op = a /\ oknown (ev_O V) a (snd op) = true) ->
  1 <= ds_n_features full ->
  live (search_options V (defaults V seed reg loss)) full 30.
Proof.
  intros [HF Hon Hw H32 Hum HD] Hdata Hreg Hnf.
  assert (Hwarm : forall rem, get_cur_maxsize (ev_F32 V) (ev_of32 V) (ev_floor32 V) (dec32 0 1) 30 (100 * 31) rem = Ok 30).
  { intros rem. unfold get_cur_maxsize. cbv zeta. rewrite H32. change (fltb f32ops (fzero f32ops) (dec32 0 1)) with false. reflexivity. }
  pose proof Hdata as (Hd & Hrows & Hfeat).
  split; cbn [search_options defaults with_seed default_knobs evolution_options eval_options optimizer_options selection_options o_knobs o_operators o_loss o_variable_complexities
    o_operator_complexity_overrides o_op_constraints o_nested_constraints size_options sc_E sc_batching sc_batch_size sc_populations sc_population_size sc_F32 sc_of32 sc_floor32 sc_warmup_by
    eo_C eo_opt eo_sel eo_of_nat eo_weights eo_simplify eo_opt_prob ec_F ec_D ec_size ec_hash ec_umax ec_loss ec_use_baseline oc_F oc_enabled tournament_selection_n
    tournament_selection_p sel_maxsize k_batching k_batch_size k_populations k_population_size k_tournament_selection_n k_tournament_selection_p k_use_frequency_in_tournament
    k_adaptive_parsimony_scaling k_maxsize k_mutation_weights k_should_simplify k_should_optimize_constants k_optimizer_probability k_use_baseline k_warmup_maxsize_by]; auto; try lia.
  - split; cbn [search_options defaults with_seed default_knobs evolution_options eval_options optimizer_options selection_options o_knobs o_operators o_loss o_variable_complexities
    o_operator_complexity_overrides o_op_constraints o_nested_constraints size_options sc_E sc_F32 sc_of32 sc_floor32 sc_warmup_by eo_C eo_sel sel_maxsize k_maxsize k_warmup_maxsize_by]; [|lia|].
    + split; cbn [eo_C ec_D ec_O eo_reg eval_options ec_umax ec_size size_options].
      * split; [exact Hreg|]. split; [unfold u16_max in *; lia|exact (proj2 HD)].
      * split; cbn; try (unfold u16_max in *; lia); try discriminate.
      * intros [f|i|a op]; cbn; lia.
      * lia.
      * change (2 * 30 + ev_D V <= u16_max). unfold u16_max, u8_max in *. lia.
    + intros rem cur H. change (total_cycles _) with (100 * 31) in H. rewrite Hwarm in H. injection H as <-. lia.
  - intros d Hd'. apply (make_loss_total (ev_F V) (ev_LO V) loss); auto.
  - cbv zeta. right. rewrite HF, Hw, default_p_dec. exact C49_default_place.
  - intros e cx cur _ _. rewrite HF, Hon, default_weights_dec. apply C49_default_weights.
  - rewrite HF. apply (ol_inf_top _ (sf_order_laws 53 1024)).
  - rewrite HF. apply (ol_irr _ (sf_order_laws 53 1024)).
  - intros _. rewrite HF. split; [lia|reflexivity].
  - intros rem. change (total_cycles _) with (100 * 31). rewrite Hwarm. discriminate.
Qed.

(** With the default options a search on proper data never panics, whatever the data, the operators, the loss, the elementary functions, the hash of the plan cache, the seed,
    the number of threads and the arrival order. (OutOfFuel: see C49_engine.) *)
Theorem C49_defaults : forall V seed reg loss full, ieee V -> data_ok full -> 1 <= ds_n_features full ->
  (List.length reg = ev_D V /\ forall a op, 1 <= a <= ev_D V -> In op (ops_of_arity reg a) -> fst op = a /\ oknown (ev_O V) a (snd op) = true) ->
  let S := search_options V (defaults V seed reg loss) in
  (exists en0, engine_new S full = Ok en0 /\ (forall ns, steps S en0 ns <> Panic) /\ (forall fuel, run_loop S fuel en0 <> Panic))
  /\ forall bl threads, exists st0, init_search S full bl = Ok st0
     /\ forall es c, csteps S full bl (n_workers S threads) (parallel_start S st0) es c ->
        (forall t, In t (co_flight c) -> execute_task S full bl t <> Panic /\ forall r, execute_task S full bl t = Ok r -> exists st', apply_task_result S (co_st c) r = Ok st')
        /\ (forall i, In i (co_tasks c) -> dispatch S (co_st c) i <> Panic)
        /\ (finished c \/ (exists e c', cstep S full bl (n_workers S threads) c e c') \/ exists t, In t (co_flight c) /\ execute_task S full bl t = OutOfFuel).
Proof.
  intros V seed reg loss full HV Hd Hnf Hr. cbv zeta. pose proof (defaults_live V seed reg loss full HV Hd Hr Hnf) as L. split.
  - eapply C49_engine; eauto.
  - intros bl th. eapply C49_parallel; eauto.
Qed.

(** ** The premises are met *)
Definition ieee_env : environment spec_float spec_float :=
  mkEnv f64ops (mkLossOps SFabs (SFsqrt 53 1024) (fun x => x) (fun x => x) (fun x => x) (fun x _ => x) f64_of_nat (f64lit 2 0) (f64lit 1 (-1)) (dec64 1 2))
    (rational_ops f64ops) exact_hash (u16_max + 1) 3
    (mkOptOps SFabs (SFsqrt 53 1024) (fun a b => if SFltb a b then b else a) (fun a b => if SFltb a b then a else b) (f64lit 2 0) (f64lit 3 0) (f64lit 1 (-1)) (dec64 1 12)
       (f64lit 1 (-52)) (f64lit 1 (-26)) 52)
    Some Some (dec64 1 8) (mkBT (dec64 1 4) (f64lit 1 (-1)) (dec64 1 1) 1000 3 (S754_infinity false))
    (fun x _ => x) (dec64 11 1) (mkCfg (Some 0) (Some 5) (Some 7)) (fun x => x) (dec64 1 6) f64_of_nat 20 [] (fun r _ => (1, r))
    (fun s => mkRng (fun n => n * 7 + 3 + N.to_nat (s mod 10)) (fun n => dec64 (Z.of_nat (Nat.modulo n 7)) 1)) 4294
    f32ops (fun n => f32lit (Z.of_nat n) 0) (fun _ => 0) widen.
Definition ieee_data : dataset spec_float :=
  mkData (mkMat (map (fun z => f64lit z 0) [1; 2; 3]%Z) 1 3) (map (fun z => f64lit z 0) [2; 4; 7]%Z) 1 3 None (f64lit 4 0).
Definition ieee_reg : registry := [[(1, 22)]; [(2, 0); (2, 5)]; [(3, 1)]].
Example C49_defaults_case : ieee ieee_env /\ data_ok ieee_data /\ 1 <= ds_n_features ieee_data
  /\ (List.length ieee_reg = ev_D ieee_env /\ forall a op, 1 <= a <= ev_D ieee_env -> In op (ops_of_arity ieee_reg a) -> fst op = a /\ oknown (ev_O ieee_env) a (snd op) = true).
Proof.
  split; [split; try reflexivity; cbn; unfold u16_max, u8_max; lia|]. split.
  { split; [|split; cbn; unfold u16_max; lia]. split; [reflexivity|]. split; [reflexivity|]. split; [reflexivity|]. split; [reflexivity|]. discriminate. }
  split; [cbn; lia|]. split; [reflexivity|]. intros [|[|[|[|a]]]] op Ha Hin; cbn in Ha; try lia; cbn in Hin; intuition; subst; reflexivity.
Qed.

(** Options that differ in the batch size, the progress flag and the output style only, all unused by default. *)
Definition other_batch : options spec_float spec_float :=
  let o := defaults ieee_env 5 ieee_reg LMse in let k := o_knobs o in
  mkOptions (mkKnobs (k_seed k) (k_niterations k) (k_populations k) (k_population_size k) (k_ncycles_per_iteration k) 7
    (k_complexity_of_constants k) (k_complexity_of_variables k) (k_maxsize k) (k_maxdepth k) (k_warmup_maxsize_by k) (k_parsimony k)
    (k_adaptive_parsimony_scaling k) (k_crossover_probability k) (k_perturbation_factor k) (k_probability_negate_constant k) (k_tournament_selection_n k)
    (k_tournament_selection_p k) (k_alpha k) (k_optimizer_nrestarts k) (k_optimizer_probability k) (k_optimizer_iterations k)
    (k_optimizer_f_calls_limit k) (k_fraction_replaced k) (k_fraction_replaced_hof k) (fone f64ops) (k_topn k)
    (k_use_frequency k) (k_use_frequency_in_tournament k) (k_skip_mutation_failures k) (k_annealing k) (k_should_optimize_constants k) (k_migration k)
    (k_hof_migration k) (k_use_baseline k) false (k_should_simplify k) (k_batching k) (k_mutation_weights k)) (o_operators o) (o_loss o) Ansi None [] [] [].
Lemma other_batch_unused : same_but_unused (defaults ieee_env 5 ieee_reg LMse) other_batch.
Proof. split; first [reflexivity | intros; reflexivity | intros _; repeat split; reflexivity | discriminate]. Qed.
Example C71_case : same_but_unused (defaults ieee_env 5 ieee_reg LMse) other_batch
  /\ search_options ieee_env (defaults ieee_env 5 ieee_reg LMse) <> search_options ieee_env other_batch
  /\ exists en0, engine_new (search_options ieee_env other_batch) ieee_data = Ok en0.
Proof.
  split; [exact other_batch_unused|]. split; [intros H; apply (f_equal sc_batch_size) in H; discriminate H|].
  destruct C49_defaults_case as (H1 & H2 & H3 & H4). destruct (C49_defaults ieee_env 5 ieee_reg LMse ieee_data H1 H2 H3 H4) as [(en0 & He & _) _].
  exists en0. rewrite <- He. symmetry. apply C71_unused. exact other_batch_unused.
Qed.

Print Assumptions C71_unused.
Print Assumptions C71_second_phase.
Print Assumptions C71_optimize_weight_refuted.
Print Assumptions C71_apply_to.
Print Assumptions C71_web.
Print Assumptions C71_web_refused.
Print Assumptions C71_web_default.
Print Assumptions C49_defaults.
