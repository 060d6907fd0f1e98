(** Property C71, continued: which option does what. The seeds of the populations, the limits of the constant optimizer, and the switches of the acceptance rule. *)
From Coq Require Import List ZArith NArith.
From Verif Require Import Base BaseLemmas Node Compile Eval Deriv Utils Simplify Rng Registry Mutation Complexity Member Selection Conditioning Dataset Loss
  Optim ConstOpt Factor Evolution Frames PropEvolution Search PropSearch Session PropConditioning PropEvals PropAccept PropPanic Options Instances PropDefaults.
Import ListNotations.
Local Open Scope nat_scope.

(** ** Specification *)
(** The options [o] with another seed. *)
Definition with_seed {T W} (s : N) (o : options T W) : options T W :=
  mkOptions
    (mkKnobs s (k_niterations (o_knobs o)) (k_populations (o_knobs o)) (k_population_size (o_knobs o)) (k_ncycles_per_iteration (o_knobs o)) (k_batch_size (o_knobs o))
      (k_complexity_of_constants (o_knobs o)) (k_complexity_of_variables (o_knobs o)) (k_maxsize (o_knobs o)) (k_maxdepth (o_knobs o)) (k_warmup_maxsize_by (o_knobs o)) (k_parsimony (o_knobs o))
      (k_adaptive_parsimony_scaling (o_knobs o)) (k_crossover_probability (o_knobs o)) (k_perturbation_factor (o_knobs o)) (k_probability_negate_constant (o_knobs o)) (k_tournament_selection_n (o_knobs o))
      (k_tournament_selection_p (o_knobs o)) (k_alpha (o_knobs o)) (k_optimizer_nrestarts (o_knobs o)) (k_optimizer_probability (o_knobs o)) (k_optimizer_iterations (o_knobs o))
      (k_optimizer_f_calls_limit (o_knobs o)) (k_fraction_replaced (o_knobs o)) (k_fraction_replaced_hof (o_knobs o)) (k_fraction_replaced_guesses (o_knobs o)) (k_topn (o_knobs o))
      (k_use_frequency (o_knobs o)) (k_use_frequency_in_tournament (o_knobs o)) (k_skip_mutation_failures (o_knobs o)) (k_annealing (o_knobs o)) (k_should_optimize_constants (o_knobs o)) (k_migration (o_knobs o))
      (k_hof_migration (o_knobs o)) (k_use_baseline (o_knobs o)) (k_progress (o_knobs o)) (k_should_simplify (o_knobs o)) (k_batching (o_knobs o)) (k_mutation_weights (o_knobs o)))
    (o_operators o) (o_loss o) (o_output_style o) (o_variable_complexities o) (o_operator_complexity_overrides o) (o_op_constraints o) (o_nested_constraints o).
(** The formulas of a population, in order. *)
Definition formulas_of {T} (p : option (pop_state T)) : option (list (expr T)) := option_map (fun p => map (@m_expr T) (ps_pop p)) p.

(** ** Seeds *)
Section Init.
Context {T W : Type} (S0 : search_cfg T W) (d : dataset T) (bl : option T).
Lemma init_members_exprs n : forall s s' h h' ms ms' s1 s1' h1 h1', es_rng s = es_rng s' ->
  init_members S0 n d bl s h = Ok (ms, s1, h1) -> init_members S0 n d bl s' h' = Ok (ms', s1', h1') -> map (@m_expr T) ms = map (@m_expr T) ms'.
Proof.
  induction n as [|n IH]; intros s s' h h' ms ms' s1 s1' h1 h1' Hg H H'; cbn [init_members] in *; [congruence|]. rewrite <- Hg in H'.
  apply bind_ok in H as ([e g] & He & H). rewrite He in H'. cbn [bind] in H'.
  apply bind_ok in H as (m & Hm & H). apply bind_ok in H as ([[m2 ev] ok] & Hv & H). apply bind_ok in H as (h2 & _ & H). apply bind_ok in H as ([[ms2 s2] h3] & Hr & H). injection H as <- <- <-.
  apply bind_ok in H' as (m' & Hm' & H'). apply bind_ok in H' as ([[m2' ev'] ok'] & Hv' & H'). apply bind_ok in H' as (h2' & _ & H'). apply bind_ok in H' as ([[ms2' s2'] h3'] & Hr' & H'). injection H' as <- <- <-.
  cbn [map]. f_equal.
  - apply evaluate_frame in Hv as (c & l & k & -> & _). apply evaluate_frame in Hv' as (c' & l' & k' & -> & _). apply from_expr_frame in Hm as (_ & _ & _ & E & _). apply from_expr_frame in Hm' as (_ & _ & _ & E' & _).
    cbn. congruence.
  - eapply IH; [|exact Hr|exact Hr']. reflexivity.
Qed.
End Init.

(** Population [j] of one search and population [i] of another begin with the same formulas if their generators do. *)
Lemma init_pops_nth {T W} (S0 : search_cfg T W) (d : dataset T) bl n : forall i h ps h', init_pops S0 n i d bl h = Ok (ps, h') ->
  List.length ps = n /\ forall j p, nth_error ps j = Some p -> exists s h1 s1 h2, es_rng s = sc_seed S0 (i + j) /\ init_members S0 (sc_population_size S0) d bl s h1 = Ok (ps_pop p, s1, h2).
Proof.
  induction n as [|n IH]; intros i h ps h' H; cbn [init_pops] in H.
  - injection H as <- <-. split; [reflexivity|]. intros [|j] p Hp; discriminate Hp.
  - cbv zeta in H. apply bind_ok in H as ([[ms s] h1] & Hm & H). apply bind_ok in H as ([ps1 h2] & Hr & H). injection H as <- <-. apply IH in Hr as [Hl Hr]. cbn [List.length]. split; [lia|].
    intros [|j] p Hp; cbn [nth_error] in Hp.
    + injection Hp as <-. cbn [ps_pop]. eexists. exists h, s, h1. split; [|exact Hm]. cbn. f_equal. lia.
    + destruct (Hr j p Hp) as (s0 & h3 & s1 & h4 & E & Hi). exists s0, h3, s1, h4. split; [|exact Hi]. rewrite E. f_equal. lia.
Qed.
Lemma init_members_config {T W} (S0 S1 : search_cfg T W) d bl : sc_E S0 = sc_E S1 -> forall n s h, init_members S0 n d bl s h = init_members S1 n d bl s h.
Proof.
  intros HE. induction n as [|n IH]; intros s h; cbn [init_members]; auto. rewrite HE. destruct (random_expr_append_ops _ _ _ _ _ _ _) as [[e g]| |]; cbn [bind]; auto.
  destruct (from_expr _ _ _ _ _ _) as [m| |]; cbn [bind]; auto. destruct (evaluate _ _ _ _ _) as [[[m' ev] ok]| |]; cbn [bind]; auto. destruct (consider _ _ _ _ _ _ _ _) as [h'| |]; cbn [bind]; auto.
  now rewrite IH.
Qed.

(** The populations of one search start from different generators: population [i] from the one seeded with seed + i, modulo 2^64. *)
Theorem C71_seeds : forall (T W : Type) (V : environment T W) (o : options T W),
  (forall i, sc_seed (search_options V o) i = ev_generator V ((k_seed (o_knobs o) + N.of_nat i) mod 2 ^ 64)%N)
  /\ forall i j, (N.of_nat i < 2 ^ 64)%N -> (N.of_nat j < 2 ^ 64)%N -> i <> j -> population_seed o i <> population_seed o j.
Proof.
  intros T W V o. split; [reflexivity|]. intros i j Hi Hj Hij E. unfold population_seed in E. set (s := k_seed (o_knobs o)) in *. set (m := (2 ^ 64)%N) in *.
  assert (Hm : (m <> 0)%N) by discriminate. apply Hij. apply Nat2N.inj.
  assert (G : forall a b, (a < m)%N -> (b < m)%N -> (a <= b)%N -> ((s + a) mod m = (s + b) mod m)%N -> a = b).
  { intros a b Ha Hb Hab Heq. pose proof (N.div_mod (s + a) m Hm) as D1. pose proof (N.div_mod (s + b) m Hm) as D2. rewrite <- Heq in D2.
    assert (K : (b - a = m * ((s + b) / m - (s + a) / m))%N).
    { assert (((s + a) / m <= (s + b) / m)%N) by (apply N.div_le_mono; lia). rewrite N.mul_sub_distr_l. lia. }
    destruct (N.eq_dec ((s + b) / m - (s + a) / m) 0) as [Z|Z]; [rewrite Z in K; lia|]. assert (m * 1 <= m * ((s + b) / m - (s + a) / m))%N by (apply N.mul_le_mono_l; lia). lia. }
  destruct (N.le_ge_cases (N.of_nat i) (N.of_nat j)) as [L|L]; [|symmetry; symmetry in E]; now apply G.
Qed.

(** So neighbouring seeds do not give independent searches: population [i] of a search with seed s + n starts with the formulas of population [i + n] of the search with seed s. *)
Theorem C71_neighbouring_seeds : forall (T W : Type) (V : environment T W) (o : options T W) n d bl st st',
  init_search (search_options V o) d bl = Ok st -> init_search (search_options V (with_seed ((k_seed (o_knobs o) + N.of_nat n) mod 2 ^ 64)%N o)) d bl = Ok st' ->
  List.length (ss_pops st) = k_populations (o_knobs o) /\ List.length (ss_pops st') = k_populations (o_knobs o)
  /\ forall i p p', nth_error (ss_pops st) (i + n) = Some p -> nth_error (ss_pops st') i = Some p' -> exists es, formulas_of p = Some es /\ formulas_of p' = Some es /\ List.length es = k_population_size (o_knobs o).
Proof.
  intros T W V o n d bl st st' H H'. set (o' := with_seed _ o) in H'. unfold init_search in H, H'.
  apply bind_ok in H as ([ps h] & Hp & H). apply bind_ok in H as (b & _ & H). apply bind_ok in H as (b1 & _ & H). apply bind_ok in H as (sb & _ & H). injection H as <-.
  apply bind_ok in H' as ([ps' h'] & Hp' & H'). apply bind_ok in H' as (b' & _ & H'). apply bind_ok in H' as (b1' & _ & H'). apply bind_ok in H' as (sb' & _ & H'). injection H' as <-.
  cbn [ss_pops]. apply init_pops_nth in Hp as [Hl Hp]. apply init_pops_nth in Hp' as [Hl' Hp']. rewrite !map_length, Hl, Hl'. split; [reflexivity|]. split; [reflexivity|].
  intros i p p' Hi Hi'. rewrite nth_error_map in Hi, Hi'. destruct (nth_error ps (i + n)) as [q|] eqn:Eq; [|discriminate]. destruct (nth_error ps' i) as [q'|] eqn:Eq'; [|discriminate].
  injection Hi as <-. injection Hi' as <-. cbn [formulas_of option_map]. exists (map (@m_expr T) (ps_pop q)). split; [reflexivity|].
  destruct (Hp _ _ Eq) as (s & h1 & s1 & h2 & E1 & R1). destruct (Hp' _ _ Eq') as (s' & h1' & s1' & h2' & E2 & R2).
  assert (HE : sc_E (search_options V o') = sc_E (search_options V o)) by reflexivity.
  change (sc_population_size (search_options V o')) with (sc_population_size (search_options V o)) in R2. rewrite (init_members_config _ _ d bl HE) in R2.
  split.
  - f_equal. symmetry. eapply (init_members_exprs (search_options V o) d bl); [|exact R1|exact R2]. rewrite E1, E2. cbn [search_options sc_seed]. f_equal. unfold population_seed, o'. cbn [with_seed o_knobs k_seed Nat.add].
    rewrite N.add_mod_idemp_l by discriminate. rewrite Nat2N.inj_add. f_equal. lia.
  - rewrite map_length. exact (init_members_home _ _ _ _ _ _ _ _ _ R1).
Qed.

(** ** The constant optimizer *)
(** A member's constants are optimised only if that is on, and what it reports is bounded by the options of the optimizer: for each of the first start and the restarts two
    evaluations over the limit of calls, or, with the limit 0, what the iterations allow. *)
Theorem C71_optimizer_limits : forall (T W : Type) (V : environment T W) (o : options T W) r m d bl ev gc nb r' m' ev' gc' nb' improved evals,
  optimize_constants (eval_options V o) (optimizer_options V o) r m d bl ev gc nb = Ok (r', m', ev', gc', nb', improved, evals) ->
  let k := o_knobs o in
  let per_start := if k_optimizer_f_calls_limit k =? 0 then 1 + k_optimizer_iterations k * (oo_finite_max (ev_OO V) + bt_iterations (ev_ls V) + 3) else k_optimizer_f_calls_limit k + 2 in
  (k_should_optimize_constants k = true -> evals <= (1 + k_optimizer_nrestarts k) * per_start + 1) /\ (k_should_optimize_constants k = false -> evals = 0 /\ m' = m).
Proof.
  intros T W V o r m d bl ev gc nb r' m' ev' gc' nb' imp evals H. cbv zeta. split; intros He.
  - apply C60_optimisation in H as [H _]. unfold member_budget in H. cbn [optimizer_options oc_enabled] in H. rewrite He in H. exact H.
  - unfold optimize_constants in H. cbn [optimizer_options oc_enabled] in H. rewrite He in H. cbn [negb] in H. injection H as _ <- _ _ _ _ <-. auto.
Qed.

(** ** Acceptance *)
(** The switches [annealing] and [use_frequency], and [alpha], decide on a mutation; the switch of the tournament and the parsimony scaling do not. *)
Theorem C71_acceptance : forall (T W : Type) (V : environment T W) (o : options T W) (s : evo_st T) (m : member T) (d : dataset T) bl temperature cur (st : stats T) c g tree evals g' ev child ev' ok fresh u g'',
  let E := evolution_options V o in let F := ev_F V in let k := o_knobs o in
  (forall x, ev_to V x = Some x) ->
  sample_mutation F (es_rng s) (condition_mutation_weights F (ev_of_nat V) (mw_used (k_mutation_weights k)) (m_expr m) (m_complexity m)
      (mkCond (k_should_simplify k) (k_should_optimize_constants k) (k_optimizer_probability k)) cur (ds_n_features d)) = Ok (c, g) ->
  attempts E 10 c g (es_ev s) m d bl temperature cur 0 = Ok (Some (tree, false), evals, g', ev) ->
  from_expr (eval_options V o) (es_id s) (Some (m_id m)) (es_birth s) tree (ds_n_features d) = Ok fresh ->
  evaluate (eval_options V o) fresh d bl ev = Ok (child, ev', ok) ->
  rng_real g' = (u, g'') ->
  forall baby accepted n s', next_generation E s m d bl temperature cur st = Ok (baby, accepted, n, s') ->
  let common := commonness F (ev_eps V) (k_maxsize k) (st_norm st) in
  let p := code_probability F (ev_exp V) (k_annealing k) (k_use_frequency k) temperature (k_alpha k) (m_cost m) (m_cost child) (common (m_complexity m)) (common (m_complexity child)) in
  (accepted = true <-> ok = true /\ ffinite F (m_cost child) = true /\ fltb F p u = false) /\ if accepted then baby = child else same_content m baby.
Proof. intros T W V o. exact (C55_acceptance T (evolution_options V o)). Qed.

(** ** Which part of the search reads which option *)
Theorem C71_reads : forall (T W : Type) (V : environment T W) (o : options T W),
  let k := o_knobs o in let S := search_options V o in let E := sc_E S in let C := eo_C E in let O := eo_opt E in let L := eo_sel E in
  (sc_niterations S = k_niterations k /\ sc_populations S = k_populations k /\ sc_population_size S = k_population_size k /\ sc_batching S = k_batching k /\ sc_batch_size S = k_batch_size k
   /\ sc_topn S = k_topn k /\ sc_migration S = k_migration k /\ sc_frac S = k_fraction_replaced k /\ sc_hof_migration S = k_hof_migration k /\ sc_frac_hof S = k_fraction_replaced_hof k
   /\ sc_warmup_by S = k_warmup_maxsize_by k)
  /\ (eo_ncycles E = k_ncycles_per_iteration k /\ eo_annealing E = k_annealing k /\ eo_alpha E = k_alpha k /\ eo_use_frequency E = k_use_frequency k
      /\ eo_crossover_prob E = k_crossover_probability k /\ eo_skip_failures E = k_skip_mutation_failures k /\ eo_simplify E = k_should_simplify k /\ eo_opt_prob E = k_optimizer_probability k
      /\ eo_reg E = o_operators o /\ eo_weights E = mw_used (k_mutation_weights k))
  /\ (tournament_selection_n L = k_tournament_selection_n k /\ tournament_selection_p L = ev_widen V (k_tournament_selection_p k)
      /\ use_frequency_in_tournament L = k_use_frequency_in_tournament k /\ adaptive_parsimony_scaling L = k_adaptive_parsimony_scaling k /\ sel_maxsize L = k_maxsize k)
  /\ (oc_enabled O = k_should_optimize_constants k /\ oc_iterations O = k_optimizer_iterations k /\ oc_f_calls_limit O = k_optimizer_f_calls_limit k /\ oc_nrestarts O = k_optimizer_nrestarts k)
  /\ (ec_loss C = o_loss o /\ ec_parsimony C = k_parsimony k /\ ec_use_baseline C = k_use_baseline k
      /\ complexity_of_constants (ec_size C) = k_complexity_of_constants k /\ complexity_of_variables (ec_size C) = k_complexity_of_variables k
      /\ variable_complexities (ec_size C) = o_variable_complexities o /\ operator_overrides (ec_size C) = o_operator_complexity_overrides o /\ maxdepth (ec_size C) = k_maxdepth k
      /\ op_limits (ec_size C) = o_op_constraints o /\ nested_limits (ec_size C) = o_nested_constraints o)
  /\ forall temperature, eo_factor E temperature = mutate_factor (ev_F V) (mkFactor (k_perturbation_factor k) (k_probability_negate_constant k) (ev_powf V) (ev_1_1 V)) temperature.
Proof. intros. repeat split. Qed.

(** The searches with the default options and seeds 5 and 6. *)
Example C71_seeds_case : population_seed (defaults ieee_env 5 ieee_reg LMse) 3 = 8%N
  /\ with_seed ((5 + N.of_nat 1) mod 2 ^ 64)%N (defaults ieee_env 5 ieee_reg LMse) = defaults ieee_env 6 ieee_reg LMse
  /\ exists bl st st' es, init_search (search_options ieee_env (defaults ieee_env 5 ieee_reg LMse)) ieee_data bl = Ok st
     /\ init_search (search_options ieee_env (defaults ieee_env 6 ieee_reg LMse)) ieee_data bl = Ok st'
     /\ option_map formulas_of (nth_error (ss_pops st) 4) = Some (Some es) /\ option_map formulas_of (nth_error (ss_pops st') 3) = Some (Some es) /\ List.length es = 27.
Proof.
  split; [reflexivity|]. split; [reflexivity|]. destruct C49_defaults_case as (H1 & H2 & H3 & H4).
  pose proof (defaults_live ieee_env 5 ieee_reg LMse ieee_data H1 H2 H4 H3) as L5. pose proof (defaults_live ieee_env 6 ieee_reg LMse ieee_data H1 H2 H4 H3) as L6.
  destruct (init_live _ ieee_data None _ L5) as (st & E5 & _). destruct (init_live _ ieee_data None _ L6) as (st' & E6 & _).
  destruct (C71_neighbouring_seeds _ _ ieee_env (defaults ieee_env 5 ieee_reg LMse) 1 ieee_data None st st' E5 E6) as (Hl & Hl' & H).
  destruct (nth_error (ss_pops st) 4) as [p|] eqn:Ep; [|apply nth_error_None in Ep; rewrite Hl in Ep; cbn in Ep; lia].
  destruct (nth_error (ss_pops st') 3) as [p'|] eqn:Ep'; [|apply nth_error_None in Ep'; rewrite Hl' in Ep'; cbn in Ep'; lia].
  destruct (H 3 p p' Ep Ep') as (es & K1 & K2 & K3). exists None, st, st', es. split; [exact E5|]. split; [exact E6|]. rewrite Ep, Ep'. cbn [option_map]. split; [now rewrite K1|]. split; [now rewrite K2|]. exact K3.
Qed.

Print Assumptions C71_seeds.
Print Assumptions C71_neighbouring_seeds.
Print Assumptions C71_optimizer_limits.
Print Assumptions C71_acceptance.
Print Assumptions C71_reads.
Print Assumptions C71_seeds_case.
