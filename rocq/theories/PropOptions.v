(** Property C71: what the options do. Which options have no effect once a feature is switched off, what the switches of the second phase of an iteration
    mean, and what the web front end makes of the options it is given. *)
From Coq Require Import List ZArith NArith.
From Verif Require Import Base BaseLemmas Node Compile Eval Deriv Utils Simplify Rng Registry Mutation Complexity Member Selection Conditioning Dataset Loss
  Optim ConstOpt Factor Evolution Frames Search PropSearch Session PropConditioning Options.
Import ListNotations.
Local Open Scope nat_scope.

(** ** Specification *)

(** Two sets of options that agree, except in options of features that are switched off:
    - without annealing, alpha;
    - without frequencies in the tournament, the scaling of the adaptive parsimony;
    - without constant optimisation, how often it is done, restarted, iterated, and how many evaluations it may use;
    - without migration, the fraction replaced; without migration from the hall of fame, that fraction;
    - without batching, the batch size;
    - without simplification, the weight of the simplifying mutation;
    and in options that no code reads: the fraction replaced by guesses, the weights of forming and breaking connections, the progress flag and the output style
    (which concern the display only). *)
Record same_but_unused {T W} (o o' : options T W) : Prop := {
  su_operators : o_operators o = o_operators o';
  su_loss : o_loss o = o_loss o';
  su_variable_complexities : o_variable_complexities o = o_variable_complexities o';
  su_overrides : o_operator_complexity_overrides o = o_operator_complexity_overrides o';
  su_op_constraints : o_op_constraints o = o_op_constraints o';
  su_nested_constraints : o_nested_constraints o = o_nested_constraints o';
  su_seed : k_seed (o_knobs o) = k_seed (o_knobs o');
  su_niterations : k_niterations (o_knobs o) = k_niterations (o_knobs o');
  su_populations : k_populations (o_knobs o) = k_populations (o_knobs o');
  su_population_size : k_population_size (o_knobs o) = k_population_size (o_knobs o');
  su_ncycles : k_ncycles_per_iteration (o_knobs o) = k_ncycles_per_iteration (o_knobs o');
  su_complexity_of_constants : k_complexity_of_constants (o_knobs o) = k_complexity_of_constants (o_knobs o');
  su_complexity_of_variables : k_complexity_of_variables (o_knobs o) = k_complexity_of_variables (o_knobs o');
  su_maxsize : k_maxsize (o_knobs o) = k_maxsize (o_knobs o');
  su_maxdepth : k_maxdepth (o_knobs o) = k_maxdepth (o_knobs o');
  su_warmup : k_warmup_maxsize_by (o_knobs o) = k_warmup_maxsize_by (o_knobs o');
  su_parsimony : k_parsimony (o_knobs o) = k_parsimony (o_knobs o');
  su_crossover : k_crossover_probability (o_knobs o) = k_crossover_probability (o_knobs o');
  su_perturbation : k_perturbation_factor (o_knobs o) = k_perturbation_factor (o_knobs o');
  su_negate : k_probability_negate_constant (o_knobs o) = k_probability_negate_constant (o_knobs o');
  su_tournament_n : k_tournament_selection_n (o_knobs o) = k_tournament_selection_n (o_knobs o');
  su_tournament_p : k_tournament_selection_p (o_knobs o) = k_tournament_selection_p (o_knobs o');
  su_topn : k_topn (o_knobs o) = k_topn (o_knobs o');
  su_skip : k_skip_mutation_failures (o_knobs o) = k_skip_mutation_failures (o_knobs o');
  su_use_frequency : k_use_frequency (o_knobs o) = k_use_frequency (o_knobs o');
  su_use_baseline : k_use_baseline (o_knobs o) = k_use_baseline (o_knobs o');
  su_weights : forall c, c <> Conditioning.Simplify ->
    weight_of c (mw_used (k_mutation_weights (o_knobs o))) = weight_of c (mw_used (k_mutation_weights (o_knobs o')));
  (* the switches, and what depends on them *)
  su_annealing : k_annealing (o_knobs o) = k_annealing (o_knobs o');
  su_alpha : k_annealing (o_knobs o) = true -> k_alpha (o_knobs o) = k_alpha (o_knobs o');
  su_frequency : k_use_frequency_in_tournament (o_knobs o) = k_use_frequency_in_tournament (o_knobs o');
  su_scaling : k_use_frequency_in_tournament (o_knobs o) = true -> k_adaptive_parsimony_scaling (o_knobs o) = k_adaptive_parsimony_scaling (o_knobs o');
  su_optimize : k_should_optimize_constants (o_knobs o) = k_should_optimize_constants (o_knobs o');
  su_optimizer : k_should_optimize_constants (o_knobs o) = true ->
    k_optimizer_probability (o_knobs o) = k_optimizer_probability (o_knobs o') /\ k_optimizer_nrestarts (o_knobs o) = k_optimizer_nrestarts (o_knobs o')
    /\ k_optimizer_iterations (o_knobs o) = k_optimizer_iterations (o_knobs o') /\ k_optimizer_f_calls_limit (o_knobs o) = k_optimizer_f_calls_limit (o_knobs o');
  su_migration : k_migration (o_knobs o) = k_migration (o_knobs o');
  su_fraction : k_migration (o_knobs o) = true -> k_fraction_replaced (o_knobs o) = k_fraction_replaced (o_knobs o');
  su_hof_migration : k_hof_migration (o_knobs o) = k_hof_migration (o_knobs o');
  su_fraction_hof : k_hof_migration (o_knobs o) = true -> k_fraction_replaced_hof (o_knobs o) = k_fraction_replaced_hof (o_knobs o');
  su_batching : k_batching (o_knobs o) = k_batching (o_knobs o');
  su_batch_size : k_batching (o_knobs o) = true -> k_batch_size (o_knobs o) = k_batch_size (o_knobs o');
  su_simplify : k_should_simplify (o_knobs o) = k_should_simplify (o_knobs o');
  su_simplify_weight : k_should_simplify (o_knobs o) = true ->
    weight_of Conditioning.Simplify (mw_used (k_mutation_weights (o_knobs o))) = weight_of Conditioning.Simplify (mw_used (k_mutation_weights (o_knobs o'))) }.

(** ** Configurations of the evolution that behave alike *)
Record evo_alike {T} (E E' : evo_cfg T) : Prop := {
  al_C : eo_C E = eo_C E';
  al_to : oc_to (eo_opt E) = oc_to (eo_opt E');
  al_en : oc_enabled (eo_opt E) = oc_enabled (eo_opt E');
  al_opt : oc_enabled (eo_opt E) = true -> eo_opt E = eo_opt E' /\ eo_opt_prob E = eo_opt_prob E';
  al_reg : eo_reg E = eo_reg E';
  al_simplify : eo_simplify E = eo_simplify E';
  al_weights : forall c, (c = Conditioning.Simplify -> eo_simplify E = true) -> weight_of c (eo_weights E) = weight_of c (eo_weights E');
  al_factor : eo_factor E = eo_factor E';
  al_ccfg : eo_ccfg E = eo_ccfg E';
  al_annealing : eo_annealing E = eo_annealing E';
  al_alpha : eo_annealing E = true -> eo_alpha E = eo_alpha E';
  al_freq : eo_use_frequency E = eo_use_frequency E';
  al_exp : eo_exp E = eo_exp E';
  al_eps : eo_eps E = eo_eps E';
  al_of_nat : eo_of_nat E = eo_of_nat E';
  al_cross : eo_crossover_prob E = eo_crossover_prob E';
  al_skip : eo_skip_failures E = eo_skip_failures E';
  al_sel_n : tournament_selection_n (eo_sel E) = tournament_selection_n (eo_sel E');
  al_sel_p : tournament_selection_p (eo_sel E) = tournament_selection_p (eo_sel E');
  al_sel_f : use_frequency_in_tournament (eo_sel E) = use_frequency_in_tournament (eo_sel E');
  al_sel_s : use_frequency_in_tournament (eo_sel E) = true -> adaptive_parsimony_scaling (eo_sel E) = adaptive_parsimony_scaling (eo_sel E');
  al_sel_m : sel_maxsize (eo_sel E) = sel_maxsize (eo_sel E');
  al_fuel : eo_fuel E = eo_fuel E';
  al_stale : eo_stale E = eo_stale E';
  al_ncycles : eo_ncycles E = eo_ncycles E' }.

Lemma bind_ext {A B} (r r' : res A) (k k' : A -> res B) : r = r' -> (forall a, k a = k' a) -> bind r k = bind r' k'.
Proof. intros <- H. destruct r; cbn; auto. Qed.
Ltac bx := apply bind_ext; [reflexivity|].
Lemma mapM_ext' {A B} (f g : A -> res B) l : (forall x, f x = g x) -> mapM f l = mapM g l.
Proof. intros H. induction l as [|x l IH]; cbn; auto. now rewrite H, IH. Qed.

Section Alike.
Context {T : Type} (E E' : evo_cfg T) (A : evo_alike E E').

Lemma optimize_alike r m d bl ev gc nb : optimize_constants (eo_C E) (eo_opt E) r m d bl ev gc nb = optimize_constants (eo_C E') (eo_opt E') r m d bl ev gc nb.
Proof.
  rewrite <- (al_C _ _ A). destruct (oc_enabled (eo_opt E)) eqn:En.
  - destruct (al_opt _ _ A En) as [<- _]. reflexivity.
  - unfold optimize_constants. rewrite <- (al_en _ _ A), En. reflexivity.
Qed.
Lemma apply_alike c g ev m e d bl t cur : apply E c g ev m e d bl t cur = apply E' c g ev m e d bl t cur.
Proof.
  destruct c; cbn [apply]; rewrite <- ?(al_C _ _ A), <- ?(al_factor _ _ A), <- ?(al_reg _ _ A), <- ?(al_ccfg _ _ A), <- ?(al_sel_m _ _ A); try reflexivity.
  bx. intros tmp. cbv zeta. pose proof optimize_alike as H. rewrite <- (al_C _ _ A) in H. rewrite H. reflexivity.
Qed.
Lemma check_alike e cur : check E e cur = check E' e cur.
Proof. unfold check. now rewrite (al_C _ _ A), (al_stale _ _ A). Qed.
Lemma attempts_alike n : forall c g ev m d bl t cur k, attempts E n c g ev m d bl t cur k = attempts E' n c g ev m d bl t cur k.
Proof.
  induction n as [|n IH]; intros; cbn [attempts]; auto. rewrite apply_alike. bx. intros [[[[[e mu] j] imm] g'] ev']. destruct (negb mu); auto.
  bx. intros [tree x]. rewrite check_alike. bx. intros [|]; auto.
Qed.
Lemma conditioned_alike (e : expr T) cx cur nf F :
  condition_mutation_weights F (eo_of_nat E) (eo_weights E) e cx (mkCond (eo_simplify E) (oc_enabled (eo_opt E)) (eo_opt_prob E)) cur nf
  = condition_mutation_weights F (eo_of_nat E') (eo_weights E') e cx (mkCond (eo_simplify E') (oc_enabled (eo_opt E')) (eo_opt_prob E')) cur nf.
Proof.
  rewrite <- (al_of_nat _ _ A), <- (al_simplify _ _ A), <- (al_en _ _ A). pose proof (al_weights _ _ A) as H.
  assert (Hs : (if eo_simplify E then w_simplify (eo_weights E) else fzero F) = (if eo_simplify E then w_simplify (eo_weights E') else fzero F)).
  { destruct (eo_simplify E) eqn:Es; auto. apply (H Conditioning.Simplify). auto. }
  assert (Ho : (if negb (oc_enabled (eo_opt E)) || feqb F (eo_opt_prob E) (fzero F) || match consts e with [] => true | _ :: _ => false end then fzero F else w_optimize (eo_weights E))
    = (if negb (oc_enabled (eo_opt E)) || feqb F (eo_opt_prob E') (fzero F) || match consts e with [] => true | _ :: _ => false end then fzero F else w_optimize (eo_weights E'))).
  { destruct (oc_enabled (eo_opt E)) eqn:En; cbn [negb orb]; auto. destruct (al_opt _ _ A En) as [_ <-].
    destruct (_ || _); auto. apply (H Optimize). discriminate. }
  unfold condition_mutation_weights. cbv zeta. cbn [should_simplify should_optimize_constants optimizer_probability].
  pose proof (H MutateConstant ltac:(discriminate)) as H1. pose proof (H MutateOperator ltac:(discriminate)) as H2. pose proof (H MutateFeature ltac:(discriminate)) as H3.
  pose proof (H SwapOperands ltac:(discriminate)) as H4. pose proof (H RotateTree ltac:(discriminate)) as H5. pose proof (H AddNode ltac:(discriminate)) as H6.
  pose proof (H InsertNode ltac:(discriminate)) as H7. pose proof (H DeleteNode ltac:(discriminate)) as H8. pose proof (H Randomize ltac:(discriminate)) as H9.
  pose proof (H DoNothing ltac:(discriminate)) as H10. pose proof (H Optimize ltac:(discriminate)) as H11. cbn [weight_of] in *.
  rewrite Hs, Ho, H1, H2, H3, H4, H5, H6, H7, H8, H9, H10, H11. reflexivity.
Qed.
Lemma acceptance_alike st t oc nc os ns : acceptance E st t oc nc os ns = acceptance E' st t oc nc os ns.
Proof.
  unfold acceptance, size_freq. rewrite (al_C _ _ A), <- (al_annealing _ _ A), <- (al_freq _ _ A), (al_exp _ _ A), (al_eps _ _ A), (al_sel_m _ _ A).
  destruct (eo_annealing E) eqn:Ea; [rewrite (al_alpha _ _ A Ea)|]; reflexivity.
Qed.
Lemma next_generation_alike s m d bl t cur st : next_generation E s m d bl t cur st = next_generation E' s m d bl t cur st.
Proof.
  unfold next_generation. cbv zeta. rewrite conditioned_alike. unfold to_w, copy_parent, cost_of. rewrite (al_to _ _ A), (al_C _ _ A).
  bx. intros [c g]. rewrite attempts_alike. bx. intros [[[found evals] g1] ev1].
  destruct found as [[tree [|]]|]; auto. bx. intros baby. bx. intros [[baby' ev'] ok]. destruct (_ || _); auto.
  rewrite acceptance_alike. reflexivity.
Qed.
Lemma crossover_alike n : forall s m1 m2 d bl cur, crossover_loop E n s m1 m2 d bl cur = crossover_loop E' n s m1 m2 d bl cur.
Proof.
  induction n as [|n IH]; intros; cbn [crossover_loop]; auto. bx. intros [[c1 c2] g]. rewrite !check_alike, (al_C _ _ A). bx. intros ok1.
  bx. intros [|]; auto.
Qed.
Lemma tournament_alike g pop st : tournament E g pop st = tournament E' g pop st.
Proof.
  unfold tournament, best_of_sample. rewrite (al_to _ _ A), (al_C _ _ A), (al_exp _ _ A), (al_fuel _ _ A), (al_sel_n _ _ A), (al_sel_p _ _ A).
  bx. intros [idx r]. apply bind_ext; [|reflexivity]. apply mapM_ext'. intros i. bx. intros m. apply bind_ext; [|reflexivity].
  unfold adjusted_cost. rewrite <- (al_sel_f _ _ A), (al_sel_m _ _ A). destruct (use_frequency_in_tournament (eo_sel E)) eqn:Ef; auto. now rewrite (al_sel_s _ _ A Ef).
Qed.
Lemma evol_step_alike pop s d bl t cur st : evol_step E pop s d bl t cur st = evol_step E' pop s d bl t cur st.
Proof.
  unfold evol_step, crossover_generation. rewrite (al_C _ _ A), (al_cross _ _ A), (al_skip _ _ A). destruct (rng_real _) as [u g]. destruct (fgtb _ _ _).
  - rewrite tournament_alike. bx. intros [m g']. rewrite next_generation_alike. reflexivity.
  - rewrite tournament_alike. bx. intros [m g']. rewrite tournament_alike. bx. intros [m2 g2]. rewrite crossover_alike. reflexivity.
Qed.
Lemma evol_steps_alike n : forall pop s d bl t cur st k, evol_steps E n pop s d bl t cur st k = evol_steps E' n pop s d bl t cur st k.
Proof. induction n as [|n IH]; intros; cbn [evol_steps]; auto. rewrite evol_step_alike. bx. intros [[p s'] j]. auto. Qed.
Lemma update_hof_alike h pop cur : update_hof E h pop cur = update_hof E' h pop cur.
Proof. unfold update_hof. now rewrite (al_C _ _ A), (al_stale _ _ A). Qed.
Lemma temperature_alike i n : temperature_at E i n = temperature_at E' i n.
Proof. unfold temperature_at. now rewrite (al_C _ _ A), (al_annealing _ _ A), (al_of_nat _ _ A). Qed.
Lemma sr_cycles_alike is_ : forall n pop s best d bl cur st k, sr_cycles E is_ n pop s best d bl cur st k = sr_cycles E' is_ n pop s best d bl cur st k.
Proof.
  induction is_ as [|i is_ IH]; intros; cbn [sr_cycles]; auto. unfold reg_evol_cycle, n_evol_cycles.
  rewrite evol_steps_alike, temperature_alike, (al_C _ _ A), (al_sel_n _ _ A). bx.
  intros [[p s'] j]. rewrite update_hof_alike. bx. auto.
Qed.
Lemma s_r_cycle_alike pop s d bl cur st : s_r_cycle E pop s d bl cur st = s_r_cycle E' pop s d bl cur st.
Proof. unfold s_r_cycle. cbv zeta. rewrite update_hof_alike, (al_sel_m _ _ A), (al_ncycles _ _ A). bx. intros. apply sr_cycles_alike. Qed.
Lemma optimize_members_alike ms : oc_enabled (eo_opt E) = true -> forall s gc d bl k, optimize_members E ms s gc d bl k = optimize_members E' ms s gc d bl k.
Proof.
  intros En. destruct (al_opt _ _ A En) as [Eo Ep]. induction ms as [|m ms IH]; intros; cbn [optimize_members]; auto. rewrite (al_C _ _ A), Ep. destruct (rng_real _) as [u g].
  destruct (fltb _ _ _).
  - rewrite Eo. bx. intros [[[[[[g1 m1] ev1] gc1] nb1] i1] k1]. rewrite IH. reflexivity.
  - rewrite IH. reflexivity.
Qed.
Lemma evaluate_members_alike ms : forall ev d bl, evaluate_members E ms ev d bl = evaluate_members E' ms ev d bl.
Proof. induction ms as [|m ms IH]; intros; cbn [evaluate_members]; auto. rewrite (al_C _ _ A). bx. intros [[m' ev'] x]. now rewrite IH. Qed.
Lemma second_phase_alike pop s gc full d bl : optimize_and_simplify_population E pop s gc full d bl = optimize_and_simplify_population E' pop s gc full d bl.
Proof.
  unfold optimize_and_simplify_population. rewrite <- (al_simplify _ _ A).
  assert (Hs : mapM (simplify_member E (ds_n_features full)) pop = mapM (simplify_member E' (ds_n_features full)) pop)
    by (apply mapM_ext'; intros m; unfold simplify_member; now rewrite (al_C _ _ A), (al_ccfg _ _ A)).
  rewrite Hs. bx. intros pop1. rewrite (al_C _ _ A). rewrite <- (al_en _ _ A). destruct (oc_enabled (eo_opt E)) eqn:En; cbn [andb].
  - destruct (al_opt _ _ A En) as [_ <-]. rewrite optimize_members_alike by auto. bx. intros [[[p s1] gc1] k]. rewrite evaluate_members_alike. reflexivity.
  - cbn [bind]. rewrite evaluate_members_alike. reflexivity.
Qed.
End Alike.

(** *** Configurations of the search that behave alike *)
Record search_alike {T W} (S S' : search_cfg T W) : Prop := {
  sa_E : evo_alike (sc_E S) (sc_E S');
  sa_niterations : sc_niterations S = sc_niterations S';
  sa_populations : sc_populations S = sc_populations S';
  sa_size : sc_population_size S = sc_population_size S';
  sa_batching : sc_batching S = sc_batching S';
  sa_batch : sc_batching S = true -> sc_batch_size S = sc_batch_size S';
  sa_topn : sc_topn S = sc_topn S';
  sa_migration : sc_migration S = sc_migration S';
  sa_frac : sc_migration S = true -> sc_frac S = sc_frac S';
  sa_hof : sc_hof_migration S = sc_hof_migration S';
  sa_frac_hof : sc_hof_migration S = true -> sc_frac_hof S = sc_frac_hof S';
  sa_poisson : sc_poisson S = sc_poisson S';
  sa_seed : forall i, sc_seed S i = sc_seed S' i;
  sa_order : sc_order S = sc_order S';
  sa_stride : sc_stride S = sc_stride S';
  sa_F32 : sc_F32 S = sc_F32 S';
  sa_of32 : sc_of32 S = sc_of32 S';
  sa_floor : sc_floor32 S = sc_floor32 S';
  sa_warmup : sc_warmup_by S = sc_warmup_by S' }.

Section SearchAlike.
Context {T W : Type} (S S' : search_cfg T W) (A : search_alike S S').
Let AE := sa_E _ _ A.

Lemma phase_alike full ps : phase S full ps = phase S' full ps.
Proof.
  unfold phase. rewrite <- (sa_batching _ _ A). destruct (sc_batching S) eqn:Eb; auto. rewrite <- (sa_batch _ _ A Eb), (al_C _ _ AE), (al_of_nat _ _ AE). reflexivity.
Qed.
Lemma execute_alike full bl t : execute_task S full bl t = execute_task S' full bl t.
Proof.
  unfold execute_task. rewrite phase_alike. bx. intros [d1 ps]. rewrite (s_r_cycle_alike _ _ AE). bx. intros [[[pop s] best] k].
  rewrite phase_alike. bx. intros [d2 ps2]. rewrite (second_phase_alike _ _ AE). bx. intros [[[pop2 s2] gc] k2].
  now rewrite (al_C _ _ AE), (sa_topn _ _ A).
Qed.
Lemma offer_best_alike ms : forall h b cur, offer_best S ms h b cur = offer_best S' ms h b cur.
Proof.
  induction ms as [|m ms IH]; intros; cbn [offer_best]; auto. rewrite (al_C _ _ AE), (al_stale _ _ AE), (check_alike _ _ AE). bx. intros h'. bx. intros ok. apply IH.
Qed.
Lemma migrate_alike ps ms f : migrate S ps ms f = migrate S' ps ms f.
Proof. unfold migrate. now rewrite (al_C _ _ AE), (al_of_nat _ _ AE), (sa_poisson _ _ A). Qed.
Lemma apply_result_alike st r : apply_task_result S st r = apply_task_result S' st r.
Proof.
  unfold apply_task_result. cbv zeta. bx. intros subs. bx. intros x. unfold offer. rewrite (update_hof_alike _ _ AE). bx.
  intros h. rewrite offer_best_alike. bx. intros [h2 b]. rewrite <- (sa_migration _ _ A), <- (sa_hof _ _ A), (al_C _ _ AE), (al_of_nat _ _ AE), (al_eps _ _ AE).
  apply bind_ext.
  - destruct (sc_migration S) eqn:Em; auto. now rewrite migrate_alike, (sa_frac _ _ A Em).
  - intros ps. apply bind_ext; [|reflexivity]. destruct (sc_hof_migration S) eqn:Em; auto. now rewrite migrate_alike, (sa_frac_hof _ _ A Em).
Qed.
Lemma init_members_alike n : forall d bl s h, init_members S n d bl s h = init_members S' n d bl s h.
Proof.
  induction n as [|n IH]; intros; cbn [init_members]; auto. rewrite (al_C _ _ AE), (al_reg _ _ AE), (al_stale _ _ AE), (al_sel_m _ _ AE).
  bx. intros [e g]. bx. intros m. bx. intros [[m' ev] x]. bx. intros h'. now rewrite IH.
Qed.
Lemma init_pops_alike n : forall i d bl h, init_pops S n i d bl h = init_pops S' n i d bl h.
Proof.
  induction n as [|n IH]; intros; cbn [init_pops]; auto. cbv zeta. rewrite init_members_alike, (sa_size _ _ A), (sa_seed _ _ A), (sa_stride _ _ A), (al_C _ _ AE).
  bx. intros [[ms s] h']. now rewrite IH.
Qed.
Lemma init_best_alike ms : forall b, init_best S ms b = init_best S' ms b.
Proof. induction ms as [|m ms IH]; intros; cbn [init_best]; auto. rewrite (check_alike _ _ AE), (al_sel_m _ _ AE), (al_C _ _ AE). bx. intros ok. apply IH. Qed.
Lemma init_alike d bl : init_search S d bl = init_search S' d bl.
Proof.
  unfold init_search. rewrite init_pops_alike, (sa_populations _ _ A), (al_sel_m _ _ AE). bx. intros [ps h]. rewrite init_best_alike. bx. intros b.
  bx. intros best. now rewrite (al_C _ _ AE), (sa_topn _ _ A), (sa_size _ _ A), (al_of_nat _ _ AE), (sa_order _ _ A).
Qed.
Lemma total_alike : total_cycles S = total_cycles S'.
Proof. unfold total_cycles. now rewrite (sa_niterations _ _ A), (sa_populations _ _ A). Qed.
Lemma dispatch_alike st i : dispatch S st i = dispatch S' st i.
Proof. unfold dispatch. now rewrite total_alike, (sa_F32 _ _ A), (sa_of32 _ _ A), (sa_floor _ _ A), (sa_warmup _ _ A), (al_sel_m _ _ AE), (al_C _ _ AE). Qed.
Lemma new_alike d : engine_new S d = engine_new S' d.
Proof. unfold engine_new, baseline_for. rewrite (al_C _ _ AE). bx. intros bl. now rewrite init_alike. Qed.
Lemma step_one_alike en : step_one_cycle S en = step_one_cycle S' en.
Proof.
  unfold step_one_cycle, prepare_iteration, is_finished. rewrite total_alike, (sa_niterations _ _ A). destruct (_ =? 0); auto. bx. intros en1. destruct (_ =? 0); auto.
  bx. intros i. rewrite dispatch_alike. bx. intros [[st t]|]; auto. rewrite execute_alike. bx. intros r.
  now rewrite apply_result_alike.
Qed.
Lemma step_loop_alike n : forall en k, step_loop S n en k = step_loop S' n en k.
Proof. induction n as [|n IH]; intros; cbn [step_loop]; auto. rewrite step_one_alike. bx. intros [en' [|]]; auto. Qed.
Lemma cstep_alike full bl nw c e c' : cstep S full bl nw c e c' -> cstep S' full bl nw c e c'.
Proof.
  intros H. destruct H as [st n order g H|st n i tasks fl H1 H2|st n i tasks fl st' t H1 H2|st n tasks fl1 t fl2 r st' H1 H2 H3].
  - now apply CNew.
  - apply CSkip; auto. now rewrite <- dispatch_alike.
  - eapply CDispatch; eauto. now rewrite <- dispatch_alike.
  - apply (CDeliver S' full bl nw st n tasks fl1 t fl2 r st' H1); [now rewrite <- execute_alike|now rewrite <- apply_result_alike].
Qed.
Lemma csteps_alike full bl nw c es c' : csteps S full bl nw c es c' -> csteps S' full bl nw c es c'.
Proof. induction 1; econstructor; eauto using cstep_alike. Qed.
End SearchAlike.

Lemma alike {T W} (V : environment T W) o o' : same_but_unused o o' -> search_alike (search_options V o) (search_options V o').
Proof.
  intros U. destruct U. split; cbn [search_options sc_E sc_niterations sc_populations sc_population_size sc_batching sc_batch_size sc_topn sc_migration sc_frac sc_hof_migration
    sc_frac_hof sc_poisson sc_seed sc_order sc_stride sc_F32 sc_of32 sc_floor32 sc_warmup_by]; auto.
  - split; cbn [evolution_options eo_C eo_opt eo_reg eo_weights eo_simplify eo_opt_prob eo_factor eo_ccfg eo_annealing eo_alpha eo_use_frequency eo_exp eo_eps eo_of_nat
      eo_crossover_prob eo_skip_failures eo_sel eo_fuel eo_stale eo_ncycles optimizer_options oc_to oc_enabled selection_options tournament_selection_n tournament_selection_p
      use_frequency_in_tournament adaptive_parsimony_scaling sel_maxsize]; auto; try congruence.
    + unfold eval_options, size_options. congruence.
    + intros H. destruct (su_optimizer0 H) as (H1 & H2 & H3 & H4). unfold optimizer_options. split; congruence.
    + intros c Hc. destruct c; try (apply su_weights0; discriminate). apply su_simplify_weight0. auto.
  - intros i. unfold population_seed. now rewrite su_seed0.
  - unfold order_seed. now rewrite su_seed0.
Qed.

(** ** C71: an option of a feature that is switched off, or that no code reads, has no effect *)
Theorem C71_unused : forall (T W : Type) (V : environment T W) (o o' : options T W), same_but_unused o o' ->
  let S := search_options V o in let S' := search_options V o' in
  (forall d, engine_new S d = engine_new S' d)
  /\ (forall en n, step S en n = step S' en n)
  /\ (forall d bl, init_search S d bl = init_search S' d bl)
  /\ (forall threads, n_workers S threads = n_workers S' threads)
  /\ (forall st, parallel_start S st = parallel_start S' st)
  /\ (forall full bl nw c es c', csteps S full bl nw c es c' <-> csteps S' full bl nw c es c').
Proof.
  intros T W V o o' U. cbv zeta. pose proof (alike V o o' U) as A.
  assert (A' : search_alike (search_options V o') (search_options V o)).
  { apply alike. destruct U. split; try congruence; try (intros; symmetry; auto; fail).
    - intros H. rewrite <- su_annealing0 in H. symmetry; auto.
    - intros H. rewrite <- su_frequency0 in H. symmetry; auto.
    - intros H. rewrite <- su_optimize0 in H. destruct (su_optimizer0 H) as (H1 & H2 & H3 & H4). auto.
    - intros H. rewrite <- su_migration0 in H. symmetry; auto.
    - intros H. rewrite <- su_hof_migration0 in H. symmetry; auto.
    - intros H. rewrite <- su_batching0 in H. symmetry; auto.
    - intros H. rewrite <- su_simplify0 in H. symmetry; auto. }
  split; [intros; now apply new_alike|]. split; [intros; now apply step_loop_alike|]. split; [intros; now apply init_alike|].
  split; [intros; unfold n_workers; now rewrite (sa_populations _ _ A)|]. split; [intros; unfold parallel_start; now rewrite (sa_niterations _ _ A)|].
  intros. split; now apply csteps_alike.
Qed.

(** ** C71: the switches of the second phase of an iteration *)

Lemma evaluate_members_keep {T} (E : evo_cfg T) ms : forall ev d bl ms' ev', evaluate_members E ms ev d bl = Ok (ms', ev') ->
  Forall2 (fun m m' => exists c l k, m' = set_eval m c l k) ms ms'.
Proof.
  induction ms as [|m ms IH]; intros ev d bl ms' ev' H; cbn [evaluate_members] in H; [injection H as <- <-; constructor|].
  apply bind_ok in H as ([[m1 ev1] x] & He & H). apply bind_ok in H as ([ms1 ev2] & Hr & H). injection H as <- <-. constructor; [|eapply IH; eauto].
  apply evaluate_frame in He as (c & l & k & -> & _). eauto.
Qed.
Lemma optimize_members_keep {T} (E : evo_cfg T) ms : forall s gc d bl k ms' s' gc' k', optimize_members E ms s gc d bl k = Ok (ms', s', gc', k') ->
  Forall2 (fun m m' => m_id m' = m_id m /\ m_parent m' = m_parent m /\ nodes (m_expr m') = nodes (m_expr m) /\ var_names (m_expr m') = var_names (m_expr m)
    /\ List.length (consts (m_expr m')) = List.length (consts (m_expr m))) ms ms' /\ es_id s' = es_id s.
Proof.
  induction ms as [|m ms IH]; intros s gc d bl k ms' s' gc' k' H; cbn [optimize_members] in H; [injection H as <- <- _ _; split; auto|].
  destruct (rng_real _) as [u g]. destruct (fltb _ _ _).
  - apply bind_ok in H as ([[[[[[g1 m1] ev1] gc1] nb1] i1] k1] & Ho & H). apply bind_ok in H as ([[[ms1 s1] gc2] k2] & Hr & H). injection H as <- <- _ _.
    apply IH in Hr as [Hr Hi]. apply optimize_frame in Ho as (O1 & O2 & _ & O4 & O5 & O6 & _). split; auto. constructor; auto.
  - apply bind_ok in H as ([[[ms1 s1] gc2] k2] & Hr & H). injection H as <- <- _ _. apply IH in Hr as [Hr Hi]. split; auto. constructor; auto.
Qed.
Lemma Forall2_refl' {A} (R : A -> A -> Prop) l : (forall x, R x x) -> Forall2 R l l.
Proof. intros H. induction l; constructor; auto. Qed.
Lemma Forall2_trans' {A B C} (R : A -> B -> Prop) (S : B -> C -> Prop) (Q : A -> C -> Prop) : (forall a b c, R a b -> S b c -> Q a c) ->
  forall l1 l2 l3, Forall2 R l1 l2 -> Forall2 S l2 l3 -> Forall2 Q l1 l3.
Proof. intros H l1 l2 l3 H1. revert l3. induction H1; intros l3 H2; inversion H2; subst; constructor; eauto. Qed.
Lemma Forall2_imp {A B} (R S : A -> B -> Prop) : (forall a b, R a b -> S a b) -> forall l l', Forall2 R l l' -> Forall2 S l l'.
Proof. intros H l l' HF. induction HF; constructor; auto. Qed.
Lemma mapM_forall2 {A B} (f : A -> res B) l : forall l', mapM f l = Ok l' -> Forall2 (fun x y => f x = Ok y) l l'.
Proof.
  induction l as [|x l IH]; intros l' H; cbn in H; [injection H as <-; constructor|]. apply bind_ok in H as (y & Hy & H). apply bind_ok in H as (ys & Hys & H).
  injection H as <-. constructor; auto.
Qed.

(** What the second phase may do to a member, given the two switches. *)
Definition second_phase_member {T} (simplify optimize : bool) (simplified : expr T -> expr T -> Prop) (m m' : member T) : Prop :=
  m_id m' = m_id m /\ m_parent m' = m_parent m
  /\ (optimize = false -> m_birth m' = m_birth m)
  /\ match simplify, optimize with
     | false, false => m_expr m' = m_expr m
     | true, false => simplified (m_expr m) (m_expr m')
     | false, true => nodes (m_expr m') = nodes (m_expr m) /\ var_names (m_expr m') = var_names (m_expr m)
                      /\ List.length (consts (m_expr m')) = List.length (consts (m_expr m))
     | true, true => exists e, simplified (m_expr m) e /\ nodes (m_expr m') = nodes e /\ var_names (m_expr m') = var_names e
                      /\ List.length (consts (m_expr m')) = List.length (consts e)
     end.

(** Each member stays where it is and keeps its identity. Without simplification no expression changes its form; without constant optimisation no constant is
    moved, no birth stamp changed, no random number drawn; without both the expressions are exactly as before, and every member has only been evaluated again. *)
Theorem C71_second_phase : forall (T W : Type) (V : environment T W) (o : options T W) pop (s : evo_st T) gc full d bl pop' s' gc' evals,
  optimize_and_simplify_population (evolution_options V o) pop s gc full d bl = Ok (pop', s', gc', evals) ->
  let simplify := k_should_simplify (o_knobs o) in let optimize := k_should_optimize_constants (o_knobs o) in
  Forall2 (second_phase_member simplify optimize (fun e e' => exists changed, simplify_in_place (ev_F V) (ev_O V) (ev_D V) (ev_ccfg V) ev_opts e = Ok (e', changed))) pop pop'
  /\ es_id s' = es_id s
  /\ (optimize = false -> es_rng s' = es_rng s /\ es_birth s' = es_birth s /\ evals = List.length pop).
Proof.
  intros T W V o pop s gc full d bl pop' s' gc' evals H. cbv zeta. unfold optimize_and_simplify_population in H.
  cbn [evolution_options eo_simplify eo_opt optimizer_options oc_enabled eo_opt_prob eo_C eval_options ec_F] in H.
  apply bind_ok in H as (pop1 & H1 & H). apply bind_ok in H as ([[[pop2 s2] gc2] k2] & H2 & H). apply bind_ok in H as ([pop3 ev3] & H3 & H). injection H as <- <- <- <-.
  cbn [es_id es_rng es_birth]. pose proof (evaluate_members_keep _ _ _ _ _ _ _ H3) as K3.
  set (simplified := fun e e' => exists changed, simplify_in_place (ev_F V) (ev_O V) (ev_D V) (ev_ccfg V) ev_opts e = Ok (e', changed)).
  assert (K1 : Forall2 (fun m m1 => m_id m1 = m_id m /\ m_parent m1 = m_parent m /\ m_birth m1 = m_birth m
    /\ if k_should_simplify (o_knobs o) then simplified (m_expr m) (m_expr m1) else m_expr m1 = m_expr m) pop pop1).
  { destruct (k_should_simplify (o_knobs o)).
    - apply mapM_forall2 in H1. eapply Forall2_imp; [|exact H1]. cbv beta. intros m m1 Hm. unfold simplify_member in Hm. apply bind_ok in Hm as ([e c] & He & Hm). cbv zeta in Hm.
      assert (Hq : m_id m1 = m_id m /\ m_parent m1 = m_parent m /\ m_birth m1 = m_birth m /\ m_expr m1 = e).
      { destruct c; [|injection Hm as <-; auto]. unfold rebuild_plan in Hm. apply bind_ok in Hm as (p & _ & Hm). injection Hm as <-. auto. }
      destruct Hq as (Q1 & Q2 & Q3 & ->). repeat split; auto. exists c. exact He.
    - injection H1 as <-. apply Forall2_refl'. auto. }
  assert (Len : forall {A B} (R : A -> B -> Prop) l l', Forall2 R l l' -> List.length l = List.length l') by (intros A B R l l' HF; induction HF; cbn; auto).
  destruct (k_should_optimize_constants (o_knobs o)) eqn:Eo; cbn [andb] in H2.
  - destruct (fgtb _ _ _).
    + apply optimize_members_keep in H2 as [K2 Hi]. cbn [es_id] in Hi. split; [|split; [exact Hi|discriminate]].
      eapply Forall2_trans'; [|exact K1|eapply Forall2_trans'; [|exact K2|exact K3]].
      2: { intros a b c Hab Hbc. exact (ex_intro _ b (conj Hab Hbc)). }
      cbv beta. intros a b c (A1 & A2 & A3 & A4) (x & (X1 & X2 & X3 & X4 & X5) & cx & l & k & ->). unfold second_phase_member. cbn [set_eval m_id m_parent m_expr m_birth].
      split; [congruence|]. split; [congruence|]. split; [discriminate|]. destruct (k_should_simplify (o_knobs o)); [eauto 10|]. rewrite <- A4. auto.
    + injection H2 as <- <- <- <-. split; [|split; [reflexivity|discriminate]]. eapply Forall2_trans'; [|exact K1|exact K3].
      cbv beta. intros a b c (A1 & A2 & A3 & A4) (cx & l & k & ->). unfold second_phase_member. cbn [set_eval m_id m_parent m_expr m_birth].
      split; [congruence|]. split; [congruence|]. split; [discriminate|]. destruct (k_should_simplify (o_knobs o)); [eauto 10|]. rewrite <- A4. auto.
  - injection H2 as <- <- <- <-. split; [|split; [reflexivity|]].
    + eapply Forall2_trans'; [|exact K1|exact K3].
      cbv beta. intros a b c (A1 & A2 & A3 & A4) (cx & l & k & ->). unfold second_phase_member. cbn [set_eval m_id m_parent m_expr m_birth].
      split; [congruence|]. split; [congruence|]. split; [auto|]. destruct (k_should_simplify (o_knobs o)); auto.
    + intros _. split; auto. split; auto. cbn. rewrite <- (Len _ _ _ _ _ K3), <- (Len _ _ _ _ _ K1). reflexivity.
Qed.

(** Not switched off: with constant optimisation off (or at probability 0), the optimising mutation of a formula that is a single constant keeps its weight, so
    the weight still influences the search: the mutation is drawn, changes nothing, and the copy is evaluated. *)
Theorem C71_optimize_weight_refuted : forall (T : Type) (F : FloatOps T) of_nat (w : weights T) (c : T) complexity simplify prob cur nf,
  weight_of Optimize (condition_mutation_weights F of_nat w (mkExpr [Const 0] [c] []) complexity (mkCond simplify false prob) cur nf) = weight_of Optimize w
  /\ forall (E : evo_cfg T) g ev m d bl t, oc_enabled (eo_opt E) = false -> m_expr m = mkExpr [Const 0] [c] [] ->
     forall e mutated k imm g' ev', apply E Optimize g ev m (m_expr m) d bl t cur = Ok (e, mutated, k, imm, g', ev') -> e = m_expr m /\ mutated = true /\ imm = false /\ g' = g.
Proof.
  intros. split; [reflexivity|]. intros E g ev m d bl t He Hm e mu k imm g' ev' H. cbn [apply] in H. apply bind_ok in H as (tmp & _ & H). cbv zeta in H.
  unfold optimize_constants in H. rewrite He in H. cbn [negb bind] in H. injection H as <- <- _ <- <- _. cbn [m_expr]. auto.
Qed.

(** ** C71: the web front end *)

(** The fields named in the shim are copied one by one; nothing else is touched. *)
Theorem C71_apply_to : forall (T W : Type) (s : knobs T W) (o : options T W),
  o_knobs (apply_to s o) = s
  /\ o_operators (apply_to s o) = o_operators o /\ o_loss (apply_to s o) = o_loss o /\ o_output_style (apply_to s o) = o_output_style o
  /\ o_variable_complexities (apply_to s o) = o_variable_complexities o /\ o_operator_complexity_overrides (apply_to s o) = o_operator_complexity_overrides o
  /\ o_op_constraints (apply_to s o) = o_op_constraints o /\ o_nested_constraints (apply_to s o) = o_nested_constraints o.
Proof. intros T W [] []. repeat split. Qed.

(** A web search runs with exactly the core options, operators and loss it was given: like the library's search with those options, no complexity overrides and no constraints. *)
Theorem C71_web : forall (T W : Type) (V : environment T W) dec dec32 (core : knobs T W) (l : loss_opts T) (reg : registry) (o : options T W),
  options_from_wasm (ev_D V) (ev_F V) (ev_LO V) dec dec32 core l reg = Some o ->
  exists kind, loss_kind_of l = Some kind
  /\ search_options V o = search_options V (mkOptions core reg (make_loss (ev_F V) (ev_LO V) kind) Auto None [] [] [])
  /\ search_options V o = with_choices (search_options V (apply_to core (default_options (ev_D V) (ev_F V) (ev_LO V) dec dec32))) reg kind
  /\ k_progress (o_knobs o) = false.
Proof.
  intros T W V dec dec32 core l reg o H. unfold options_from_wasm in H. destruct (loss_kind_of l) as [kind|]; [|discriminate]. injection H as <-. exists kind. destruct core. repeat split.
Qed.
(** It is refused exactly if the loss has no known name. *)
Theorem C71_web_refused : forall (T W : Type) D F LO dec dec32 (core : knobs T W) (l : loss_opts T) (reg : registry),
  options_from_wasm D F LO dec dec32 core l reg = None <-> loss_kind_of l = None.
Proof. intros. unfold options_from_wasm. destruct (loss_kind_of l); split; congruence. Qed.
(** The default web options are the default options of the library. *)
Theorem C71_web_default : forall (T W : Type) D F LO dec dec32, apply_to (default_knobs dec dec32) (@default_options T W D F LO dec dec32) = default_options D F LO dec dec32.
Proof. reflexivity. Qed.
