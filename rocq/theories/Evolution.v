(** Model of one evolution step, one evolution cycle, and one iteration of a population.
    symbolic_regression/src/mutate.rs:141-475, regularized_evolution.rs, single_iteration.rs.
    Simplification: the scalar type of the search is f64, so that one type [T] and one random stream serve both the
    constants and the bookkeeping. Counts of evaluations (f64 in the code) are naturals. *)
From Verif Require Import Base Node Compile Eval Deriv Utils Simplify Rng Registry Mutation Complexity Member Selection Conditioning Dataset Loss
  Optim ConstOpt.

(** The fields of [Options] read by the evolution, and the primitives it uses.
    [eo_factor temperature] is the factor of mutate_constant (options.perturbation_factor, probability_negate_constant);
    [eo_exp] is [f64::exp], [eo_eps] is 1e-6, [eo_of_nat] is [as f64]; [eo_fuel] bounds the rejection loop of the tournament;
    [eo_stale] is the content of the reused stack of [count_depth]. maxsize is [sel_maxsize eo_sel]; should_optimize_constants is
    [oc_enabled eo_opt]. *)
Record evo_cfg (T : Type) : Type := mkEvo {
  eo_C : eval_cfg T;
  eo_opt : opt_cfg T T;
  eo_reg : registry;
  eo_weights : weights T;
  eo_simplify : bool;
  eo_opt_prob : T;
  eo_factor : T -> T -> bool -> T -> T;
  eo_ccfg : ccfg;
  eo_annealing : bool;
  eo_alpha : T;
  eo_use_frequency : bool;
  eo_exp : T -> T;
  eo_eps : T;
  eo_of_nat : nat -> T;
  eo_crossover_prob : T;
  eo_skip_failures : bool;
  eo_sel : sel_opts T;
  eo_fuel : nat;
  eo_stale : list nat;
  eo_ncycles : nat }.
Arguments mkEvo {T}. Arguments eo_C {T}. Arguments eo_opt {T}. Arguments eo_reg {T}. Arguments eo_weights {T}.
Arguments eo_simplify {T}. Arguments eo_opt_prob {T}. Arguments eo_factor {T}. Arguments eo_ccfg {T}. Arguments eo_annealing {T}.
Arguments eo_alpha {T}. Arguments eo_use_frequency {T}. Arguments eo_exp {T}. Arguments eo_eps {T}. Arguments eo_of_nat {T}.
Arguments eo_crossover_prob {T}. Arguments eo_skip_failures {T}. Arguments eo_sel {T}. Arguments eo_fuel {T}. Arguments eo_stale {T}.
Arguments eo_ncycles {T}.

(** What the evolution threads through (NextGenerationCtx, CrossoverCtx, RegEvolCtx): random generator, evaluator, next_id, next_birth. *)
Record evo_st (T : Type) : Type := mkEvoSt { es_rng : rng T; es_ev : evaluator T; es_id : nat; es_birth : nat }.
Arguments mkEvoSt {T}. Arguments es_rng {T}. Arguments es_ev {T}. Arguments es_id {T}. Arguments es_birth {T}.

Section Evolution.
Context {T : Type} (E : evo_cfg T).
Local Notation C := (eo_C E).
Local Notation F := (ec_F (eo_C E)).
Local Notation D := (ec_D (eo_C E)).

(** mutate.rs:141-146 [MutationOutcome]: the expression, mutated, evals, return_immediately. *)
Definition outcome : Type := (expr T * bool * nat * bool)%type.

Definition in_place (ev : evaluator T) (r : mutated T) : res (outcome * rng T * evaluator T) :=
  let! (b, e, g) := r in Ok ((e, b, 0, false), g, ev).

(** mutate.rs:159-291 [MutationChoice::apply]. *)
Definition apply (c : choice) (g : rng T) (ev : evaluator T) (m : member T) (e : expr T) (d : dataset T) (baseline : option T)
    (temperature : T) (curmaxsize : nat) : res (outcome * rng T * evaluator T) :=
  let nf := ds_n_features d in
  match c with
  | MutateConstant => in_place ev (mutate_constant F (eo_factor E temperature) g e)
  | MutateOperator => in_place ev (mutate_operator (eo_reg E) g e)
  | MutateFeature => in_place ev (mutate_feature nf g e)
  | SwapOperands => in_place ev (swap_operands g e)
  | RotateTree => in_place ev (rotate_tree g e)
  | AddNode => in_place ev (add_node D (eo_reg E) nf g e)
  | InsertNode => in_place ev (insert_random_op D (eo_reg E) nf g e)
  | DeleteNode => in_place ev (delete_random_op g e)
  | Simplify =>
      let! (e, _) := simplify_in_place F (ec_O C) D (eo_ccfg E) ev_opts e in
      Ok ((e, true, 0, true), g, ev)
  | Randomize =>
      let max_size := Nat.min (Nat.max curmaxsize 1) (Nat.max (sel_maxsize (eo_sel E)) 1) in
      let! (target, g) := usize_range_inclusive g 1 max_size in
      let! (e, g) := random_expr D (eo_reg E) nf target g in
      Ok ((e, true, 0, false), g, ev)
  | DoNothing => Ok ((e, true, 0, false), g, ev)
  | Optimize =>
      let! tmp := from_expr C 0 None 0 e nf in
      let tmp := mkMember 0 None 0 e (m_plan m) (m_complexity m) (m_loss m) (m_cost m) in
      let! (g, tmp, ev, _, _, _, evals) :=
        optimize_constants C (eo_opt E) g tmp d baseline ev (dctx_new F (ds_n_rows d)) 0 in
      Ok ((m_expr tmp, true, evals, false), g, ev)
  end.

Definition check (e : expr T) (curmaxsize : nat) : res bool :=
  check_constraints (ec_umax C) D (eo_stale E) (ec_size C) e curmaxsize.

(** mutate.rs:324-354: the attempts. Returns the accepted expression and its return_immediately flag, or [None]. *)
Fixpoint attempts (n : nat) (c : choice) (g : rng T) (ev : evaluator T) (m : member T) (d : dataset T) (baseline : option T)
    (temperature : T) (curmaxsize evals : nat) : res (option (expr T * bool) * nat * rng T * evaluator T) :=
  match n with
  | 0 => Ok (None, evals, g, ev)
  | S n' =>
      let! (o, g, ev) := apply c g ev m (m_expr m) d baseline temperature curmaxsize in
      let '(e, mutated, k, imm) := o in
      let evals := evals + k in
      if negb mutated then attempts n' c g ev m d baseline temperature curmaxsize evals
      else
        let! (tree, _) := compress_constants e in
        let! ok := check tree curmaxsize in
        if ok then Ok (Some (tree, imm), evals, g, ev)
        else attempts n' c g ev m d baseline temperature curmaxsize evals
  end.

Definition cost_of (loss : T) (complexity : nat) (baseline : option T) : T :=
  loss_to_cost F (ec_LO C) loss complexity (ec_parsimony C) (ec_use_baseline C) baseline.

(** mutate.rs:361-367, 397-401, 417-421: a copy of the parent under a new id. *)
Definition copy_parent (id birth : nat) (m : member T) (nf : nat) : res (member T) :=
  let! baby := from_expr C id (Some (m_id m)) birth (m_expr m) nf in
  Ok (set_eval baby (m_complexity m) (m_loss m) (m_cost m)).

(** mutate.rs:403-416: the acceptance probability. *)
Definition size_freq (st : stats T) (size : nat) : res T :=
  if (0 <? size) && (size <=? sel_maxsize (eo_sel E)) then freq F (eo_eps E) st size else Ok (eo_eps E).
Definition acceptance (st : stats T) (temperature : T) (old_cost new_cost : T) (old_size new_size : nat) : res T :=
  let prob := fone F in
  let prob := if eo_annealing E
              then fmul F prob (eo_exp E (fdiv F (fneg F (fsub F new_cost old_cost)) (fmul F temperature (eo_alpha E))))
              else prob in
  if eo_use_frequency E then
    let! old_f := size_freq st old_size in
    let! new_f := size_freq st new_size in
    Ok (fmul F prob (fdiv F old_f new_f))
  else Ok prob.

(** mutate.rs:293-427 [next_generation]: (baby, accepted, evals). *)
Definition next_generation (s : evo_st T) (m : member T) (d : dataset T) (baseline : option T) (temperature : T) (curmaxsize : nat)
    (st : stats T) : res (member T * bool * nat * evo_st T) :=
  let nf := ds_n_features d in
  let before_cost := to_w (eo_opt E) (m_cost m) (finf F) in
  let w := condition_mutation_weights F (eo_of_nat E) (eo_weights E) (m_expr m) (m_complexity m)
             (mkCond (eo_simplify E) (oc_enabled (eo_opt E)) (eo_opt_prob E)) curmaxsize nf in
  let! (c, g) := sample_mutation F (es_rng s) w in
  let! (found, evals, g, ev) := attempts 10 c g (es_ev s) m d baseline temperature curmaxsize 0 in
  let id := es_id s in
  let birth := es_birth s in
  let next g ev := mkEvoSt g ev (id + 1) (birth + 1) in
  match found with
  | None => let! baby := copy_parent id birth m nf in Ok (baby, false, 0, next g ev)
  | Some (tree, true) =>
      let! baby := from_expr C id (Some (m_id m)) birth tree nf in
      let! baby := rebuild_plan C baby nf in
      let! c := compute_complexity (ec_umax C) D (ec_size C) (nodes (m_expr baby)) in
      Ok (set_eval baby c (m_loss m) (cost_of (m_loss m) c baseline), true, 0, next g ev)
  | Some (tree, false) =>
      let! baby := from_expr C id (Some (m_id m)) birth tree nf in
      let! (baby, ev, ok) := evaluate C baby d baseline ev in
      let evals := evals + 1 in
      let after_cost := to_w (eo_opt E) (m_cost baby) (finf F) in
      if negb ok || negb (ffinite F after_cost) then
        let! reject := copy_parent id birth m nf in Ok (reject, false, 0, next g ev)
      else
        let! prob := acceptance st temperature before_cost after_cost (m_complexity m) (m_complexity baby) in
        let '(u, g) := rng_real g in
        if fltb F prob u then
          let! reject := copy_parent id birth m nf in Ok (reject, false, evals, next g ev)
        else Ok (baby, true, evals, next g ev)
  end.

(** mutate.rs:429-475 [crossover_generation]: the loop runs at most [n] more times. *)
Fixpoint crossover_loop (n : nat) (s : evo_st T) (m1 m2 : member T) (d : dataset T) (baseline : option T) (curmaxsize : nat)
    : res (member T * member T * bool * nat * evo_st T) :=
  match n with
  | 0 => Ok (m1, m2, false, 0, s)
  | S n' =>
      let! (c1, c2, g) := crossover_trees (es_rng s) (m_expr m1) (m_expr m2) in
      let! ok1 := check c1 curmaxsize in
      let! ok := (if ok1 then check c2 curmaxsize else Ok false) in
      if ok then
        let id := es_id s in
        let b := es_birth s in
        let nf := ds_n_features d in
        let! baby1 := from_expr C id (Some (m_id m1)) b c1 nf in
        let! baby2 := from_expr C (id + 1) (Some (m_id m2)) (b + 1) c2 nf in
        let! (baby1, ev, _) := evaluate C baby1 d baseline (es_ev s) in
        let! (baby2, ev, _) := evaluate C baby2 d baseline ev in
        Ok (baby1, baby2, true, 2, mkEvoSt g ev (id + 2) (b + 2))
      else crossover_loop n' (mkEvoSt g (es_ev s) (es_id s) (es_birth s)) m1 m2 d baseline curmaxsize
  end.
Definition crossover_generation := crossover_loop 10.

(** regularized_evolution.rs:34: the number of steps of a cycle. [div_ceil]: [(len as f64 / n as f64).ceil() as usize]; a tournament size of 0
    gives an infinite quotient (NaN for an empty population), cast to usize::MAX (0). *)
Definition n_evol_cycles (len n : nat) : nat :=
  if n =? 0 then (if len =? 0 then 0 else ec_umax C) else (len + n - 1) / n.

Definition tournament (g : rng T) (pop : list (member T)) (st : stats T) : res (member T * rng T) :=
  best_of_sample F (oc_to (eo_opt E)) (eo_exp E) (eo_fuel E) g pop st (eo_sel E).

(** regularized_evolution.rs:36-81: the body of the loop. *)
Definition evol_step (pop : list (member T)) (s : evo_st T) (d : dataset T) (baseline : option T) (temperature : T) (curmaxsize : nat)
    (st : stats T) : res (list (member T) * evo_st T * nat) :=
  let '(u, g) := rng_real (es_rng s) in
  if fgtb F u (eo_crossover_prob E) then
    let! (allstar, g) := tournament g pop st in
    let! (baby, accepted, k, s) := next_generation (mkEvoSt g (es_ev s) (es_id s) (es_birth s)) allstar d baseline temperature curmaxsize st in
    if negb accepted && eo_skip_failures E then Ok (pop, s, k)
    else let! pop := replace_oldest pop baby in Ok (pop, s, k)
  else
    let! (a1, g) := tournament g pop st in
    let! (a2, g) := tournament g pop st in
    let! (b1, b2, accepted, k, s) := crossover_generation (mkEvoSt g (es_ev s) (es_id s) (es_birth s)) a1 a2 d baseline curmaxsize in
    if negb accepted && eo_skip_failures E then Ok (pop, s, k)
    else let! pop := replace_two_oldest pop b1 b2 in Ok (pop, s, k).

Fixpoint evol_steps (n : nat) (pop : list (member T)) (s : evo_st T) (d : dataset T) (baseline : option T) (temperature : T)
    (curmaxsize : nat) (st : stats T) (evals : nat) : res (list (member T) * evo_st T * nat) :=
  match n with
  | 0 => Ok (pop, s, evals)
  | S n' =>
      let! (pop, s, k) := evol_step pop s d baseline temperature curmaxsize st in
      evol_steps n' pop s d baseline temperature curmaxsize st (evals + k)
  end.

(** regularized_evolution.rs:27-84 [reg_evol_cycle]. *)
Definition reg_evol_cycle (pop : list (member T)) (s : evo_st T) (d : dataset T) (baseline : option T) (temperature : T) (curmaxsize : nat)
    (st : stats T) : res (list (member T) * evo_st T * nat) :=
  evol_steps (n_evol_cycles (List.length pop) (tournament_selection_n (eo_sel E))) pop s d baseline temperature curmaxsize st 0.

(** single_iteration.rs:45-50: the temperature of cycle [i] of [n]. *)
Definition temperature_at (i n : nat) : T :=
  let max_temp := fone F in
  let min_temp := if eo_annealing E then fzero F else fone F in
  if n <=? 1 then max_temp
  else fadd F max_temp (fmul F (fdiv F (eo_of_nat E i) (eo_of_nat E (n - 1))) (fsub F min_temp max_temp)).

Definition update_hof (h : hof T) (pop : list (member T)) (curmaxsize : nat) : res (hof T) :=
  update_from_members F (ec_umax C) D (ec_size C) (eo_stale E) h pop curmaxsize.

(** single_iteration.rs:44-67: the cycles. *)
Fixpoint sr_cycles (is_ : list nat) (n : nat) (pop : list (member T)) (s : evo_st T) (best : hof T) (d : dataset T) (baseline : option T)
    (curmaxsize : nat) (st : stats T) (evals : nat) : res (list (member T) * evo_st T * hof T * nat) :=
  match is_ with
  | [] => Ok (pop, s, best, evals)
  | i :: is_' =>
      let! (pop, s, k) := reg_evol_cycle pop s d baseline (temperature_at i n) curmaxsize st in
      let! best := update_hof best pop curmaxsize in
      sr_cycles is_' n pop s best d baseline curmaxsize st (evals + k)
  end.

(** single_iteration.rs:28-69 [s_r_cycle]. *)
Definition s_r_cycle (pop : list (member T)) (s : evo_st T) (d : dataset T) (baseline : option T) (curmaxsize : nat) (st : stats T)
    : res (list (member T) * evo_st T * hof T * nat) :=
  let n := Nat.max (eo_ncycles E) 1 in
  let! best := update_hof (hof_new (sel_maxsize (eo_sel E))) pop curmaxsize in
  sr_cycles (seq 0 n) n pop s best d baseline curmaxsize st 0.

(** single_iteration.rs:82-89. *)
Definition simplify_member (nf : nat) (m : member T) : res (member T) :=
  let! (e, changed) := simplify_in_place F (ec_O C) D (eo_ccfg E) ev_opts (m_expr m) in
  let m := mkMember (m_id m) (m_parent m) (m_birth m) e (m_plan m) (m_complexity m) (m_loss m) (m_cost m) in
  if changed then rebuild_plan C m nf else Ok m.

(** single_iteration.rs:94-110: constant optimisation of a random selection of the members. *)
Fixpoint optimize_members (ms : list (member T)) (s : evo_st T) (gc : dctx T) (d : dataset T) (baseline : option T) (evals : nat)
    : res (list (member T) * evo_st T * dctx T * nat) :=
  match ms with
  | [] => Ok ([], s, gc, evals)
  | m :: ms' =>
      let '(u, g) := rng_real (es_rng s) in
      if fltb F u (eo_opt_prob E) then
        let! (g, m, ev, gc, nb, _, k) := optimize_constants C (eo_opt E) g m d baseline (es_ev s) gc (es_birth s) in
        let! (ms', s, gc, evals) := optimize_members ms' (mkEvoSt g ev (es_id s) nb) gc d baseline (evals + k) in
        Ok (m :: ms', s, gc, evals)
      else
        let! (ms', s, gc, evals) := optimize_members ms' (mkEvoSt g (es_ev s) (es_id s) (es_birth s)) gc d baseline evals in
        Ok (m :: ms', s, gc, evals)
  end.

(** single_iteration.rs:113-117: every member is evaluated on the full data. *)
Fixpoint evaluate_members (ms : list (member T)) (ev : evaluator T) (d : dataset T) (baseline : option T)
    : res (list (member T) * evaluator T) :=
  match ms with
  | [] => Ok ([], ev)
  | m :: ms' =>
      let! (m, ev, _) := evaluate C m d baseline ev in
      let! (ms', ev) := evaluate_members ms' ev d baseline in
      Ok (m :: ms', ev)
  end.

(** Assignment to [grad_ctx.n_rows] (single_iteration.rs:93). *)
Definition set_rows (gc : dctx T) (n : nat) : dctx T := mkDctx (d_val gc) (d_der gc) n (d_plan gc) (d_nodes_len gc) (d_n_consts gc) (d_n_features gc).

(** single_iteration.rs:71-120 [optimize_and_simplify_population]; [full] is the full dataset, [d] the one used for optimisation. *)
Definition optimize_and_simplify_population (pop : list (member T)) (s : evo_st T) (gc : dctx T) (full d : dataset T) (baseline : option T)
    : res (list (member T) * evo_st T * dctx T * nat) :=
  let! pop := (if eo_simplify E then mapM (simplify_member (ds_n_features full)) pop else Ok pop) in
  let! (pop, s, gc, evals) :=
    (if oc_enabled (eo_opt E) && fgtb F (eo_opt_prob E) (fzero F) then
       optimize_members pop (mkEvoSt (es_rng s) (ensure_n_rows F (es_ev s) (ds_n_rows d)) (es_id s) (es_birth s))
         (set_rows gc (ds_n_rows d)) d baseline 0
     else Ok (pop, s, gc, 0)) in
  let! (pop, ev) := evaluate_members pop (ensure_n_rows F (es_ev s) (ds_n_rows full)) full baseline in
  Ok (pop, mkEvoSt (es_rng s) ev (es_id s) (es_birth s), gc, evals + List.length pop).
End Evolution.
