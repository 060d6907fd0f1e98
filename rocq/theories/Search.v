(** Model of the search: initial populations, tasks, the stepwise engine, and the parallel coordinator.
    symbolic_regression/src/search_utils.rs. The progress bar is left out: it only reads. One scalar type [T] (f64), as in Evolution.v;
    [W] is f32. Counts (usize, u64) are naturals. *)
From Verif Require Import Base Node Compile Eval Deriv Utils Simplify Rng Registry Mutation Complexity Member Selection Conditioning Dataset Loss
  Optim ConstOpt Evolution.

(** The fields of [Options] read by the search. [sc_seed i] is [Rng::with_seed(seed + i)], [sc_order] the generator of the task order
    (search_utils.rs:182): arbitrary streams. [sc_stride] is 2^32 (init_populations: [(pop_i as u64) << 32]).
    [sc_poisson] stands for random.rs:21-75. *)
Record search_cfg (T W : Type) : Type := mkSearch {
  sc_E : evo_cfg T;
  sc_niterations : nat;
  sc_populations : nat;
  sc_population_size : nat;
  sc_batching : bool;
  sc_batch_size : nat;
  sc_topn : nat;
  sc_migration : bool;
  sc_frac : T;
  sc_hof_migration : bool;
  sc_frac_hof : T;
  sc_poisson : rng T -> T -> nat * rng T;
  sc_seed : nat -> rng T;
  sc_order : rng T;
  sc_stride : nat;
  sc_F32 : FloatOps W;
  sc_of32 : nat -> W;
  sc_floor32 : W -> nat;
  sc_warmup_by : W }.
Arguments mkSearch {T W}. Arguments sc_E {T W}. Arguments sc_niterations {T W}. Arguments sc_populations {T W}.
Arguments sc_population_size {T W}. Arguments sc_batching {T W}. Arguments sc_batch_size {T W}. Arguments sc_topn {T W}.
Arguments sc_migration {T W}. Arguments sc_frac {T W}. Arguments sc_hof_migration {T W}. Arguments sc_frac_hof {T W}.
Arguments sc_poisson {T W}. Arguments sc_seed {T W}. Arguments sc_order {T W}. Arguments sc_stride {T W}. Arguments sc_F32 {T W}.
Arguments sc_of32 {T W}. Arguments sc_floor32 {T W}. Arguments sc_warmup_by {T W}.

(** search_utils.rs:56-64 [PopState]; random generator, evaluator, next_id and next_birth are in [ps_st]. *)
Record pop_state (T : Type) : Type := mkPop {
  ps_pop : list (member T); ps_st : evo_st T; ps_gc : dctx T; ps_batch : option (dataset T) }.
Arguments mkPop {T}. Arguments ps_pop {T}. Arguments ps_st {T}. Arguments ps_gc {T}. Arguments ps_batch {T}.

(** search_utils.rs:122-127 [PopPools], 24-28 [SearchCounters], and what both drivers keep beside them: statistics, hall of fame, order_rng. *)
Record search_st (T : Type) : Type := mkSt {
  ss_pops : list (option (pop_state T));
  ss_subs : list (list (member T));
  ss_best : member T;
  ss_evals : nat;
  ss_started : nat;
  ss_completed : nat;
  ss_stats : stats T;
  ss_hall : hof T;
  ss_order : rng T }.
Arguments mkSt {T}. Arguments ss_pops {T}. Arguments ss_subs {T}. Arguments ss_best {T}. Arguments ss_evals {T}. Arguments ss_started {T}.
Arguments ss_completed {T}. Arguments ss_stats {T}. Arguments ss_hall {T}. Arguments ss_order {T}.

(** A dispatched task (the captures of search_utils.rs:545-548), and its result (47-54 [SearchTaskResult]). *)
Record task (T : Type) : Type := mkTask { tk_idx : nat; tk_cur : nat; tk_stats : stats T; tk_pop : pop_state T }.
Arguments mkTask {T}. Arguments tk_idx {T}. Arguments tk_cur {T}. Arguments tk_stats {T}. Arguments tk_pop {T}.
Record task_result (T : Type) : Type := mkRes {
  tr_idx : nat; tr_cur : nat; tr_evals : nat; tr_seen : hof T; tr_sub : list (member T); tr_pop : pop_state T }.
Arguments mkRes {T}. Arguments tr_idx {T}. Arguments tr_cur {T}. Arguments tr_evals {T}. Arguments tr_seen {T}. Arguments tr_sub {T}.
Arguments tr_pop {T}.

Section Search.
Context {T W : Type} (S0 : search_cfg T W).
Local Notation E := (sc_E S0).
Local Notation C := (eo_C (sc_E S0)).
Local Notation F := (ec_F (eo_C (sc_E S0))).
Local Notation maxsize := (sel_maxsize (eo_sel (sc_E S0))).

(** search_utils.rs:83-105: the dataset of a phase, and the population state with its batch buffer and generator advanced. *)
Definition phase (full : dataset T) (ps : pop_state T) : res (dataset T * pop_state T) :=
  if sc_batching S0 then
    if ds_n_rows full =? 0 then Panic
    else
      let bs := Nat.max (sc_batch_size S0) 1 in
      let needs_new := match ps_batch ps with
                       | None => true
                       | Some b => negb (ds_n_rows b =? bs) || negb (ds_n_features b =? ds_n_features full)
                       end in
      let! batch := (if needs_new then make_batch_buffer F (eo_of_nat E) full bs else expect (ps_batch ps)) in
      let! (batch, g) := resample_from batch full (es_rng (ps_st ps)) in
      let s := ps_st ps in
      Ok (batch, mkPop (ps_pop ps) (mkEvoSt g (es_ev s) (es_id s) (es_birth s)) (ps_gc ps) (Some batch))
  else Ok (full, ps).

(** search_utils.rs:406-438 [execute_task]. *)
Definition execute_task (full : dataset T) (bl : option T) (t : task T) : res (task_result T) :=
  let! (d1, ps) := phase full (tk_pop t) in
  let! (pop, s, best_seen, evals1) := s_r_cycle E (ps_pop ps) (ps_st ps) d1 bl (tk_cur t) (tk_stats t) in
  let! (d2, ps) := phase full (mkPop pop s (ps_gc ps) (ps_batch ps)) in
  let! (pop, s, gc, evals2) := optimize_and_simplify_population E (ps_pop ps) (ps_st ps) (ps_gc ps) full d2 bl in
  let! sub := best_sub_pop F pop (sc_topn S0) in
  Ok (mkRes (tk_idx t) (tk_cur t) (evals1 + evals2) best_seen sub (mkPop pop s gc (ps_batch ps))).

(** search_utils.rs:465-467. *)
Definition offer (h : hof T) (ms : list (member T)) (cur : nat) : res (hof T) := update_hof E h ms cur.

(** search_utils.rs:468-473: each member is offered to the hall of fame and to the best. *)
Fixpoint offer_best (ms : list (member T)) (h : hof T) (best : member T) (cur : nat) : res (hof T * member T) :=
  match ms with
  | [] => Ok (h, best)
  | m :: ms' =>
      let! h := consider F (ec_umax C) (ec_D C) (ec_size C) (eo_stale E) h m cur in
      let! ok := check E (m_expr m) cur in
      offer_best ms' h (if ok && fltb F (m_loss m) (m_loss best) then m else best) cur
  end.

(** search_utils.rs:476-481: the migrants of population [i]. *)
Definition others (subs : list (list (member T))) (i : nat) : list (member T) :=
  List.concat (map snd (filter (fun p => negb (fst p =? i)) (combine (seq 0 (List.length subs)) subs))).

Definition migrate (ps : pop_state T) (migrants : list (member T)) (frac : T) : res (pop_state T) :=
  let s := ps_st ps in
  let! (pop, g, id, birth) := migrate_into F (eo_of_nat E) (sc_poisson S0) (ps_pop ps) migrants frac (es_rng s) (es_id s) (es_birth s) in
  Ok (mkPop pop (mkEvoSt g (es_ev s) id birth) (ps_gc ps) (ps_batch ps)).

(** search_utils.rs:440-505 [apply_task_result]. *)
Definition apply_task_result (st : search_st T) (r : task_result T) : res (search_st T) :=
  let i := tr_idx r in
  let! subs := set_index (ss_subs st) i (tr_sub r) in
  let! _ := index (ss_pops st) i in
  let ps := tr_pop r in
  let stats := move_window F (eo_of_nat E) (eo_eps E) (update_from_population F (ss_stats st) (map m_complexity (ps_pop ps))) in
  let! hall := offer (ss_hall st) (hof_members (tr_seen r)) (tr_cur r) in
  let! (hall, best) := offer_best (ps_pop ps) hall (ss_best st) (tr_cur r) in
  let! ps := (if sc_migration S0 then migrate ps (others subs i) (sc_frac S0) else Ok ps) in
  let! ps := (if sc_hof_migration S0 then migrate ps (pareto_front F hall) (sc_frac_hof S0) else Ok ps) in
  let! pops := set_index (ss_pops st) i (Some ps) in
  Ok (mkSt pops subs best (ss_evals st + tr_evals r) (ss_started st) (ss_completed st + 1) stats hall (ss_order st)).

(** search_utils.rs:586-605: one initial member. *)
Fixpoint init_members (n : nat) (d : dataset T) (bl : option T) (s : evo_st T) (h : hof T) : res (list (member T) * evo_st T * hof T) :=
  match n with
  | 0 => Ok ([], s, h)
  | S n' =>
      let! (e, g) := random_expr_append_ops F (ec_D C) (eo_reg E) (ds_n_features d) 3 maxsize (es_rng s) in
      let! m := from_expr C (es_id s) None (es_birth s) e (ds_n_features d) in
      let! (m, ev, _) := evaluate C m d bl (es_ev s) in
      let! h := consider F (ec_umax C) (ec_D C) (ec_size C) (eo_stale E) h m maxsize in
      let! (ms, s, h) := init_members n' d bl (mkEvoSt g ev (es_id s + 1) (es_birth s + 1)) h in
      Ok (m :: ms, s, h)
  end.

(** search_utils.rs:577-617: the initial populations, from number [i]. *)
Fixpoint init_pops (n i : nat) (d : dataset T) (bl : option T) (h : hof T) : res (list (pop_state T) * hof T) :=
  match n with
  | 0 => Ok ([], h)
  | S n' =>
      let s := mkEvoSt (sc_seed S0 i) (evaluator_new F (ds_n_rows d)) (i * sc_stride S0) 0 in
      let! (ms, s, h) := init_members (sc_population_size S0) d bl s h in
      let! (ps, h) := init_pops n' (S i) d bl h in
      Ok (mkPop ms s (dctx_new F (ds_n_rows d)) None :: ps, h)
  end.

(** search_utils.rs:619-632: the best feasible initial member. *)
Fixpoint init_best (ms : list (member T)) (best : option (member T)) : res (option (member T)) :=
  match ms with
  | [] => Ok best
  | m :: ms' =>
      let! ok := check E (m_expr m) maxsize in
      init_best ms' (if negb ok then best
                     else match best with
                          | None => Some m
                          | Some c => if fltb F (m_loss m) (m_loss c) then Some m else best
                          end)
  end.

(** search_utils.rs:160 *)
Definition window_size : nat := 100 * 1000.
#[global] Arguments window_size : simpl never.

(** search_utils.rs:564-653 [init_populations], with the initialisation of the rest of the state (155-175, 231-262). *)
Definition init_search (d : dataset T) (bl : option T) : res (search_st T) :=
  let! (ps, h) := init_pops (sc_populations S0) 0 d bl (hof_new maxsize) in
  let! best := init_best (List.concat (map ps_pop ps)) None in
  let! best := match best with
               | Some m => Ok m
               | None => let! p := expect (nth_error ps 0) in index (ps_pop p) 0
               end in
  let! subs := mapM (fun p => best_sub_pop F (ps_pop p) (sc_topn S0)) ps in
  Ok (mkSt (map Some ps) subs best (sc_populations S0 * sc_population_size S0) 0 0
        (stats_new F (eo_of_nat E) maxsize window_size) h (sc_order S0)).

(** search_utils.rs:153-158, 236-241 *)
Definition total_cycles : nat := sc_niterations S0 * sc_populations S0.
Definition baseline_for (d : dataset T) : res (option T) := if ec_use_baseline C then baseline_loss C d else Ok None.

(** search_utils.rs:535-545, 350-359: what happens when population [i] is sent off: [None] if its state is taken. *)
Definition dispatch (st : search_st T) (i : nat) : res (option (search_st T * task T)) :=
  let! p := index (ss_pops st) i in
  match p with
  | None => Ok None
  | Some ps =>
      let! pops := set_index (ss_pops st) i None in
      let remaining := total_cycles - ss_started st in
      let! cur := get_cur_maxsize (sc_F32 S0) (sc_of32 S0) (sc_floor32 S0) (sc_warmup_by S0) maxsize total_cycles remaining in
      Ok (Some (mkSt pops (ss_subs st) (ss_best st) (ss_evals st) (ss_started st + 1) (ss_completed st) (ss_stats st) (ss_hall st) (ss_order st),
                mkTask i cur (normalize F (ss_stats st)) ps))
  end.

(** ** The stepwise engine *)

(** search_utils.rs:220-234 [SearchEngine] *)
Record engine : Type := mkEngine {
  en_st : search_st T; en_data : dataset T; en_bl : option T; en_iter : nat; en_tasks : list nat; en_next : nat }.

(** search_utils.rs:239-282 [new] *)
Definition engine_new (d : dataset T) : res engine :=
  let! bl := baseline_for d in
  let! st := init_search d bl in
  Ok (mkEngine st d bl 0 [] 0).

(** search_utils.rs:300-302 [is_finished] *)
Definition is_finished (en : engine) : bool := total_cycles - ss_completed (en_st en) =? 0.

Definition with_order (st : search_st T) (g : rng T) : search_st T :=
  mkSt (ss_pops st) (ss_subs st) (ss_best st) (ss_evals st) (ss_started st) (ss_completed st) (ss_stats st) (ss_hall st) g.

(** search_utils.rs:391-403 [prepare_iteration] *)
Definition prepare_iteration (en : engine) : res engine :=
  if sc_niterations S0 <=? en_iter en then Ok en
  else if negb (List.length (en_tasks en) =? 0) && (en_next en <? List.length (en_tasks en)) then Ok en
  else
    let st := en_st en in
    let! (order, g) := shuffle (ss_order st) (seq 0 (List.length (ss_pops st))) in
    Ok (mkEngine (with_order st g) (en_data en) (en_bl en) (en_iter en + 1) order 0).

(** search_utils.rs:336-389 [step_one_cycle] *)
Definition step_one_cycle (en : engine) : res (engine * bool) :=
  if is_finished en then Ok (en, false)
  else
    let! en := prepare_iteration en in
    if is_finished en then Ok (en, false)
    else
      let! i := index (en_tasks en) (en_next en) in
      let next := en_next en + 1 in
      let! o := dispatch (en_st en) i in
      match o with
      | None => Ok (mkEngine (en_st en) (en_data en) (en_bl en) (en_iter en) (en_tasks en) next, true)
      | Some (st, t) =>
          let! r := execute_task (en_data en) (en_bl en) t in
          let! st := apply_task_result st r in
          Ok (mkEngine st (en_data en) (en_bl en) (en_iter en) (en_tasks en) next, true)
      end.

(** search_utils.rs:316-325 [step] *)
Fixpoint step_loop (n : nat) (en : engine) (completed : nat) : res (engine * nat) :=
  match n with
  | 0 => Ok (en, completed)
  | S n' =>
      let! (en, more) := step_one_cycle en in
      if more then step_loop n' en (completed + 1) else Ok (en, completed)
  end.
Definition step (en : engine) (n_cycles : nat) : res (engine * nat) := step_loop n_cycles en 0.

(** search_utils.rs:327-334 [run_to_completion]: the loop, bounded by [fuel] turns. *)
Fixpoint run_loop (fuel : nat) (en : engine) : res engine :=
  match fuel with
  | 0 => OutOfFuel
  | S fuel' => let! (en, more) := step_one_cycle en in if more then run_loop fuel' en else Ok en
  end.

(** ** The parallel coordinator *)

(** search_utils.rs:189: the number of workers. *)
Definition n_workers (usable_threads : nat) : nat := Nat.max 1 (Nat.min usable_threads (sc_populations S0)).

(** The state of [run_scoped_search]: iterations not yet begun, tasks of this iteration not yet dispatched, tasks in flight (running or finished
    and waiting in the channel: only their arrival order matters). *)
Record coord : Type := mkCoord { co_st : search_st T; co_left : nat; co_tasks : list nat; co_flight : list (task T) }.

(** What the coordinator does next, and which task's result arrives. *)
Inductive event : Type := NewIteration | Skip (i : nat) | Dispatch (i cur : nat) | Deliver (i : nat).

(** search_utils.rs:507-562 [run_scoped_search], one action. [recv] returns the result of any task in flight that finishes: a task that
    panics sends nothing. *)
Inductive cstep (full : dataset T) (bl : option T) (nw : nat) : coord -> event -> coord -> Prop :=
| CNew st n order g :                                     (* 522-527: the for loop starts an iteration *)
    shuffle (ss_order st) (seq 0 (List.length (ss_pops st))) = Ok (order, g) ->
    cstep full bl nw (mkCoord st (S n) [] []) NewIteration (mkCoord (with_order st g) n order [])
| CSkip st n i tasks fl :                                 (* 531-537: the state is taken: continue *)
    List.length fl < nw -> dispatch st i = Ok None ->
    cstep full bl nw (mkCoord st n (i :: tasks) fl) (Skip i) (mkCoord st n tasks fl)
| CDispatch st n i tasks fl st' t :                       (* 531-550: spawn *)
    List.length fl < nw -> dispatch st i = Ok (Some (st', t)) ->
    cstep full bl nw (mkCoord st n (i :: tasks) fl) (Dispatch i (tk_cur t)) (mkCoord st' n tasks (fl ++ [t]))
| CDeliver st n tasks fl1 t fl2 r st' :                   (* 553-562: recv, apply *)
    nw <= List.length (fl1 ++ t :: fl2) \/ tasks = [] ->
    execute_task full bl t = Ok r -> apply_task_result st r = Ok st' ->
    cstep full bl nw (mkCoord st n tasks (fl1 ++ t :: fl2)) (Deliver (tk_idx t)) (mkCoord st' n tasks (fl1 ++ fl2)).

Inductive csteps (full : dataset T) (bl : option T) (nw : nat) : coord -> list event -> coord -> Prop :=
| CsNil c : csteps full bl nw c [] c
| CsCons c1 e c2 es c3 : cstep full bl nw c1 e c2 -> csteps full bl nw c2 es c3 -> csteps full bl nw c1 (e :: es) c3.

(** search_utils.rs:149-218 [equation_search_parallel]: the state in which the coordinator starts, and its end. *)
Definition parallel_start (st : search_st T) : coord := mkCoord st (sc_niterations S0) [] [].
Definition finished (c : coord) : Prop := co_left c = 0 /\ co_tasks c = [] /\ co_flight c = [].
End Search.
