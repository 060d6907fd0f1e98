(** Model of the optimisation of the constants of a member. symbolic_regression/src/constant_optimization.rs.
    [T] is the scalar type of the search, [W] is f64. *)
From Verif Require Import Base Node Compile Eval Deriv Rng Registry Complexity Member Dataset Loss Optim.

(** The fields of [Options] read here (options.rs: should_optimize_constants, optimizer_iterations, optimizer_f_calls_limit,
    optimizer_nrestarts), the literals 1e-8 and [BackTracking::default()], the f64 arithmetic, and the conversions
    [ToPrimitive::to_f64] and [FromPrimitive::from_f64] of the scalar type. *)
Record opt_cfg (T W : Type) : Type := mkOptCfg {
  oc_F : FloatOps W;
  oc_OO : OptOps W;
  oc_to : T -> option W;
  oc_of : W -> option T;
  oc_enabled : bool;
  oc_iterations : nat;
  oc_f_calls_limit : nat;
  oc_nrestarts : nat;
  oc_g_abstol : W;
  oc_ls : backtracking W }.
Arguments mkOptCfg {T W}. Arguments oc_F {T W}. Arguments oc_OO {T W}. Arguments oc_to {T W}. Arguments oc_of {T W}.
Arguments oc_enabled {T W}. Arguments oc_iterations {T W}. Arguments oc_f_calls_limit {T W}. Arguments oc_nrestarts {T W}.
Arguments oc_g_abstol {T W}. Arguments oc_ls {T W}.

(** What the optimisation mutates besides the member: the constants of the expression being optimised, the evaluator, the
    gradient context and the buffer [dloss_dyhat] (constant_optimization.rs:14-43, 154-158). *)
Record cstate (T : Type) : Type := mkCState {
  cs_consts : list T;
  cs_ev : evaluator T;
  cs_grad : dctx T;
  cs_dloss : list T }.
Arguments mkCState {T}. Arguments cs_consts {T}. Arguments cs_ev {T}. Arguments cs_grad {T}. Arguments cs_dloss {T}.

(** Assignment to [expr.consts]. *)
Definition with_consts {T} (e : expr T) (cs : list T) : expr T := mkExpr (nodes e) cs (var_names e).

Section ConstOpt.
Context {T W : Type} (C : eval_cfg T) (OC : opt_cfg T W).
Let F := ec_F C.
Let FW := oc_F OC.

Definition to_w (v : T) (default : W) : W := match oc_to OC v with Some w => w | None => default end.

(** constant_optimization.rs:45-73 [loss_only]. *)
Definition loss_only (p : plan) (e : expr T) (d : dataset T) (ev : evaluator T) : res (evaluator T * option W) :=
  let! (sc, yhat, ok) := eval_plan_array_into F (ec_O C) (ev_yhat ev) p e (ds_x d) (ev_scratch ev) ev_opts in
  let ev := mkEvalr yhat sc in
  if negb ok then Ok (ev, None)
  else
    let! loss := lf_loss (ec_loss C) yhat (ds_y d) (ds_weights d) in
    if negb (ffinite F loss) then Ok (ev, None) else Ok (ev, Some (to_w loss (finf FW))).

(** constant_optimization.rs:75-127 [loss_and_grad]; [grad_out] has one entry per constant. *)
Definition loss_and_grad (e : expr T) (d : dataset T) (gc : dctx T) (dl : list T)
    : res (dctx T * list T * option (W * list W)) :=
  let n_params := List.length (consts e) in
  let n_rows := ds_n_rows d in
  let! (gc, out) := eval_grad_tree_array F (ec_O C) (ec_hash C) (ec_D C) e (ds_x d) false gc ev_opts in
  let '(yhat, dy_dc, ok) := out in
  if negb ok then Ok (gc, dl, None)
  else if existsb (fun v => negb (ffinite F v)) yhat then Ok (gc, dl, None)
  else
    let! loss := lf_loss (ec_loss C) yhat (ds_y d) (ds_weights d) in
    if negb (ffinite F loss) then Ok (gc, dl, None)
    else
      let! dl := lf_dloss (ec_loss C) yhat (ds_y d) (ds_weights d) dl in
      let! g := mapM (fun ci =>
          let! row := slice (m_data dy_dc) (ci * n_rows) n_rows in
          let! z := zip_eq dl row in
          Ok (to_w (fold_left (fun a q => fadd F a (fmul F (fst q) (snd q))) z (fzero F)) (finf FW)))
        (seq 0 n_params) in
      Ok (gc, dl, Some (to_w loss (finf FW), g)).

(** constant_optimization.rs:168-170, 177-179: writing the constants; stops at the first value that does not convert. *)
Fixpoint write_consts (dst : list T) (src : list W) : list T * bool :=
  match dst, src with
  | d :: dst', s :: src' =>
      match oc_of OC s with
      | Some v => let '(rest, ok) := write_consts dst' src' in (v :: rest, ok)
      | None => (d :: dst', false)
      end
  | _, _ => (dst, true)
  end.

(** constant_optimization.rs:160-186 [ConstObjective]. *)
Definition const_objective (p : plan) (e : expr T) (d : dataset T) : objective (cstate T) W :=
  mkObj
    (fun st x =>
       let! _ := zip_eq (cs_consts st) x in
       let '(cs, ok) := write_consts (cs_consts st) x in
       if negb ok then Ok (mkCState cs (cs_ev st) (cs_grad st) (cs_dloss st), None)
       else
         let! (ev, v) := loss_only p (with_consts e cs) d (cs_ev st) in
         Ok (mkCState cs ev (cs_grad st) (cs_dloss st), v))
    (fun st x =>
       let! _ := zip_eq (cs_consts st) x in
       let '(cs, ok) := write_consts (cs_consts st) x in
       if negb ok then Ok (mkCState cs (cs_ev st) (cs_grad st) (cs_dloss st), None)
       else
         let! (gc, dl, v) := loss_and_grad (with_consts e cs) d (cs_grad st) (cs_dloss st) in
         Ok (mkCState cs (cs_ev st) gc dl, v)).

(** constant_optimization.rs:129-152 [optimize_from_start]. *)
Definition optimize_from_start (p : plan) (e : expr T) (d : dataset T) (st : cstate T) (start : list W)
    : res (cstate T * option (optim_result W)) :=
  let opts := mkOptim (oc_iterations OC) (oc_f_calls_limit OC) (oc_g_abstol OC) in
  let obj := const_objective p e d in
  let! (st, _, r) :=
    if List.length (consts e) =? 1 then
      let! x := index start 0 in newton_1d_minimize FW (oc_OO OC) obj opts (oc_ls OC) st x
    else bfgs_minimize FW (oc_OO OC) obj opts (oc_ls OC) st start in
  Ok (st, r).

(** constant_optimization.rs:233-239, 250-256: keep a strictly better result. [evals] is u64, modelled unbounded. *)
Definition take_better (best : list W * W * nat) (r : option (optim_result W)) : list W * W * nat :=
  let '(best_x, best_f, evals) := best in
  match r with
  | None => best
  | Some r =>
      let evals := evals + or_f_calls r in
      if fltb FW (or_minimum r) best_f then (or_minimizer r, or_minimum r, evals) else (best_x, best_f, evals)
  end.

(** constant_optimization.rs:244-248: a random start near [x0]. *)
Fixpoint perturb (r : rng W) (x0 : list W) : list W * rng W :=
  match x0 with
  | [] => ([], r)
  | v :: x0' =>
      let '(eps, r) := rng_real r in
      let '(rest, r) := perturb r x0' in
      (fmul FW v (fadd FW (fone FW) (fmul FW (oo_half (oc_OO OC)) eps)) :: rest, r)
  end.

(** constant_optimization.rs:242-257: the restarts. *)
Fixpoint restarts (k : nat) (p : plan) (e : expr T) (d : dataset T) (x0 : list W) (r : rng W) (st : cstate T)
    (best : list W * W * nat) : res (rng W * cstate T * (list W * W * nat)) :=
  match k with
  | 0 => Ok (r, st, best)
  | S k' =>
      let '(xt, r) := perturb r x0 in
      let! (st, o) := optimize_from_start p e d st xt in
      restarts k' p e d x0 r st (take_better best o)
  end.

(** Assignments to the fields of a member. *)
Definition set_consts (m : member T) (cs : list T) : member T :=
  mkMember (m_id m) (m_parent m) (m_birth m) (with_consts (m_expr m) cs) (m_plan m) (m_complexity m) (m_loss m) (m_cost m).
Definition set_birth (m : member T) (b : nat) : member T :=
  mkMember (m_id m) (m_parent m) b (m_expr m) (m_plan m) (m_complexity m) (m_loss m) (m_cost m).

(** constant_optimization.rs:188-283 [optimize_constants]. The context is threaded: the results are the generator, the
    member, the evaluator, the gradient context, [next_birth], whether it improved, and the evaluations reported. *)
Definition optimize_constants (r : rng W) (m : member T) (d : dataset T) (baseline_loss : option T)
    (ev : evaluator T) (gc : dctx T) (next_birth : nat)
    : res (rng W * member T * evaluator T * dctx T * nat * bool * nat) :=
  if negb (oc_enabled OC) then Ok (r, m, ev, gc, next_birth, false, 0)
  else
    let e := m_expr m in
    if List.length (consts e) =? 0 then Ok (r, m, ev, gc, next_birth, false, 0)
    else
      let! (ev, b) := loss_only (m_plan m) e d ev in
      match b with
      | None => Ok (r, m, ev, gc, next_birth, false, 0)
      | Some baseline =>
          let x0 := map (fun v => to_w v (fzero FW)) (consts e) in
          let st := mkCState (consts e) ev gc (fill (ds_n_rows d) (fzero F)) in
          let! (st, o) := optimize_from_start (m_plan m) e d st x0 in
          let! (r, st, best) := restarts (oc_nrestarts OC) (m_plan m) e d x0 r st (take_better (x0, baseline, 0) o) in
          let '(best_x, best_f, evals) := best in
          if fltb FW best_f baseline then
            let! _ := zip_eq (cs_consts st) best_x in
            let cs := map (fun w => match oc_of OC w with Some v => v | None => fzero F end) best_x in
            let! (m', ev', ok) := evaluate C (set_consts m cs) d baseline_loss (cs_ev st) in
            if negb ok then
              Ok (r, mkMember (m_id m') (m_parent m') (m_birth m) (with_consts (m_expr m') (consts e)) (m_plan m')
                       (m_complexity m') (m_loss m) (m_cost m), ev', cs_grad st, next_birth, false, evals)
            else Ok (r, set_birth m' next_birth, ev', cs_grad st, S next_birth, true, S evals)
          else Ok (r, m, cs_ev st, cs_grad st, next_birth, false, evals)
      end.
End ConstOpt.
