(** Model of a session of the web front end: web/wasm/src/lib.rs:42-60, 162-345. [T] is f64, [W] is f32. An [Err] is [None], or [Refused] in a reply;
    the messages, the conversions from and to JavaScript values and the CSV parser (lines 530-559, which rests on the csv crate) are left out. *)
From Coq Require Import String Ascii.
From Verif Require Import Base Node Compile Eval Utils Rng Registry Complexity Member Selection Conditioning Dataset Loss Optim ConstOpt Evolution Search Metrics Wasm Strings.
From Coq Require Import List.
Import ListNotations.
Local Open Scope list_scope.

(** [str::to_ascii_lowercase]. *)
Fixpoint lowercase (s : string) : string := match s with EmptyString => EmptyString | String c s' => String (lower c) (lowercase s') end.

(** lib.rs:98-103: the fields of [WasmSearchOptions] that describe the loss. *)
Record loss_opts (T : Type) : Type := mkLossOpts { lp_kind : string; lp_huber : T; lp_p : T; lp_tau : T; lp_eps : T }.
Arguments mkLossOpts {T}. Arguments lp_kind {T}. Arguments lp_huber {T}. Arguments lp_p {T}. Arguments lp_tau {T}. Arguments lp_eps {T}.

(** lib.rs:281-302: the loss named in the options. *)
Definition loss_kind_of {T} (o : loss_opts T) : option (loss_kind T) :=
  let s := lowercase (trim (lp_kind o)) in
  if String.eqb s "mse" then Some LMse
  else if String.eqb s "mae" then Some LMae
  else if String.eqb s "rmse" then Some LRmse
  else if String.eqb s "huber" then Some (LHuber (lp_huber o))
  else if String.eqb s "logcosh" then Some LLogCosh
  else if String.eqb s "lp" then Some (LLp (lp_p o))
  else if String.eqb s "quantile" then Some (LQuantile (lp_tau o))
  else if String.eqb s "epsilon-insensitive" || String.eqb s "epsilon_insensitive" || String.eqb s "eps-insensitive" || String.eqb s "eps_insensitive"
  then Some (LEps (lp_eps o))
  else None.

(** symbolic_regression/src/loss_functions.rs:80-95 [LossKind::parse]: the same names with fixed parameters; [half] and [tenth] are 0.5 and 0.1, [two] is 2.0. *)
Definition loss_kind_parse {T} (one two half tenth : T) (s : string) : option (loss_kind T) :=
  let s := lowercase (trim s) in
  if String.eqb s "mse" then Some LMse
  else if String.eqb s "mae" then Some LMae
  else if String.eqb s "rmse" then Some LRmse
  else if String.eqb s "huber" then Some (LHuber one)
  else if String.eqb s "logcosh" then Some LLogCosh
  else if String.eqb s "lp" then Some (LLp two)
  else if String.eqb s "quantile" then Some (LQuantile half)
  else if String.eqb s "epsilon-insensitive" || String.eqb s "epsilon_insensitive" || String.eqb s "eps-insensitive" || String.eqb s "eps_insensitive"
  then Some (LEps tenth)
  else None.

(** lib.rs:304-315, the rest of [options_from_wasm]: the operators and the loss put into the options. [S0] holds everything else: the defaults and what
    [apply_to] (options.rs) sets. *)
Definition with_choices {T W} (S0 : search_cfg T W) (reg : registry) (k : loss_kind T) : search_cfg T W :=
  let E := sc_E S0 in let C := eo_C E in
  mkSearch
    (mkEvo (mkEvalCfg (ec_F C) (ec_LO C) (ec_O C) (ec_hash C) (ec_umax C) (ec_D C) (ec_size C) (make_loss (ec_F C) (ec_LO C) k) (ec_parsimony C) (ec_use_baseline C))
      (eo_opt E) reg (eo_weights E) (eo_simplify E) (eo_opt_prob E) (eo_factor E) (eo_ccfg E) (eo_annealing E) (eo_alpha E) (eo_use_frequency E) (eo_exp E) (eo_eps E)
      (eo_of_nat E) (eo_crossover_prob E) (eo_skip_failures E) (eo_sel E) (eo_fuel E) (eo_stale E) (eo_ncycles E))
    (sc_niterations S0) (sc_populations S0) (sc_population_size S0) (sc_batching S0) (sc_batch_size S0) (sc_topn S0) (sc_migration S0) (sc_frac S0)
    (sc_hof_migration S0) (sc_frac_hof S0) (sc_poisson S0) (sc_seed S0) (sc_order S0) (sc_stride S0) (sc_F32 S0) (sc_of32 S0) (sc_floor32 S0) (sc_warmup_by S0).

(** lib.rs:638: the name of feature [i] without headers. *)
Definition x_name (i : nat) : text := text_of "x" ++ decimal i.

(** lib.rs:168-174 [WasmSearch], with the options and names its engine holds. [se_split]: (validation, training) rows. *)
Record session (T W : Type) : Type := mkSession {
  se_cfg : search_cfg T W; se_engine : @engine T; se_names : list text; se_val : option (dataset T); se_split : list nat * list nat; se_k : nat }.
Arguments mkSession {T W}. Arguments se_cfg {T W}. Arguments se_engine {T W}. Arguments se_names {T W}. Arguments se_val {T W}. Arguments se_split {T W}. Arguments se_k {T W}.

(** lib.rs:88-96 and the above: what a caller passes to the constructor beside the core options. [wo_rounded] and [wo_rng]: see [make_split_indices]. *)
Record web_opts (T : Type) : Type := mkWebOpts {
  wo_has_headers : bool; wo_columns : columns; wo_rounded : nat -> nat; wo_rng : rng T; wo_loss : loss_opts T;
  wo_unary : list string; wo_binary : list string; wo_ternary : list string }.
Arguments mkWebOpts {T}. Arguments wo_has_headers {T}. Arguments wo_columns {T}. Arguments wo_rounded {T}. Arguments wo_rng {T}. Arguments wo_loss {T}.
Arguments wo_unary {T}. Arguments wo_binary {T}. Arguments wo_ternary {T}.

(** lib.rs:179-227 [new], on a parsed table. *)
Definition session_new {T W} (tb : optable) (S0 : search_cfg T W) (o : web_opts T) (headers : list text) (rows : list (list T)) : res (option (session T W)) :=
  let F := ec_F (eo_C (sc_E S0)) in let of_nat := lo_of_nat (ec_LO (eo_C (sc_E S0))) in
  let! ops := from_names_by_arity tb 3 (wo_unary o) (wo_binary o) (wo_ternary o) in
  match ops with
  | inr _ => Ok None
  | inl reg =>
      let! b := build_full_dataset F of_nat x_name (wo_has_headers o) headers rows (wo_columns o) in
      match b with
      | None => Ok None
      | Some (all, names, w) =>
          let! split := make_split_indices (ds_n_rows all) (wo_rounded o) (wo_rng o) in
          let! tv := split_train_val F of_nat all w split in
          match tv with
          | None => Ok None
          | Some (train, val) =>
              match loss_kind_of (wo_loss o) with
              | None => Ok None
              | Some k =>
                  let S1 := with_choices S0 reg k in
                  let! en := engine_new S1 train in
                  Ok (Some (mkSession S1 en names val split 250))
              end
          end
      end
  end.

(** [str::parse::<u64>]: digits after an optional plus sign; [limit] is the largest u64. *)
Definition digit (c : ascii) : option nat := let n := nat_of_ascii c in if (48 <=? n) && (n <=? 57) then Some (n - 48) else None.
Fixpoint parse_digits (limit : nat) (s : text) (acc : nat) : option nat :=
  match s with
  | [] => Some acc
  | c :: s' => match digit c with
               | None => None
               | Some d => let v := acc * 10 + d in if limit <? v then None else parse_digits limit s' v
               end
  end.
Definition parse_u64 (limit : nat) (s : text) : option nat :=
  match s with
  | [] => None
  | c :: s' => if Ascii.eqb c "+" then match s' with [] => None | _ => parse_digits limit s' 0 end else parse_digits limit s 0
  end.

(** lib.rs:124-130 [EquationPoint], 132-139 [EquationSummary], 141-148 [SearchSnapshot]. *)
Record point (T : Type) : Type := mkPoint { pt_id : text; pt_complexity : nat; pt_loss : T; pt_cost : T }.
Arguments mkPoint {T}. Arguments pt_id {T}. Arguments pt_complexity {T}. Arguments pt_loss {T}. Arguments pt_cost {T}.
Record summary (T : Type) : Type := mkSummary { su_point : point T; su_equation : text }.
Arguments mkSummary {T}. Arguments su_point {T}. Arguments su_equation {T}.
Record snapshot (T : Type) : Type := mkSnap { sn_total : nat; sn_completed : nat; sn_evals : nat; sn_best : summary T; sn_points : list (point T) }.
Arguments mkSnap {T}. Arguments sn_total {T}. Arguments sn_completed {T}. Arguments sn_evals {T}. Arguments sn_best {T}. Arguments sn_points {T}.

(** The methods of [WasmSearch] a page calls, and what it gets. *)
Inductive request : Type := SetK (k : nat) | GetSplit | IsFinished | Step (n : nat) | BestEquations (k : nat) | EvaluateMember (id : text) (which : string).
Inductive reply (T : Type) : Type :=
| Done | TheSplit (train val : list nat) | Finished (b : bool) | Snap (s : snapshot T) | Equations (l : list (summary T)) | Evaluated (mt : metrics T) (yhat : list T) | Refused.
Arguments Done {T}. Arguments TheSplit {T}. Arguments Finished {T}. Arguments Snap {T}. Arguments Equations {T}. Arguments Evaluated {T}. Arguments Refused {T}.

Section Session.
Context {T W : Type} (tb : optable) (show : T -> text) (limit : nat).

(** lib.rs:322-331 (the points of a snapshot). *)
Definition point_from_member (m : member T) : point T := mkPoint (decimal (m_id m)) (m_complexity m) (m_loss m) (m_cost m).
(** lib.rs:342-359 [summary_from_member]. *)
Definition summary_from_member (names : list text) (m : member T) : res (summary T) :=
  let! equation := string_tree tb show (Some names) false (m_expr m) in
  Ok (mkSummary (point_from_member m) equation).

(** lib.rs:315-340 [snapshot]. *)
Definition take_snapshot (s : session T W) : res (snapshot T) :=
  let st := en_st (se_engine s) in
  let! best := summary_from_member (se_names s) (ss_best st) in
  let points := map point_from_member (last_of (se_k s) (pareto_front (ec_F (eo_C (sc_E (se_cfg s)))) (ss_hall st))) in
  Ok (mkSnap (total_cycles (se_cfg s)) (ss_completed st) (ss_evals st) best points).

(** lib.rs:229-278: one call. *)
Definition handle (s : session T W) (r : request) : res (session T W * reply T) :=
  let C := eo_C (sc_E (se_cfg s)) in
  match r with
  | SetK k => Ok (mkSession (se_cfg s) (se_engine s) (se_names s) (se_val s) (se_split s) k, Done)
  | GetSplit => Ok (s, TheSplit (snd (se_split s)) (fst (se_split s)))
  | IsFinished => Ok (s, Finished (is_finished (se_cfg s) (se_engine s)))
  | Step n =>
      let! (en, _) := step (se_cfg s) (se_engine s) n in
      let s := mkSession (se_cfg s) en (se_names s) (se_val s) (se_split s) (se_k s) in
      let! sn := take_snapshot s in
      Ok (s, Snap sn)
  | BestEquations k =>
      let! l := mapM (summary_from_member (se_names s)) (last_of k (pareto_front (ec_F C) (ss_hall (en_st (se_engine s))))) in
      Ok (s, Equations l)
  | EvaluateMember id which =>
      match parse_u64 limit id with
      | None => Ok (s, Refused)
      | Some id =>
          let data := if String.eqb which "train" then Some (en_data (se_engine s)) else if String.eqb which "val" then se_val s else None in
          match data with
          | None => Ok (s, Refused)
          | Some d =>
              let! o := evaluate_member (ec_F C) (ec_LO C) (ec_O C) (en_st (se_engine s)) d id in
              Ok (s, match o with Some (mt, yhat) => Evaluated mt yhat | None => Refused end)
          end
      end
  end.

(** A sequence of calls. *)
Fixpoint converse (s : session T W) (rs : list request) : res (session T W * list (reply T)) :=
  match rs with
  | [] => Ok (s, [])
  | r :: rs' => let! (s, x) := handle s r in let! (s, xs) := converse s rs' in Ok (s, x :: xs)
  end.
End Session.

(** lib.rs:42-60 [builtin_operator_registry]: arity and name of each operator (the other fields come from the same table). *)
Definition listing (tb : optable) : list (nat * string) :=
  flat_map (fun arity => map (fun id => (arity, op_name tb (arity, id))) (ops_with_arity tb arity)) (seq 1 (max_ar tb)).
