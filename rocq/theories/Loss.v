(** Model of the losses and of the evaluation of a member.
    symbolic_regression/src/loss_functions.rs, pop_member.rs:46-136. *)
From Verif Require Import Base Node Compile Eval Rng Registry Complexity Member Dataset.

(** Functions of the scalar type that only the losses use: [abs], [sqrt], [cosh], [ln], [tanh], [powf],
    [T::from(usize)], and the literals 2, 0.5 and 0.01. They are parameters. *)
Record LossOps (T : Type) : Type := mkLossOps {
  lo_abs : T -> T;
  lo_sqrt : T -> T;
  lo_cosh : T -> T;
  lo_ln : T -> T;
  lo_tanh : T -> T;
  lo_powf : T -> T -> T;
  lo_of_nat : nat -> T;
  lo_two : T;
  lo_half : T;
  lo_cent : T }.
Arguments mkLossOps {T}. Arguments lo_abs {T}. Arguments lo_sqrt {T}. Arguments lo_cosh {T}. Arguments lo_ln {T}.
Arguments lo_tanh {T}. Arguments lo_powf {T}. Arguments lo_of_nat {T}. Arguments lo_two {T}. Arguments lo_half {T}.
Arguments lo_cent {T}.

(** loss_functions.rs:10-13 [LossFn]: [loss yhat y w] and [dloss_dyhat yhat y w out]. *)
Record lossfn (T : Type) : Type := mkLossFn {
  lf_loss : list T -> list T -> option (list T) -> res T;
  lf_dloss : list T -> list T -> option (list T) -> list T -> res (list T) }.
Arguments mkLossFn {T}. Arguments lf_loss {T}. Arguments lf_dloss {T}.

(** loss_functions.rs:108-111 [PointwiseLoss]. *)
Record pointloss (T : Type) : Type := mkPoint { pl_loss : T -> T -> T; pl_dloss : T -> T -> T }.
Arguments mkPoint {T}. Arguments pl_loss {T}. Arguments pl_dloss {T}.

Definition recip {T} (F : FloatOps T) (x : T) : T := fdiv F (fone F) x.

(** loss_functions.rs:117-143 [MeanLoss::loss]. *)
Definition mean_loss {T} (F : FloatOps T) (LO : LossOps T) (p : pointloss T)
    (yhat y : list T) (w : option (list T)) : res T :=
  let! _ := assert_ (List.length yhat =? List.length y) in
  match w with
  | None =>
      match y with
      | [] => Ok (fzero F)
      | _ =>
          let! z := zip_eq yhat y in
          Ok (fdiv F (fsum F (map (fun q => pl_loss p (fst q) (snd q)) z)) (lo_of_nat LO (List.length y)))
      end
  | Some w =>
      let! _ := assert_ (List.length w =? List.length y) in
      let sum_w := fsum F w in
      if feqb F sum_w (fzero F) then Ok (fzero F)
      else
        let! z := zip_eq yhat y in
        let! z := zip_eq z w in
        Ok (fdiv F (fsum F (map (fun q => fmul F (snd q) (pl_loss p (fst (fst q)) (snd (fst q)))) z)) sum_w)
  end.

(** loss_functions.rs:145-175 [MeanLoss::dloss_dyhat]; [out] only contributes its length. *)
Definition mean_dloss {T} (F : FloatOps T) (LO : LossOps T) (p : pointloss T)
    (yhat y : list T) (w : option (list T)) (out : list T) : res (list T) :=
  let! _ := assert_ (List.length yhat =? List.length y) in
  let! _ := assert_ (List.length out =? List.length y) in
  match w with
  | None =>
      match y with
      | [] => Ok (fill (List.length out) (fzero F))
      | _ =>
          let inv := recip F (lo_of_nat LO (List.length y)) in
          let! z := zip_eq yhat y in
          Ok (map (fun q => fmul F inv (pl_dloss p (fst q) (snd q))) z)
      end
  | Some w =>
      let! _ := assert_ (List.length w =? List.length y) in
      let sum_w := fsum F w in
      if feqb F sum_w (fzero F) then Ok (fill (List.length out) (fzero F))
      else
        let inv := recip F sum_w in
        let! z := zip_eq yhat y in
        let! z := zip_eq z w in
        Ok (map (fun q => fmul F (fmul F (snd q) inv) (pl_dloss p (fst (fst q)) (snd (fst q)))) z)
  end.

Definition mean_of {T} (F : FloatOps T) (LO : LossOps T) (p : pointloss T) : lossfn T :=
  mkLossFn (mean_loss F LO p) (mean_dloss F LO p).

(** loss_functions.rs:181-190 [SquaredLoss]. *)
Definition squared_loss {T} (F : FloatOps T) (LO : LossOps T) : pointloss T :=
  mkPoint (fun yhat y => let r := fsub F yhat y in fmul F r r)
          (fun yhat y => fmul F (lo_two LO) (fsub F yhat y)).

(** loss_functions.rs:195-210 [AbsLoss]. *)
Definition abs_loss {T} (F : FloatOps T) (LO : LossOps T) : pointloss T :=
  mkPoint (fun yhat y => lo_abs LO (fsub F yhat y))
          (fun yhat y => let r := fsub F yhat y in
             if fgtb F r (fzero F) then fone F else if fltb F r (fzero F) then fneg F (fone F) else fzero F).

(** loss_functions.rs:217-242 [HuberLoss]. *)
Definition huber_loss {T} (F : FloatOps T) (LO : LossOps T) (delta : T) : pointloss T :=
  mkPoint (fun yhat y =>
             let r := fsub F yhat y in
             let ar := lo_abs LO r in
             if fleb F ar delta then fmul F (fmul F (lo_half LO) r) r
             else fmul F delta (fsub F ar (fmul F (lo_half LO) delta)))
          (fun yhat y =>
             let r := fsub F yhat y in
             let ar := lo_abs LO r in
             if fleb F ar delta then r
             else if fgtb F r (fzero F) then delta
             else if fltb F r (fzero F) then fneg F delta else fzero F).

(** loss_functions.rs:247-257 [LogCoshLoss]. *)
Definition log_cosh_loss {T} (F : FloatOps T) (LO : LossOps T) : pointloss T :=
  mkPoint (fun yhat y => lo_ln LO (lo_cosh LO (fsub F yhat y)))
          (fun yhat y => lo_tanh LO (fsub F yhat y)).

(** loss_functions.rs:264-280 [LpLoss]. *)
Definition lp_loss {T} (F : FloatOps T) (LO : LossOps T) (p : T) : pointloss T :=
  mkPoint (fun yhat y => lo_powf LO (lo_abs LO (fsub F yhat y)) p)
          (fun yhat y =>
             let r := fsub F yhat y in
             if feqb F r (fzero F) then fzero F
             else
               let ar := lo_abs LO r in
               let s := if fgtb F r (fzero F) then fone F else fneg F (fone F) in
               fmul F (fmul F p (lo_powf LO ar (fsub F p (fone F)))) s).

(** loss_functions.rs:287-307 [QuantileLoss]. *)
Definition quantile_loss {T} (F : FloatOps T) (LO : LossOps T) (tau : T) : pointloss T :=
  mkPoint (fun yhat y =>
             let u := fsub F y yhat in
             if fgeb F u (fzero F) then fmul F tau u else fmul F (fsub F tau (fone F)) u)
          (fun yhat y =>
             let u := fsub F y yhat in
             if fgtb F u (fzero F) then fneg F tau
             else if fltb F u (fzero F) then fsub F (fone F) tau else fzero F).

(** loss_functions.rs:314-336 [EpsilonInsensitiveLoss]. *)
Definition eps_loss {T} (F : FloatOps T) (LO : LossOps T) (eps : T) : pointloss T :=
  mkPoint (fun yhat y =>
             let r := fsub F (lo_abs LO (fsub F yhat y)) eps in
             if fgtb F r (fzero F) then r else fzero F)
          (fun yhat y =>
             let r := fsub F yhat y in
             let ar := lo_abs LO r in
             if fgtb F ar eps then
               if fgtb F r (fzero F) then fone F else if fltb F r (fzero F) then fneg F (fone F) else fzero F
             else fzero F).

(** loss_functions.rs:342-384 [Rmse]. *)
Definition rmse_loss {T} (F : FloatOps T) (LO : LossOps T) : lossfn T :=
  mkLossFn
    (fun yhat y w => let! m := mean_loss F LO (squared_loss F LO) yhat y w in Ok (lo_sqrt LO m))
    (fun yhat y w out =>
       let! _ := assert_ (List.length yhat =? List.length y) in
       let! _ := assert_ (List.length out =? List.length y) in
       let! m := mean_loss F LO (squared_loss F LO) yhat y w in
       let rmse := lo_sqrt LO m in
       if feqb F rmse (fzero F) || negb (ffinite F rmse) then Ok (fill (List.length out) (fzero F))
       else
         match w with
         | None =>
             let inv := recip F (lo_of_nat LO (List.length y)) in
             let scale := fdiv F inv rmse in
             let! z := zip_eq yhat y in
             Ok (map (fun q => fmul F scale (fsub F (fst q) (snd q))) z)
         | Some w =>
             let! _ := assert_ (List.length w =? List.length y) in
             let sum_w := fsum F w in
             if feqb F sum_w (fzero F) then Ok (fill (List.length out) (fzero F))
             else
               let scale := fdiv F (recip F sum_w) rmse in
               let! z := zip_eq yhat y in
               let! z := zip_eq z w in
               Ok (map (fun q => fmul F (fmul F scale (snd q)) (fsub F (fst (fst q)) (snd (fst q)))) z)
         end).

(** loss_functions.rs:67-77 [LossKind], 98-106 [make_loss]; parameters already converted to [T]. *)
Inductive loss_kind (T : Type) : Type :=
| LMse | LMae | LRmse | LHuber (delta : T) | LLogCosh | LLp (p : T) | LQuantile (tau : T) | LEps (eps : T).
Arguments LMse {T}. Arguments LMae {T}. Arguments LRmse {T}. Arguments LHuber {T}. Arguments LLogCosh {T}.
Arguments LLp {T}. Arguments LQuantile {T}. Arguments LEps {T}.
Definition make_loss {T} (F : FloatOps T) (LO : LossOps T) (k : loss_kind T) : lossfn T :=
  match k with
  | LMse => mean_of F LO (squared_loss F LO)
  | LMae => mean_of F LO (abs_loss F LO)
  | LRmse => rmse_loss F LO
  | LHuber d => mean_of F LO (huber_loss F LO d)
  | LLogCosh => mean_of F LO (log_cosh_loss F LO)
  | LLp p => mean_of F LO (lp_loss F LO p)
  | LQuantile t => mean_of F LO (quantile_loss F LO t)
  | LEps e => mean_of F LO (eps_loss F LO e)
  end.

(** loss_functions.rs:43-63 [loss_to_cost]; [parsimony] already converted to [T]. *)
Definition loss_to_cost {T} (F : FloatOps T) (LO : LossOps T) (loss : T) (complexity : nat) (parsimony : T)
    (use_baseline : bool) (baseline : option T) : T :=
  let floor := lo_cent LO in
  let denom :=
    if use_baseline then
      match baseline with
      | Some b => if ffinite F b && fgeb F b floor then b else floor
      | None => floor
      end
    else floor in
  fadd F (fdiv F loss denom) (fmul F parsimony (lo_of_nat LO complexity)).

(** The evaluation-related fields of [Options]: loss, parsimony, use_baseline, and those of the complexity. *)
Record eval_cfg (T : Type) : Type := mkEvalCfg {
  ec_F : FloatOps T;
  ec_LO : LossOps T;
  ec_O : OpSet T;
  ec_hash : list pnode -> N;
  ec_umax : nat;
  ec_D : nat;
  ec_size : size_opts;
  ec_loss : lossfn T;
  ec_parsimony : T;
  ec_use_baseline : bool }.
Arguments mkEvalCfg {T}. Arguments ec_F {T}. Arguments ec_LO {T}. Arguments ec_O {T}. Arguments ec_hash {T}.
Arguments ec_umax {T}. Arguments ec_D {T}. Arguments ec_size {T}. Arguments ec_loss {T}. Arguments ec_parsimony {T}.
Arguments ec_use_baseline {T}.

(** pop_member.rs:40-56 [Evaluator]: the options are always check_finite and early_exit. *)
Record evaluator (T : Type) : Type := mkEvalr { ev_yhat : list T; ev_scratch : matrix T }.
Arguments mkEvalr {T}. Arguments ev_yhat {T}. Arguments ev_scratch {T}.
Definition ev_opts : eopts := mkOpts true true.
Definition evaluator_new {T} (F : FloatOps T) (n_rows : nat) : evaluator T :=
  mkEvalr (fill n_rows (fzero F)) (zeros F 0 0).
(** pop_member.rs:58-62 [ensure_n_rows]. *)
Definition ensure_n_rows {T} (F : FloatOps T) (ev : evaluator T) (n : nat) : evaluator T :=
  if List.length (ev_yhat ev) =? n then ev
  else mkEvalr (firstn n (ev_yhat ev) ++ fill (n - List.length (ev_yhat ev)) (fzero F)) (ev_scratch ev).

(** loss_functions.rs:15-41 [baseline_loss_from_zero_expression]; expression.rs [PostfixExpr::zero] is the
    single constant 0. *)
Definition zero_expr {T} (F : FloatOps T) : expr T := mkExpr [Const 0] [fzero F] [].
Definition baseline_loss {T} (C : eval_cfg T) (d : dataset T) : res (option T) :=
  let F := ec_F C in
  let e := zero_expr F in
  let! p := compile_plan (ec_hash C) (ec_D C) (nodes e) (ds_n_features d) (List.length (consts e)) in
  let! (_, yhat, ok) :=
    eval_plan_array_into F (ec_O C) (fill (ds_n_rows d) (fzero F)) p e (ds_x d) (zeros F 0 0) (mkOpts true true) in
  if negb ok then Ok None
  else
    let! base := lf_loss (ec_loss C) yhat (ds_y d) (ds_weights d) in
    Ok (if ffinite F base then Some base else None).

(** pop_member.rs:69-87 [from_expr]. *)
Definition from_expr {T} (C : eval_cfg T) (id : nat) (parent : option nat) (birth : nat) (e : expr T) (n_features : nat)
    : res (member T) :=
  let! p := compile_plan (ec_hash C) (ec_D C) (nodes e) n_features (List.length (consts e)) in
  Ok (mkMember id parent birth e p 0 (finf (ec_F C)) (finf (ec_F C))).

(** pop_member.rs:89-91 [rebuild_plan]. *)
Definition rebuild_plan {T} (C : eval_cfg T) (m : member T) (n_features : nat) : res (member T) :=
  let! p := compile_plan (ec_hash C) (ec_D C) (nodes (m_expr m)) n_features (List.length (consts (m_expr m))) in
  Ok (mkMember (m_id m) (m_parent m) (m_birth m) (m_expr m) p (m_complexity m) (m_loss m) (m_cost m)).

(** Assignment to the evaluation fields of a member. *)
Definition set_eval {T} (m : member T) (complexity : nat) (loss cost : T) : member T :=
  mkMember (m_id m) (m_parent m) (m_birth m) (m_expr m) (m_plan m) complexity loss cost.

(** pop_member.rs:93-136 [evaluate]: (member', evaluator', success). *)
Definition evaluate {T} (C : eval_cfg T) (m : member T) (d : dataset T) (baseline : option T) (ev : evaluator T)
    : res (member T * evaluator T * bool) :=
  let F := ec_F C in
  let! (sc, yhat, ok) :=
    eval_plan_array_into F (ec_O C) (ev_yhat ev) (m_plan m) (m_expr m) (ds_x d) (ev_scratch ev) ev_opts in
  let ev := mkEvalr yhat sc in
  let! c := compute_complexity (ec_umax C) (ec_D C) (ec_size C) (nodes (m_expr m)) in
  if negb ok then Ok (set_eval m c (finf F) (finf F), ev, false)
  else
    let! loss := lf_loss (ec_loss C) yhat (ds_y d) (ds_weights d) in
    if negb (ffinite F loss) then Ok (set_eval m c (finf F) (finf F), ev, false)
    else
      Ok (set_eval m c loss (loss_to_cost F (ec_LO C) loss c (ec_parsimony C) (ec_use_baseline C) baseline), ev, true).
