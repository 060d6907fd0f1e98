(** Model of the metrics of the web front end: web/wasm/src/lib.rs:361-528. [T] is f64. *)
From Verif Require Import Base Node Compile Eval Complexity Member Dataset Loss Search.

(** lib.rs:151-160 [WasmMetrics]. *)
Record metrics (T : Type) : Type := mkMetrics {
  mt_n : nat; mt_mse : T; mt_mae : T; mt_rmse : T; mt_r2 : T; mt_corr : T; mt_min_abs : T; mt_max_abs : T }.
Arguments mkMetrics {T}. Arguments mt_n {T}. Arguments mt_mse {T}. Arguments mt_mae {T}. Arguments mt_rmse {T}. Arguments mt_r2 {T}.
Arguments mt_corr {T}. Arguments mt_min_abs {T}. Arguments mt_max_abs {T}.

Section Metrics.
Context {T : Type} (F : FloatOps T) (LO : LossOps T).

(** The local variables of [compute_metrics] (lib.rs:405-409). *)
Record sums : Type := mkSums { sm_mse : T; sm_mae : T; sm_w : T; sm_min : T; sm_max : T }.

(** lib.rs:413-424: one row without weights. [zip_eq] panics when the lengths differ; the loop has no other effect, so the model checks the lengths first. *)
Definition row_plain (s : sums) (q : T * T) : sums :=
  let r := fsub F (fst q) (snd q) in
  let ar := lo_abs LO r in
  mkSums (fadd F (sm_mse s) (fmul F r r)) (fadd F (sm_mae s) ar) (sm_w s)
    (if fltb F ar (sm_min s) then ar else sm_min s) (if fgtb F ar (sm_max s) then ar else sm_max s).
(** lib.rs:431-443: one row with its weight. *)
Definition row_weighted (s : sums) (q : T * T * T) : sums :=
  let r := fsub F (fst (fst q)) (snd (fst q)) in
  let ar := lo_abs LO r in
  let wi := snd q in
  mkSums (fadd F (sm_mse s) (fmul F (fmul F wi r) r)) (fadd F (sm_mae s) (fmul F wi ar)) (fadd F (sm_w s) wi)
    (if fltb F ar (sm_min s) then ar else sm_min s) (if fgtb F ar (sm_max s) then ar else sm_max s).

(** lib.rs:475-527 [r2_and_corr]. *)
Definition r2_and_corr (yhat y : list T) (w : option (list T)) : res (T * T) :=
  if (match y with [] => true | _ => false end) || negb (List.length yhat =? List.length y) then Ok (fnan F, fnan F)
  else
    let! y_mean :=
      match w with
      | None => Ok (fdiv F (fsum F y) (lo_of_nat LO (List.length y)))
      | Some w =>
          let sum_w := fsum F w in
          if feqb F sum_w (fzero F) then Ok (fzero F)
          else let! z := zip_eq y w in Ok (fdiv F (fsum F (map (fun q => fmul F (fst q) (snd q)) z)) sum_w)
      end in
    let! z := zip_eq yhat y in
    let! (sse, sst) :=
      match w with
      | None =>
          Ok (fold_left (fun s q =>
                let r := fsub F (fst q) (snd q) in let d := fsub F (snd q) y_mean in
                (fadd F (fst s) (fmul F r r), fadd F (snd s) (fmul F d d))) z (fzero F, fzero F))
      | Some w =>
          let! zw := zip_eq z w in
          Ok (fold_left (fun s q =>
                let r := fsub F (fst (fst q)) (snd (fst q)) in let d := fsub F (snd (fst q)) y_mean in
                (fadd F (fst s) (fmul F (fmul F (snd q) r) r), fadd F (snd s) (fmul F (fmul F (snd q) d) d))) zw (fzero F, fzero F))
      end in
    let r2 := if feqb F sst (fzero F) then fzero F else fsub F (fone F) (fdiv F sse sst) in
    let yh_mean := fdiv F (fsum F yhat) (lo_of_nat LO (List.length yhat)) in
    let '(cov, vyh, vy) :=
      fold_left (fun s q =>
        let '(cov, vyh, vy) := s in
        let dyh := fsub F (fst q) yh_mean in let dy := fsub F (snd q) y_mean in
        (fadd F cov (fmul F dyh dy), fadd F vyh (fmul F dyh dyh), fadd F vy (fmul F dy dy))) z (fzero F, fzero F, fzero F) in
    let corr := if feqb F vy (fzero F) || feqb F vyh (fzero F) then fzero F else fdiv F cov (fmul F (lo_sqrt LO vy) (lo_sqrt LO vyh)) in
    Ok (r2, corr).

(** lib.rs:400-473 [compute_metrics]. *)
Definition compute_metrics (yhat y : list T) (w : option (list T)) : res (metrics T) :=
  let start := mkSums (fzero F) (fzero F) (fzero F) (finf F) (fzero F) in
  let! z := zip_eq yhat y in
  let! (mse, mae, s) :=
    match w with
    | None =>
        let s := fold_left row_plain z start in
        let n := lo_of_nat LO (List.length y) in
        Ok (if 0 <? List.length y then (fdiv F (sm_mse s) n, fdiv F (sm_mae s) n, s) else (sm_mse s, sm_mae s, s))
    | Some w =>
        let! zw := zip_eq z w in
        let s := fold_left row_weighted zw start in
        Ok (if fgtb F (sm_w s) (fzero F) then (fdiv F (sm_mse s) (sm_w s), fdiv F (sm_mae s) (sm_w s), s) else (fzero F, fzero F, s))
    end in
  let! (r2, corr) := r2_and_corr yhat y w in
  Ok (mkMetrics (List.length y) mse mae (lo_sqrt LO mse) r2 corr (if ffinite F (sm_min s) then sm_min s else fzero F) (sm_max s)).

(** lib.rs:376-398 [eval_member_on_dataset]: [None] is the error "evaluation failed". *)
Definition eval_member_on_dataset (O : OpSet T) (d : dataset T) (m : member T) : res (option (list T)) :=
  let! (_, yhat, ok) := eval_plan_array_into F O (fill (ds_n_rows d) (fzero F)) (m_plan m) (m_expr m) (ds_x d) (zeros F 0 0) (mkOpts true false) in
  Ok (if ok then Some yhat else None).

(** lib.rs:361-374 [find_member_by_id]. *)
Definition find_member_by_id (st : search_st T) (id : nat) : option (member T) :=
  match find (fun m => m_id m =? id) (hof_members (ss_hall st)) with
  | Some m => Some m
  | None => if m_id (ss_best st) =? id then Some (ss_best st) else None
  end.

(** lib.rs:246-249, 318-321: the last [k] members of the front. [Vec::drain] removes the range. *)
Definition last_of {A} (k : nat) (l : list A) : list A := if k <? List.length l then skipn (List.length l - k) l else l.

(** lib.rs:258-278 [evaluate_member], with the id parsed and the dataset chosen. *)
Definition evaluate_member (O : OpSet T) (st : search_st T) (d : dataset T) (id : nat) : res (option (metrics T * list T)) :=
  match find_member_by_id st id with
  | None => Ok None
  | Some m =>
      let! o := eval_member_on_dataset O d m in
      match o with
      | None => Ok None
      | Some yhat => let! mt := compute_metrics yhat (ds_y d) (ds_weights d) in Ok (Some (mt, yhat))
      end
  end.
End Metrics.
