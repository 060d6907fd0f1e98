(** Model of the optimisers of constants. symbolic_regression/src/optim.rs. [W] is f64. The objective is a
    state-passing function, because the real one writes the constants into an expression. *)
From Verif Require Import Base Node Compile Eval Dataset.

(** f64 functions and literals used only here: [abs], [sqrt], [max], [min]; 2, 3, 0.5, 1e-12, [f64::EPSILON], its
    square root, and [finite_max] of optim.rs:165 (52 for f64). *)
Record OptOps (W : Type) : Type := mkOptOps {
  oo_abs : W -> W;
  oo_sqrt : W -> W;
  oo_max : W -> W -> W;
  oo_min : W -> W -> W;
  oo_two : W;
  oo_three : W;
  oo_half : W;
  oo_tiny : W;
  oo_eps : W;
  oo_sqrt_eps : W;
  oo_finite_max : nat }.
Arguments mkOptOps {W}. Arguments oo_abs {W}. Arguments oo_sqrt {W}. Arguments oo_max {W}. Arguments oo_min {W}.
Arguments oo_two {W}. Arguments oo_three {W}. Arguments oo_half {W}. Arguments oo_tiny {W}. Arguments oo_eps {W}.
Arguments oo_sqrt_eps {W}. Arguments oo_finite_max {W}.

(** optim.rs:5-10 [OptimOptions]; 22-30 [BackTracking]. *)
Record optim_options (W : Type) : Type := mkOptim { oi_iterations : nat; oi_f_calls_limit : nat; oi_g_abstol : W }.
Arguments mkOptim {W}. Arguments oi_iterations {W}. Arguments oi_f_calls_limit {W}. Arguments oi_g_abstol {W}.
Record backtracking (W : Type) : Type := mkBT {
  bt_c1 : W; bt_rho_hi : W; bt_rho_lo : W; bt_iterations : nat; bt_order : nat; bt_maxstep : W }.
Arguments mkBT {W}. Arguments bt_c1 {W}. Arguments bt_rho_hi {W}. Arguments bt_rho_lo {W}. Arguments bt_iterations {W}.
Arguments bt_order {W}. Arguments bt_maxstep {W}.

(** optim.rs:49-54 [OptimResult]. *)
Record optim_result (W : Type) : Type := mkResult { or_minimizer : list W; or_minimum : W; or_f_calls : nat }.
Arguments mkResult {W}. Arguments or_minimizer {W}. Arguments or_minimum {W}. Arguments or_f_calls {W}.

(** optim.rs:56-59 [Objective]. Every call adds one to [budget.f_calls], as its only implementation does
    (constant_optimization.rs:167-186); the callers below count. *)
Record objective (St W : Type) : Type := mkObj {
  ob_f : St -> list W -> res (St * option W);
  ob_fg : St -> list W -> res (St * option (W * list W)) }.
Arguments mkObj {St W}. Arguments ob_f {St W}. Arguments ob_fg {St W}.

Section Optim.
Context {St W : Type} (F : FloatOps W) (OO : OptOps W).

(** optim.rs:61-63 [inf_norm]. *)
Definition inf_norm (v : list W) : W := fold_left (oo_max OO) (map (oo_abs OO) v) (fzero F).

(** optim.rs:65-67 [dot]; [sum] of floats starts from zero. *)
Definition dot (a b : list W) : res W :=
  let! z := zip_eq a b in Ok (fsum F (map (fun p => fmul F (fst p) (snd p)) z)).

(** optim.rs:69-73 [axpy_into], giving the new vector; [out] has the length of [x]. *)
Definition axpy (x : list W) (alpha : W) (s : list W) : res (list W) :=
  let! z := zip_eq x s in Ok (map (fun p => fadd F (fst p) (fmul F alpha (snd p))) z).

(** optim.rs:75-90 [matvec]. *)
Definition matvec (a x : list W) : res (list W) :=
  let n := List.length x in
  mapM (fun i => let! row := slice a (i * n) n in dot row x) (seq 0 n).

(** optim.rs:92-99 [quadratic_step]. *)
Definition quadratic_step (alpha phi phi0 dphi0 : W) : option W :=
  let denom := fmul F (oo_two OO) (fsub F (fsub F phi phi0) (fmul F dphi0 alpha)) in
  if negb (ffinite F denom) || feqb F denom (fzero F) then None
  else
    let out := fdiv F (fneg F (fmul F (fmul F dphi0 alpha) alpha)) denom in
    if ffinite F out then Some out else None.

(** optim.rs:101-127 [cubic_step]. *)
Definition cubic_step (alpha1 phi1 alpha2 phi2 phi0 dphi0 : W) : option W :=
  let d1 := fsub F (fsub F phi1 phi0) (fmul F dphi0 alpha1) in
  let d2 := fsub F (fsub F phi2 phi0) (fmul F dphi0 alpha2) in
  let denom := fmul F (fmul F (fmul F (fmul F alpha1 alpha1) alpha2) alpha2) (fsub F alpha2 alpha1) in
  if negb (ffinite F denom) || feqb F denom (fzero F) then None
  else
    let a := fdiv F (fsub F (fmul F (fmul F alpha1 alpha1) d2) (fmul F (fmul F alpha2 alpha2) d1)) denom in
    let b := fdiv F (fadd F (fmul F (fmul F (fmul F (fneg F alpha1) alpha1) alpha1) d2)
                            (fmul F (fmul F (fmul F alpha2 alpha2) alpha2) d1)) denom in
    if negb (ffinite F a) || negb (ffinite F b) then None
    else if fleb F (oo_abs OO a) (oo_eps OO) then
      let denom_b := fmul F (oo_two OO) b in
      if feqb F denom_b (fzero F) || negb (ffinite F denom_b) then None
      else let out := fdiv F (fneg F dphi0) denom_b in if ffinite F out then Some out else None
    else
      let disc := oo_max OO (fsub F (fmul F b b) (fmul F (fmul F (oo_three OO) a) dphi0)) (fzero F) in
      let out := fdiv F (fadd F (fneg F b) (oo_sqrt OO disc)) (fmul F (oo_three OO) a) in
      if ffinite F out then Some out else None.

(** optim.rs:169-189: halve until the objective is finite: (state, alpha, value, point). *)
Fixpoint halve {S} (phi_at : S -> list W -> res (S * option W)) (x s : list W) (k : nat) (st : S) (a : W) (last : option W)
    (x_new : list W) : res (S * W * option W * list W) :=
  match k with
  | 0 => Ok (st, a, last, x_new)
  | S k' =>
      let! x_new := axpy x a s in
      let! (st, ok) := phi_at st x_new in
      if match ok with Some v => ffinite F v | None => false end then Ok (st, a, ok, x_new)
      else
        let a := fmul F a (oo_half OO) in
        if fleb F a (fzero F) then Ok (st, a, None, x_new) else halve phi_at x s k' st a ok x_new
  end.

(** optim.rs:193-228: the Armijo loop, [k] iterations remaining, [first] in the first one. *)
Fixpoint armijo_loop {S} (phi_at : S -> list W -> res (S * option W)) (ls : backtracking W) (x s : list W) (phi0 dphi0 : W)
    (k : nat) (first : bool) (st : S) (alpha phi_alpha alpha_prev : W) (phi_prev : option W) (x_new : list W)
    : res (S * option (W * W * list W)) :=
  match k with
  | 0 => Ok (st, None)
  | S k' =>
      if fleb F phi_alpha (fadd F phi0 (fmul F (fmul F (bt_c1 ls) alpha) dphi0)) then Ok (st, Some (alpha, phi_alpha, x_new))
      else
        let step :=
          if first || (bt_order ls <? 3) then quadratic_step alpha phi_alpha phi0 dphi0
          else
            match phi_prev with
            | Some pv => cubic_step alpha phi_alpha alpha_prev pv phi0 dphi0
            | None => quadratic_step alpha phi_alpha phi0 dphi0
            end in
        let alpha_tmp := match step with Some v => v | None => fmul F alpha (oo_half OO) end in
        let lo := fmul F (bt_rho_lo ls) alpha in
        let hi := fmul F (bt_rho_hi ls) alpha in
        let alpha_tmp := if fgtb F alpha_tmp hi then hi else alpha_tmp in
        let alpha_tmp := if fltb F alpha_tmp lo then lo else alpha_tmp in
        if negb (ffinite F alpha_tmp) || fleb F alpha_tmp (fzero F) then Ok (st, None)
        else
          let! x_new := axpy x alpha_tmp s in
          let! (st, v) := phi_at st x_new in
          match v with
          | None => Ok (st, None)
          | Some phi_new =>
              if negb (ffinite F phi_new) then Ok (st, None)
              else armijo_loop phi_at ls x s phi0 dphi0 k' false st alpha_tmp phi_new alpha (Some phi_alpha) x_new
          end
  end.

(** optim.rs:138-231 [backtracking_linesearch]: (alpha, phi(alpha), x + alpha s). *)
Definition linesearch {S} (phi_at : S -> list W -> res (S * option W)) (ls : backtracking W) (x s : list W) (alpha0 phi0 dphi0 : W)
    (st : S) : res (S * option (W * W * list W)) :=
  if negb (ffinite F alpha0) || fleb F alpha0 (fzero F) then Ok (st, None)
  else
    let alpha :=
      if ffinite F (bt_maxstep ls) then
        let step_norm := inf_norm s in
        if fgtb F step_norm (fzero F) then oo_min OO alpha0 (fdiv F (bt_maxstep ls) step_norm) else alpha0
      else alpha0 in
    let! (st, a, ok, x_new) := halve phi_at x s (oo_finite_max OO) st alpha None [] in
    match ok with
    | None => Ok (st, None)
    | Some phi_alpha =>
        if negb (ffinite F phi_alpha) then Ok (st, None)
        else armijo_loop phi_at ls x s phi0 dphi0 (bt_iterations ls) true st a phi_alpha alpha None x_new
    end.

(** optim.rs:284-290, 420-426: the objective under the call budget; the state is paired with [budget.f_calls]. *)
Definition budgeted (obj : objective St W) (limit : nat) (st : St * nat) (x : list W) : res (St * nat * option W) :=
  let '(s, calls) := st in
  if negb (limit =? 0) && (limit <=? calls) then Ok (s, calls, None)
  else
    let! (s, v) := ob_f obj s x in
    Ok (s, S calls, match v with Some v => if ffinite F v then Some v else None | None => None end).

(** optim.rs:246-249, 271-274: the identity matrix. *)
Definition identity (n : nat) : list W :=
  flat_map (fun i => map (fun j => if i =? j then fone F else fzero F) (seq 0 n)) (seq 0 n).

(** optim.rs:333-352: the update of the inverse Hessian and its symmetrisation (every pair of mirrored entries is
    replaced by its mean; pairs are disjoint, so the order of the loops does not matter). *)
Definition bfgs_update (n : nat) (inv_h dx u : list W) (c1 c2 : W) : res (list W) :=
  let! h := mapM (fun p =>
      let '(i, j) := p in
      let! h := index inv_h (i * n + j) in
      let! dxi := index dx i in
      let! dxj := index dx j in
      let! ui := index u i in
      let! uj := index u j in
      Ok (fadd F h (fsub F (fmul F (fmul F c1 dxi) dxj) (fmul F c2 (fadd F (fmul F ui dxj) (fmul F dxi uj))))))
    (flat_map (fun i => map (fun j => (i, j)) (seq 0 n)) (seq 0 n)) in
  mapM (fun p =>
      let '(i, j) := p in
      if i =? j then index h (i * n + j)
      else
        let! a := index h (Nat.min i j * n + Nat.max i j) in
        let! b := index h (Nat.max i j * n + Nat.min i j) in
        Ok (fmul F (oo_half OO) (fadd F a b)))
    (flat_map (fun i => map (fun j => (i, j)) (seq 0 n)) (seq 0 n)).

Definition sub_vec (a b : list W) : res (list W) :=
  let! z := zip_eq a b in Ok (map (fun p => fsub F (fst p) (snd p)) z).

(** optim.rs:256-361: the main loop, [k] iterations remaining. *)
Fixpoint bfgs_loop (obj : objective St W) (opts : optim_options W) (ls : backtracking W) (n k : nat)
    (st : St * nat) (x g inv_h : list W) (fx : W) : res (St * nat * option (optim_result W)) :=
  let finish := Ok (st, Some (mkResult x fx (snd st))) in
  match k with
  | 0 => finish
  | S k' =>
      if negb (oi_f_calls_limit opts =? 0) && (oi_f_calls_limit opts <=? snd st) then finish
      else
        let g_inf := inf_norm g in
        if negb (ffinite F g_inf) || fleb F g_inf (oi_g_abstol opts) then finish
        else
          let! hg := matvec inv_h g in
          let s := map (fneg F) hg in
          let! d := dot g s in
          let! (inv_h, s, dphi0) :=
            if negb (ffinite F d) || fgeb F d (fzero F) then
              let s := map (fneg F) g in
              let! d := dot g s in Ok (identity n, s, d)
            else Ok (inv_h, s, d) in
          if negb (ffinite F dphi0) || fgeb F dphi0 (fzero F) then finish
          else
            let! (st, r) := linesearch (budgeted obj (oi_f_calls_limit opts)) ls x s (fone F) fx dphi0 st in
            match r with
            | None => Ok (st, None)
            | Some (_, _, x_new) =>
                let! (s1, v) := ob_fg obj (fst st) x_new in
                let st := (s1, S (snd st)) in
                match v with
                | None => Ok (st, None)
                | Some (fx_new, g_new) =>
                    if negb (ffinite F fx_new) then Ok (st, Some (mkResult x_new fx_new (snd st)))
                    else
                      let! dx := sub_vec x_new x in
                      let! dg := sub_vec g_new g in
                      let! dx_dg := dot dx dg in
                      if negb (ffinite F dx_dg && fgtb F dx_dg (oo_tiny OO))
                      then bfgs_loop obj opts ls n k' st x_new g_new (identity n) fx_new
                      else if fgtb F dx_dg (fzero F) then
                        let! u := matvec inv_h dg in
                        let! dg_u := dot dg u in
                        if ffinite F dg_u then
                          let c1 := fdiv F (fadd F dx_dg dg_u) (fmul F dx_dg dx_dg) in
                          let c2 := fdiv F (fone F) dx_dg in
                          let! h := bfgs_update n inv_h dx u c1 c2 in
                          bfgs_loop obj opts ls n k' st x_new g_new h fx_new
                        else bfgs_loop obj opts ls n k' st x_new g_new inv_h fx_new
                      else bfgs_loop obj opts ls n k' st x_new g_new inv_h fx_new
                end
            end
  end.

(** optim.rs:233-368 [bfgs_minimize]. *)
Definition bfgs_minimize (obj : objective St W) (opts : optim_options W) (ls : backtracking W) (st : St) (x0 : list W)
    : res (St * nat * option (optim_result W)) :=
  let n := List.length x0 in
  let! (s, v) := ob_fg obj st x0 in
  match v with
  | None => Ok (s, 1, None)
  | Some (fx, g) =>
      if negb (ffinite F fx) then Ok (s, 1, None)
      else bfgs_loop obj opts ls n (oi_iterations opts) (s, 1) x0 g (identity n) fx
  end.

(** optim.rs:382-449: the loop of [newton_1d_minimize], [k] iterations remaining. *)
Fixpoint newton_loop (obj : objective St W) (opts : optim_options W) (ls : backtracking W) (k : nat)
    (st : St * nat) (x best_x best_f : W) : res (St * nat * option (optim_result W)) :=
  match k with
  | 0 => Ok (st, Some (mkResult [best_x] best_f (snd st)))
  | S k' =>
      if negb (oi_f_calls_limit opts =? 0) && (oi_f_calls_limit opts <=? snd st)
      then Ok (st, Some (mkResult [best_x] best_f (snd st)))
      else
        let! (s1, v) := ob_fg obj (fst st) [x] in
        let st := (s1, S (snd st)) in
        match v with
        | None => Ok (st, None)
        | Some (f, gv) =>
            let! g := index gv 0 in
            if negb (ffinite F f) || negb (ffinite F g) then Ok (st, None)
            else
              let best_x := if fltb F f best_f then x else best_x in
              let best_f := if fltb F f best_f then f else best_f in
              if fleb F (oo_abs OO g) (oi_g_abstol opts) then Ok (st, Some (mkResult [best_x] best_f (snd st)))
              else
                let eps := fmul F (oo_sqrt_eps OO) (fadd F (oo_abs OO x) (fone F)) in
                let! (s2, vp) := ob_fg obj (fst st) [fadd F x eps] in
                let st := (s2, S (snd st)) in
                match vp with
                | None => Ok (st, None)
                | Some (_, gp) =>
                    let! g_plus := index gp 0 in
                    let! (s3, vm) := ob_fg obj (fst st) [fsub F x eps] in
                    let st := (s3, S (snd st)) in
                    match vm with
                    | None => Ok (st, None)
                    | Some (_, gm) =>
                        let! g_minus := index gm 0 in
                        let h := fdiv F (fsub F g_plus g_minus) (fmul F (oo_two OO) eps) in
                        let h_mod := oo_max OO (oo_abs OO h) (oo_tiny OO) in
                        let h_mod := if ffinite F h_mod then h_mod else oo_tiny OO in
                        let s := fdiv F (fneg F g) h_mod in
                        let d := fmul F g s in
                        let '(s, dphi0) :=
                          if negb (ffinite F d) || fgeb F d (fzero F)
                          then (fneg F g, fmul F g (fneg F g)) else (s, d) in
                        if negb (ffinite F dphi0) || fgeb F dphi0 (fzero F)
                        then Ok (st, Some (mkResult [best_x] best_f (snd st)))
                        else
                          let! (st, r) := linesearch (budgeted obj (oi_f_calls_limit opts)) ls [x] [s] (fone F) f dphi0 st in
                          match r with
                          | None => Ok (st, None)
                          | Some (alpha, _, _) => newton_loop obj opts ls k' st (fadd F x (fmul F alpha s)) best_x best_f
                          end
                    end
                end
        end
  end.

(** optim.rs:370-456 [newton_1d_minimize]. *)
Definition newton_1d_minimize (obj : objective St W) (opts : optim_options W) (ls : backtracking W) (st : St) (x0 : W)
    : res (St * nat * option (optim_result W)) :=
  newton_loop obj opts ls (oi_iterations opts) (st, 0) x0 x0 (finf F).
End Optim.
