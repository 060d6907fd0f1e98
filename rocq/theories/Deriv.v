(** Model of forward derivatives and gradients.
    dynamic_expressions/src/evaluate_derivative.rs, the derivative kernels of evaluate.rs, dispatch.rs. *)
From Verif Require Import Base Node Compile Eval.

(** evaluate.rs:114-144 [resolve_der_src]. *)
Definition resolve_der_src {T} (F : FloatOps T) (s : src) (direction dst : nat)
    (before after : list T) (n_rows : nat) : res (srcref T) :=
  match s with
  | SVar f => Ok (RConst (if f =? direction then fone F else fzero F))
  | SConst _ => Ok (RConst (fzero F))
  | SSlot k =>
      if k <? dst then let! v := slice before (k * n_rows) n_rows in Ok (RSlice v)
      else if dst <? k then let! v := slice after ((k - dst - 1) * n_rows) n_rows in Ok (RSlice v)
      else Panic
  end.

(** dispatch.rs:11-19 [GradRef]. *)
Inductive gradref (T : Type) : Type :=
| GSlice (s : list T)
| GBasis (k : nat)
| GZero.
Arguments GSlice {T}. Arguments GBasis {T}. Arguments GZero {T}.

(** evaluate.rs:146-182 [resolve_grad_src]. *)
Definition resolve_grad_src {T} (s : src) (variable : bool) (dst : nat)
    (before after : list T) (stride : nat) : res (gradref T) :=
  match s with
  | SVar f => Ok (if variable then GBasis f else GZero)
  | SConst c => Ok (if variable then GZero else GBasis c)
  | SSlot k =>
      if k <? dst then let! v := slice before (k * stride) stride in Ok (GSlice v)
      else if dst <? k then let! v := slice after ((k - dst - 1) * stride) stride in Ok (GSlice v)
      else Panic
  end.

(** dispatch.rs:22-34 [grad_at]. *)
Definition grad_at {T} (F : FloatOps T) (g : gradref T) (dir row n_rows : nat) : res T :=
  match g with
  | GSlice s => index s (dir * n_rows + row)
  | GBasis k => Ok (if dir =? k then fone F else fzero F)
  | GZero => Ok (fzero F)
  end.

(** evaluate.rs:373-379 [grad_dir_view]. *)
Definition grad_dir_view {T} (F : FloatOps T) (g : gradref T) (dir n_rows : nat) : res (srcref T) :=
  match g with
  | GSlice s => let! v := slice s (dir * n_rows) n_rows in Ok (RSlice v)
  | GBasis k => Ok (RConst (if dir =? k then fone F else fzero F))
  | GZero => Ok (RConst (fzero F))
  end.

(** evaluate.rs:382-407 [grad_unary_loop]; [n] is [out.len()], [p vals j] is [Op::partial]. *)
Definition grad_unary_loop {T} (F : FloatOps T) (n : nat) (x dx : srcref T) (p : list T -> nat -> T)
    : res (list T) :=
  let shortcut := match dx with RConst c => fis_zero F c | RSlice _ => false end in
  if shortcut then Ok (fill n (fzero F))
  else
    match x, dx with
    | RSlice xs, RSlice dxs =>
        if (n =? List.length xs) && (n =? List.length dxs)
        then Ok (map (fun q => fmul F (p [fst q] 0) (snd q)) (combine xs dxs)) else Panic
    | RSlice xs, RConst dc =>
        if n =? List.length xs then Ok (map (fun a => fmul F (p [a] 0) dc) xs) else Panic
    | RConst xc, RConst dc => Ok (fill n (fmul F (p [xc] 0) dc))
    | RConst _, RSlice _ => Panic (* unreachable!("malformed expression") *)
    end.

(** The scalar body shared by all arms of evaluate.rs:410-480. *)
Definition bin_body {T} (F : FloatOps T) (p : list T -> nat -> T) (a b da db : T) : T :=
  fadd F (fmul F (p [a; b] 0) da) (fmul F (p [a; b] 1) db).

(** evaluate.rs:410-480 [grad_binary_loop]. *)
Definition grad_binary_loop {T} (F : FloatOps T) (n : nat) (x y dx dy : srcref T) (p : list T -> nat -> T)
    : res (list T) :=
  let body := bin_body F p in
  match x, y, dx, dy with
  | RSlice xs, RSlice ys, RSlice dxs, RSlice dys =>
      let! xy := zip_eq xs ys in
      let! dxy := zip_eq dxs dys in
      let! z := zip_eq xy dxy in
      if n =? List.length z
      then Ok (map (fun q => body (fst (fst q)) (snd (fst q)) (fst (snd q)) (snd (snd q))) z) else Panic
  | RSlice xs, RSlice ys, RSlice dxs, RConst dyc =>
      let! xy := zip_eq xs ys in
      let! z := zip_eq xy dxs in
      if n =? List.length z
      then Ok (map (fun q => body (fst (fst q)) (snd (fst q)) (snd q) dyc) z) else Panic
  | RSlice xs, RSlice ys, RConst dxc, RSlice dys =>
      let! xy := zip_eq xs ys in
      let! z := zip_eq xy dys in
      if n =? List.length z
      then Ok (map (fun q => body (fst (fst q)) (snd (fst q)) dxc (snd q)) z) else Panic
  | RSlice xs, RSlice ys, RConst dxc, RConst dyc =>
      let! z := zip_eq xs ys in
      if n =? List.length z then Ok (map (fun q => body (fst q) (snd q) dxc dyc) z) else Panic
  | RSlice xs, RConst yc, RSlice dxs, RConst dyc =>
      let! z := zip_eq xs dxs in
      if n =? List.length z then Ok (map (fun q => body (fst q) yc (snd q) dyc) z) else Panic
  | RSlice xs, RConst yc, RConst dxc, RConst dyc =>
      if n =? List.length xs then Ok (map (fun a => body a yc dxc dyc) xs) else Panic
  | RConst xc, RSlice ys, RConst dxc, RSlice dys =>
      let! z := zip_eq ys dys in
      if n =? List.length z then Ok (map (fun q => body xc (fst q) dxc (snd q)) z) else Panic
  | RConst xc, RSlice ys, RConst dxc, RConst dyc =>
      if n =? List.length ys then Ok (map (fun b => body xc b dxc dyc) ys) else Panic
  | RConst xc, RConst yc, RConst dxc, RConst dyc => Ok (fill n (body xc yc dxc dyc))
  | _, _, _, _ => Panic (* unreachable!("malformed expression") *)
  end.

(** evaluate.rs:628-631 and 718-721: [let mut g = zero; for (j, d) in .. { g += partial(vals, j) * d }]. *)
Definition dot_partials {T} (F : FloatOps T) (p : list T -> nat -> T) (vals ds : list T) : T :=
  fold_left (fun g jd => fadd F g (fmul F (p vals (fst jd)) (snd jd)))
            (combine (seq 0 (List.length ds)) ds) (fzero F).

(** evaluate.rs:615-645: the row loop of [diff_nary] for [A >= 3]; [None] is the early return. *)
Fixpoint diff_rows_loop {T} (F : FloatOps T) (f : list T -> T) (p : list T -> nat -> T)
    (views dviews : list (srcref T)) (o : eopts) (row k : nat) (accv accd : list T) (complete : bool)
    : res (option (list T * list T * bool)) :=
  match k with
  | 0 => Ok (Some (accv, accd, complete))
  | S k' =>
      let! vals := mapM (fun v => view_get v row) views in
      let! dvals := mapM (fun v => view_get v row) dviews in
      let v := f vals in
      let d := dot_partials F p vals dvals in
      let (go1, complete) := maybe_mark_nonfinite F v o complete in
      if negb go1 then Ok None else
      let (go2, complete) := maybe_mark_nonfinite F d o complete in
      if negb go2 then Ok None else
      diff_rows_loop F f p views dviews o (S row) k' (accv ++ [v]) (accd ++ [d]) complete
  end.

(** evaluate.rs:647-657: tail of [diff_nary]. *)
Definition finish_diff {T} (F : FloatOps T) (o : eopts) (ov od : list T) (complete : bool)
    : list T * list T * bool :=
  if check_finite o then
    let finite := forallb (ffinite F) ov in
    if negb finite && early_exit o
    then (fill (List.length ov) (fnan F), fill (List.length od) (fnan F), false)
    else (ov, od, complete && finite)
  else (ov, od, complete).

(** evaluate.rs:585-658 [kernels::diff_nary]; [n] is the length of both output slices. *)
Definition diff_nary {T} (F : FloatOps T) (A : nat) (f : list T -> T) (p : list T -> nat -> T) (n : nat)
    (args dargs : list (srcref T)) (o : eopts) : res (list T * list T * bool) :=
  let! _ := assert_ (List.length args =? A) in
  let! _ := assert_ (List.length dargs =? A) in
  if A =? 1 then
    let! x := index args 0 in
    let! dx := index dargs 0 in
    let! ov := eval_unary_loop n x (fun a => f [a]) in
    let! od := grad_unary_loop F n x dx p in
    Ok (finish_diff F o ov od true)
  else if A =? 2 then
    let! x := index args 0 in
    let! y := index args 1 in
    let! dx := index dargs 0 in
    let! dy := index dargs 1 in
    let! ov := eval_binary_loop n x y (fun a b => f [a; b]) in
    let! od := grad_binary_loop F n x y dx dy p in
    Ok (finish_diff F o ov od true)
  else
    let! r := diff_rows_loop F f p args dargs o 0 n [] [] true in
    match r with
    | None => Ok (fill n (fnan F), fill n (fnan F), false)
    | Some (ov, od, complete) => Ok (finish_diff F o ov od complete)
    end.

(** evaluate_derivative.rs:143-187: one instruction on the pair (values, derivatives). *)
Definition diff_instr {T} (F : FloatOps T) (O : OpSet T) (x : list T) (n_rows : nat) (cs : list T)
    (direction : nat) (o : eopts) (m : list T * list T) (i : instr) : res ((list T * list T) * bool) :=
  let (vs, ds) := m in
  let dst := i_dst i in
  let! (vb, vrest) := split_at vs (dst * n_rows) in
  let! (vdst, va) := split_at vrest n_rows in
  let! (db, drest) := split_at ds (dst * n_rows) in
  let! (ddst, da) := split_at drest n_rows in
  let args := firstn (i_arity i) (i_args i) in
  let! av := mapM (fun s => resolve_val_src s x n_rows cs dst vb va) args in
  let! dv := mapM (fun s => resolve_der_src F s direction dst db da n_rows) args in
  let! _ := assert_ (oknown O (i_arity i) (i_op i)) in
  let! (ov, od, ok) := diff_nary F (i_arity i) (oeval O (i_arity i) (i_op i))
                          (opartial O (i_arity i) (i_op i)) (List.length vdst) av dv o in
  Ok ((vb ++ ov ++ va, db ++ od ++ da), ok).

(** The instruction loop shared by evaluate_derivative.rs:143-192 and 273-324: stop at the first
    instruction that is not ok when early exit is on ([None]). *)
Fixpoint run_instrs {M} (step : M -> instr -> res (M * bool)) (early : bool) (is : list instr)
    (m : M) (complete : bool) : res (M * option bool) :=
  match is with
  | [] => Ok (m, Some complete)
  | i :: is' =>
      let! (m', ok) := step m i in
      if early && negb ok then Ok (m', None)
      else run_instrs step early is' m' (complete && ok)
  end.

(** evaluate_derivative.rs:13-21 [DiffContext] and 47-55 [GradContext]: same fields, the second
    scratch holding derivatives or gradients. *)
Record dctx (T : Type) : Type := mkDctx {
  d_val : matrix T;
  d_der : matrix T;
  d_rows : nat;
  d_plan : option plan;
  d_nodes_len : nat;
  d_n_consts : nat;
  d_n_features : nat
}.
Arguments mkDctx {T}. Arguments d_val {T}. Arguments d_der {T}. Arguments d_rows {T}. Arguments d_plan {T}.
Arguments d_nodes_len {T}. Arguments d_n_consts {T}. Arguments d_n_features {T}.

(** evaluate_derivative.rs:24-34, 58-68 [new]. *)
Definition dctx_new {T} (F : FloatOps T) (n_rows : nat) : dctx T :=
  mkDctx (zeros F 0 0) (zeros F 0 0) n_rows None 0 0 0.

(** evaluate_derivative.rs:36-43 and 70-78 [ensure_scratch]; [width] is the row length of the second
    scratch ([n_rows], resp. [n_dir * n_rows]). *)
Definition densure {T} (F : FloatOps T) (c : dctx T) (n_slots width : nat) : dctx T :=
  let v := if negb (m_nrows (d_val c) =? n_slots) || negb (m_ncols (d_val c) =? d_rows c)
           then zeros F n_slots (d_rows c) else d_val c in
  let d := if negb (m_nrows (d_der c) =? n_slots) || negb (m_ncols (d_der c) =? width)
           then zeros F n_slots width else d_der c in
  mkDctx v d (d_rows c) (d_plan c) (d_nodes_len c) (d_n_consts c) (d_n_features c).

(** evaluate_derivative.rs:117-129 and 245-258: recompile when the recorded shape or hash differs. *)
Definition dsetup {T} (F : FloatOps T) (hash : list pnode -> N) (D : nat) (c : dctx T) (e : expr T)
    (n_features width : nat) : res (dctx T * plan) :=
  let stale :=
    negb (d_nodes_len c =? List.length (nodes e)) || negb (d_n_consts c =? List.length (consts e))
    || negb (d_n_features c =? n_features)
    || match d_plan c with None => true | Some p => negb (p_hash p =? hash (nodes e))%N end in
  let! c :=
    if stale then
      let! p := compile_plan hash D (nodes e) n_features (List.length (consts e)) in
      Ok (mkDctx (d_val c) (d_der c) (d_rows c) (Some p) (List.length (nodes e)) (List.length (consts e)) n_features)
    else Ok c in
  let! p := expect (d_plan c) in
  Ok (densure F c (p_slots p) width, p).

Definition dctx_with {T} (c : dctx T) (v d : list T) : dctx T :=
  mkDctx (mkMat v (m_nrows (d_val c)) (m_ncols (d_val c))) (mkMat d (m_nrows (d_der c)) (m_ncols (d_der c)))
         (d_rows c) (d_plan c) (d_nodes_len c) (d_n_consts c) (d_n_features c).

(** evaluate_derivative.rs:100-226 [eval_diff_tree_array]. *)
Definition eval_diff_tree_array {T} (F : FloatOps T) (O : OpSet T) (hash : list pnode -> N) (D : nat)
    (e : expr T) (X : matrix T) (direction : nat) (c : dctx T) (o : eopts)
    : res (dctx T * (list T * list T * bool)) :=
  let! _ := assert_ (direction <? m_nrows X) in
  let! _ := assert_ (d_rows c =? m_ncols X) in
  let n_rows := m_ncols X in
  let! (c, p) := dsetup F hash D c e (m_nrows X) (d_rows c) in
  let! (m, st) := run_instrs (diff_instr F O (m_data X) n_rows (consts e) direction o) (early_exit o)
                    (p_instrs p) (m_data (d_val c), m_data (d_der c)) true in
  let c' := dctx_with c (fst m) (snd m) in
  let nans := fill n_rows (fnan F) in
  match st with
  | None => Ok (c', (nans, nans, false))
  | Some complete =>
      match p_root p with
      | SVar f =>
          let! v := slice (m_data X) (f * n_rows) n_rows in
          Ok (c', (v, fill n_rows (if f =? direction then fone F else fzero F), complete))
      | SConst k =>
          let! v := index (consts e) k in
          if check_finite o && negb (ffinite F v) then
            if early_exit o then Ok (c', (nans, nans, false))
            else Ok (c', (fill n_rows v, fill n_rows (fzero F), false))
          else Ok (c', (fill n_rows v, fill n_rows (fzero F), complete))
      | SSlot s =>
          let! v := slice (fst m) (s * n_rows) n_rows in
          let! d := slice (snd m) (s * n_rows) n_rows in
          Ok (c', (v, d, complete))
      end
  end.

(** evaluate.rs:676-680: directions of a unary operator. *)
Definition grad_dirs_unary {T} (F : FloatOps T) (n_dir n_rows : nat) (x : srcref T) (dx : gradref T)
    (p : list T -> nat -> T) : res (list (list T)) :=
  mapM (fun dir => let! d := grad_dir_view F dx dir n_rows in grad_unary_loop F n_rows x d p) (seq 0 n_dir).

(** evaluate.rs:692-702: directions of a binary operator. *)
Definition grad_dirs_binary {T} (F : FloatOps T) (n_dir n_rows : nat) (x y : srcref T) (dx dy : gradref T)
    (p : list T -> nat -> T) : res (list (list T)) :=
  mapM (fun dir =>
          let! a := grad_dir_view F dx dir n_rows in
          let! b := grad_dir_view F dy dir n_rows in
          let both0 := match a, b with
                       | RConst u, RConst v => fis_zero F u && fis_zero F v
                       | _, _ => false
                       end in
          if both0 then Ok (fill n_rows (fzero F))
          else grad_binary_loop F n_rows x y a b p) (seq 0 n_dir).

(** evaluate.rs:706-711: value loop for [A >= 3]. *)
Definition grad_vals_loop {T} (f : list T -> T) (n_rows : nat) (views : list (srcref T)) : res (list T) :=
  mapM (fun row => let! vals := mapM (fun v => view_get v row) views in Ok (f vals)) (seq 0 n_rows).

(** evaluate.rs:713-724: gradient loop for [A >= 3]. [chunks_mut(0)] panics. *)
Definition grad_dirs_nary {T} (F : FloatOps T) (n_dir n_rows : nat) (views : list (srcref T))
    (grads : list (gradref T)) (p : list T -> nat -> T) : res (list (list T)) :=
  let! _ := assert_ (1 <=? n_rows) in
  mapM (fun dir =>
          mapM (fun row =>
                  let! vals := mapM (fun v => view_get v row) views in
                  let! ds := mapM (fun g => grad_at F g dir row n_rows) grads in
                  Ok (dot_partials F p vals ds)) (seq 0 n_rows)) (seq 0 n_dir).

(** evaluate.rs:660-738 [kernels::grad_nary]; the per-direction results are laid out one after the
    other, [out_grad[dir*n_rows + row]]. The kernel writes into a slice of [n_dir * n_rows] scalars. *)
Definition grad_nary {T} (F : FloatOps T) (A : nat) (f : list T -> T) (p : list T -> nat -> T)
    (n_dir n_rows : nat) (args : list (srcref T)) (grads : list (gradref T)) (o : eopts)
    : res (list T * list T * bool) :=
  let! _ := assert_ (List.length args =? A) in
  let! _ := assert_ (List.length grads =? A) in
  let! (ov, og) :=
    (if A =? 1 then
      let! x := index args 0 in
      let! dx := index grads 0 in
      let! ov := eval_unary_loop n_rows x (fun a => f [a]) in
      let! og := grad_dirs_unary F n_dir n_rows x dx p in
      Ok (ov, og)
    else if A =? 2 then
      let! x := index args 0 in
      let! y := index args 1 in
      let! dx := index grads 0 in
      let! dy := index grads 1 in
      let! ov := eval_binary_loop n_rows x y (fun a b => f [a; b]) in
      let! og := grad_dirs_binary F n_dir n_rows x y dx dy p in
      Ok (ov, og)
    else
      let! ov := grad_vals_loop f n_rows args in
      let! og := grad_dirs_nary F n_dir n_rows args grads p in
      Ok (ov, og)) in
  let og := List.concat og in
  if check_finite o then
    let finite := forallb (ffinite F) ov in
    if negb finite && early_exit o
    then Ok (fill (List.length ov) (fnan F), fill (List.length og) (fnan F), false)
    else Ok (ov, og, finite)
  else Ok (ov, og, true).

(** evaluate_derivative.rs:273-319: one instruction on the pair (values, gradients). *)
Definition grad_instr {T} (F : FloatOps T) (O : OpSet T) (x : list T) (n_rows n_dir : nat) (cs : list T)
    (variable : bool) (o : eopts) (m : list T * list T) (i : instr) : res ((list T * list T) * bool) :=
  let (vs, gs) := m in
  let dst := i_dst i in
  let stride := n_rows * n_dir in
  let! (vb, vrest) := split_at vs (dst * n_rows) in
  let! (vdst, va) := split_at vrest n_rows in
  let! (gb, grest) := split_at gs (dst * stride) in
  let! (gdst, ga) := split_at grest stride in
  let args := firstn (i_arity i) (i_args i) in
  let! av := mapM (fun s => resolve_val_src s x n_rows cs dst vb va) args in
  let! gv := mapM (fun s => resolve_grad_src s variable dst gb ga stride) args in
  let! _ := assert_ (oknown O (i_arity i) (i_op i)) in
  let! (ov, og, ok) := grad_nary F (i_arity i) (oeval O (i_arity i) (i_op i))
                          (opartial O (i_arity i) (i_op i)) n_dir n_rows av gv o in
  Ok ((vb ++ ov ++ va, gb ++ og ++ ga), ok).

(** evaluate_derivative.rs:334-340, 353-359: one-hot gradient; [chunks_mut(0)] panics. *)
Definition one_hot_grad {T} (F : FloatOps T) (n_dir n_rows k : nat) : res (list T) :=
  let! _ := assert_ (1 <=? n_rows) in
  Ok (flat_map (fun dir => fill n_rows (if dir =? k then fone F else fzero F)) (seq 0 n_dir)).

(** evaluate_derivative.rs:228-382 [eval_grad_tree_array]; the returned matrix is
    (data, n_dir, n_rows). *)
Definition eval_grad_tree_array {T} (F : FloatOps T) (O : OpSet T) (hash : list pnode -> N) (D : nat)
    (e : expr T) (X : matrix T) (variable : bool) (c : dctx T) (o : eopts)
    : res (dctx T * (list T * matrix T * bool)) :=
  let! _ := assert_ (d_rows c =? m_ncols X) in
  let n_rows := m_ncols X in
  let n_dir := if variable then m_nrows X else List.length (consts e) in
  let! (c, p) := dsetup F hash D c e (m_nrows X) (n_dir * d_rows c) in
  let! (m, st) := run_instrs (grad_instr F O (m_data X) n_rows n_dir (consts e) variable o) (early_exit o)
                    (p_instrs p) (m_data (d_val c), m_data (d_der c)) true in
  let c' := dctx_with c (fst m) (snd m) in
  let nan_ret := (c', (fill n_rows (fnan F), mkMat (fill (n_dir * n_rows) (fnan F)) n_dir n_rows, false)) in
  let zero_grad := fill (n_dir * n_rows) (fzero F) in
  match st with
  | None => Ok nan_ret
  | Some complete =>
      match p_root p with
      | SVar f =>
          let! v := slice (m_data X) (f * n_rows) n_rows in
          let! g := if variable then one_hot_grad F n_dir n_rows f else Ok zero_grad in
          Ok (c', (v, mkMat g n_dir n_rows, complete))
      | SConst k =>
          let! v := index (consts e) k in
          let nonfin := check_finite o && negb (ffinite F v) in
          if nonfin && early_exit o then Ok nan_ret
          else
            let! g := if variable then Ok zero_grad else one_hot_grad F n_dir n_rows k in
            Ok (c', (fill n_rows v, mkMat g n_dir n_rows, complete && negb nonfin))
      | SSlot s =>
          let! v := slice (fst m) (s * n_rows) n_rows in
          let! g := slice (snd m) (s * (n_rows * n_dir)) (n_rows * n_dir) in
          Ok (c', (v, mkMat g n_dir n_rows, complete))
      end
  end.
