(** Model of array evaluation. dynamic_expressions/src/evaluate.rs, dispatch.rs. *)
From Verif Require Import Base Node Compile.

(** evaluate.rs:11-14 [EvalOptions]. *)
Record eopts : Type := mkOpts { check_finite : bool; early_exit : bool }.

(** dispatch.rs:6-9 [SrcRef]; also evaluate.rs:333-355 [ArgView], the same type privately. *)
Inductive srcref (T : Type) : Type :=
| RSlice (s : list T)
| RConst (c : T).
Arguments RSlice {T}. Arguments RConst {T}.

(** evaluate.rs:83-112 [resolve_val_src]. *)
Definition resolve_val_src {T} (s : src) (x : list T) (n_rows : nat) (cs : list T)
    (dst : nat) (before after : list T) : res (srcref T) :=
  match s with
  | SVar f => let! v := slice x (f * n_rows) n_rows in Ok (RSlice v)
  | SConst c => let! v := index cs c in Ok (RConst v)
  | SSlot k =>
      if k <? dst then let! v := slice before (k * n_rows) n_rows in Ok (RSlice v)
      else if dst <? k then let! v := slice after ((k - dst - 1) * n_rows) n_rows in Ok (RSlice v)
      else Panic
  end.

(** evaluate.rs:347-355 [ArgView::get], 308-313 [__src_val]. *)
Definition view_get {T} (v : srcref T) (row : nat) : res T :=
  match v with RSlice s => index s row | RConst c => Ok c end.

(** utils.rs:6-19 [zip_eq]: unequal lengths panic (debug assertion; a release build would truncate). *)
Definition zip_eq {A B} (l : list A) (r : list B) : res (list (A * B)) :=
  if List.length l =? List.length r then Ok (combine l r) else Panic.

(** evaluate.rs:488-497 [eval_unary_loop]; [out] only contributes its length. *)
Definition eval_unary_loop {T} (n : nat) (x : srcref T) (f : T -> T) : res (list T) :=
  match x with
  | RSlice xs => if n =? List.length xs then Ok (map f xs) else Panic
  | RConst c => Ok (fill n (f c))
  end.

(** evaluate.rs:500-524 [eval_binary_loop]. *)
Definition eval_binary_loop {T} (n : nat) (x y : srcref T) (f : T -> T -> T) : res (list T) :=
  match x, y with
  | RSlice xs, RSlice ys =>
      let! z := zip_eq xs ys in
      if n =? List.length z then Ok (map (fun p => f (fst p) (snd p)) z) else Panic
  | RSlice xs, RConst yc => if n =? List.length xs then Ok (map (fun a => f a yc) xs) else Panic
  | RConst xc, RSlice ys => if n =? List.length ys then Ok (map (fun b => f xc b) ys) else Panic
  | RConst xc, RConst yc => Ok (fill n (f xc yc))
  end.

(** evaluate.rs:322-330 [__maybe_mark_nonfinite]: returns (continue?, complete). *)
Definition maybe_mark_nonfinite {T} (F : FloatOps T) (v : T) (o : eopts) (complete : bool) : bool * bool :=
  if check_finite o && negb (ffinite F v)
  then if early_exit o then (false, false) else (true, false)
  else (true, complete).

(** evaluate.rs:557-568: the generic row loop of [eval_nary] ([A >= 3]); rows [row .. row+k-1] remain.
    [None] is the early return after [out.fill(nan)]. *)
Fixpoint eval_rows_loop {T} (F : FloatOps T) (f : list T -> T) (views : list (srcref T)) (o : eopts)
    (row k : nat) (acc : list T) (complete : bool) : res (option (list T * bool)) :=
  match k with
  | 0 => Ok (Some (acc, complete))
  | S k' =>
      let! vals := mapM (fun v => view_get v row) views in
      let v := f vals in
      let (go, complete') := maybe_mark_nonfinite F v o complete in
      if go then eval_rows_loop F f views o (S row) k' (acc ++ [v]) complete'
      else Ok None
  end.

Definition is_const_ref {T} (r : srcref T) : bool := match r with RConst _ => true | _ => false end.

(** evaluate.rs:571-582: tail of [eval_nary] after the loops. *)
Definition finish_eval {T} (F : FloatOps T) (o : eopts) (out : list T) (complete : bool) : list T * bool :=
  if negb (check_finite o) then (out, true)
  else
    let finite := forallb (ffinite F) out in
    let complete := complete && finite in
    if negb finite && early_exit o then (fill (List.length out) (fnan F), false)
    else (out, complete).

(** evaluate.rs:526-583 [kernels::eval_nary] for an operator [f] of arity [A]; [n] is [out.len()].
    Returns the new contents of [out] and the flag. *)
Definition eval_nary {T} (F : FloatOps T) (A : nat) (f : list T -> T) (n : nat)
    (args : list (srcref T)) (o : eopts) : res (list T * bool) :=
  let! _ := assert_ (List.length args =? A) in
  if forallb is_const_ref args then
    let! vals := mapM (fun v => view_get v 0) args in
    let v := f vals in
    if negb (check_finite o) then Ok (fill n v, true)
    else
      let finite := ffinite F v in
      if negb finite && early_exit o then Ok (fill n (fnan F), finite)
      else Ok (fill n v, finite)
  else
    if A =? 1 then
      let! x := index args 0 in
      let! out := eval_unary_loop n x (fun a => f [a]) in
      Ok (finish_eval F o out true)
    else if A =? 2 then
      let! x := index args 0 in
      let! y := index args 1 in
      let! out := eval_binary_loop n x y (fun a b => f [a; b]) in
      Ok (finish_eval F o out true)
    else
      let! r := eval_rows_loop F f args o 0 n [] true in
      match r with
      | None => Ok (fill n (fnan F), false)
      | Some (out, complete) => Ok (finish_eval F o out complete)
      end.

(** operator_enum.rs, macros [custom_opset!] and [opset!], generated [OperatorSet::eval]: dispatch on
    (arity, id), panic when there is no such operator. *)
Definition ops_eval {T} (F : FloatOps T) (O : OpSet T) (a id n : nat) (args : list (srcref T))
    (o : eopts) : res (list T * bool) :=
  if oknown O a id then eval_nary F a (oeval O a id) n args o else Panic.

(** [split_at_mut(mid)]. *)
Definition split_at {A} (l : list A) (mid : nat) : res (list A * list A) :=
  if mid <=? List.length l then Ok (firstn mid l, skipn mid l) else Panic.

(** evaluate.rs:227-249: one instruction, returns the new scratch and the kernel's flag. *)
Definition exec_instr {T} (F : FloatOps T) (O : OpSet T) (x : list T) (n_rows : nat) (cs : list T)
    (o : eopts) (scratch : list T) (i : instr) : res (list T * bool) :=
  let dst := i_dst i in
  let! (before, rest) := split_at scratch (dst * n_rows) in
  let! (dst_buf, after) := split_at rest n_rows in
  let! args := mapM (fun s => resolve_val_src s x n_rows cs dst before after)
                    (firstn (i_arity i) (i_args i)) in
  let! (out, ok) := ops_eval F O (i_arity i) (i_op i) (List.length dst_buf) args o in
  Ok (before ++ out ++ after, ok).

(** evaluate.rs:226-253: the instruction loop; [None] is [return false]. *)
Fixpoint exec_instrs {T} (F : FloatOps T) (O : OpSet T) (x : list T) (n_rows : nat) (cs : list T)
    (o : eopts) (is : list instr) (scratch : list T) (complete : bool)
    : res (list T * option bool) :=
  match is with
  | [] => Ok (scratch, Some complete)
  | i :: is' =>
      let! (scratch', ok) := exec_instr F O x n_rows cs o scratch i in
      if early_exit o && negb ok then Ok (scratch', None)
      else exec_instrs F O x n_rows cs o is' scratch' (complete && ok)
  end.

(** The data matrix [x_columns] (n_features x n_rows, row major, contiguous). *)
Record matrix (T : Type) : Type := mkMat { m_data : list T; m_nrows : nat; m_ncols : nat }.
Arguments mkMat {T}. Arguments m_data {T}. Arguments m_nrows {T}. Arguments m_ncols {T}.
Definition zeros {T} (F : FloatOps T) (r c : nat) : matrix T := mkMat (fill (r * c) (fzero F)) r c.

(** evaluate.rs:201-276 [eval_plan_array_into]: (scratch', out', flag). *)
Definition eval_plan_array_into {T} (F : FloatOps T) (O : OpSet T) (out : list T) (p : plan)
    (e : expr T) (X : matrix T) (scratch : matrix T) (o : eopts) : res (matrix T * list T * bool) :=
  let n_rows := m_ncols X in
  let! _ := assert_ (List.length out =? n_rows) in
  let scratch :=
    if negb (m_nrows scratch =? p_slots p) || negb (m_ncols scratch =? n_rows)
    then zeros F (p_slots p) n_rows else scratch in
  let! (sd, st) := exec_instrs F O (m_data X) n_rows (consts e) o (p_instrs p) (m_data scratch) true in
  let scratch' := mkMat sd (m_nrows scratch) (m_ncols scratch) in
  match st with
  | None => Ok (scratch', out, false)
  | Some complete =>
      match p_root p with
      | SVar f =>
          let! v := slice (m_data X) (f * n_rows) n_rows in
          Ok (scratch', v, complete)
      | SConst c =>
          let! v := index (consts e) c in
          if check_finite o && negb (ffinite F v) then
            if early_exit o then Ok (scratch', out, false)
            else Ok (scratch', fill n_rows v, false)
          else Ok (scratch', fill n_rows v, complete)
      | SSlot s =>
          let! v := slice sd (s * n_rows) n_rows in
          Ok (scratch', v, complete)
      end
  end.

(** evaluate.rs:26-33 [EvalContext]. *)
Record ectx (T : Type) : Type := mkCtx {
  x_scratch : option (matrix T);
  x_rows : nat;
  x_plan : option plan;
  x_nodes_len : nat;
  x_n_consts : nat;
  x_n_features : nat
}.
Arguments mkCtx {T}. Arguments x_scratch {T}. Arguments x_rows {T}. Arguments x_plan {T}.
Arguments x_nodes_len {T}. Arguments x_n_consts {T}. Arguments x_n_features {T}.

(** evaluate.rs:36-45 [EvalContext::new]. *)
Definition ctx_new {T} (n_rows : nat) : ectx T := mkCtx None n_rows None 0 0 0.

(** evaluate.rs:58-70 [needs_recompile]. *)
Definition needs_recompile {T} (hash : list pnode -> N) (c : ectx T) (e : expr T) (n_features : nat) : bool :=
  match x_plan c with
  | None => true
  | Some p =>
      if negb (x_nodes_len c =? List.length (nodes e)) || negb (x_n_consts c =? List.length (consts e))
         || negb (x_n_features c =? n_features)
      then true
      else negb (p_hash p =? hash (nodes e))%N
  end.

(** evaluate.rs:72-80 [ensure_scratch]. *)
Definition ensure_scratch {T} (F : FloatOps T) (c : ectx T) (n_slots : nat) : ectx T :=
  let ok := match x_scratch c with
            | Some s => (m_nrows s =? n_slots) && (m_ncols s =? x_rows c)
            | None => false
            end in
  if ok then c
  else mkCtx (Some (zeros F n_slots (x_rows c))) (x_rows c) (x_plan c) (x_nodes_len c) (x_n_consts c) (x_n_features c).

(** evaluate.rs:47-56 [EvalContext::setup]. *)
Definition ctx_setup {T} (F : FloatOps T) (hash : list pnode -> N) (D : nat) (c : ectx T) (e : expr T)
    (n_features : nat) : res (ectx T) :=
  let! c :=
    if needs_recompile hash c e n_features then
      let! p := compile_plan hash D (nodes e) n_features (List.length (consts e)) in
      Ok (mkCtx (x_scratch c) (x_rows c) (Some p) (List.length (nodes e)) (List.length (consts e)) n_features)
    else Ok c in
  let! p := expect (x_plan c) in
  Ok (ensure_scratch F c (p_slots p)).

(** evaluate.rs:277-297 [eval_tree_array_into]: (ctx', out', flag). *)
Definition eval_tree_array_into {T} (F : FloatOps T) (O : OpSet T) (hash : list pnode -> N) (D : nat)
    (out : list T) (e : expr T) (X : matrix T) (c : ectx T) (o : eopts)
    : res (ectx T * list T * bool) :=
  let! _ := assert_ (List.length out =? m_ncols X) in
  let! _ := assert_ (x_rows c =? m_ncols X) in
  let! c := ctx_setup F hash D c e (m_nrows X) in
  let! p := expect (x_plan c) in
  let! s := expect (x_scratch c) in
  let! (s', out', flag) := eval_plan_array_into F O out p e X s o in
  Ok (mkCtx (Some s') (x_rows c) (x_plan c) (x_nodes_len c) (x_n_consts c) (x_n_features c), out', flag).

(** evaluate.rs:184-199 [eval_tree_array]. *)
Definition eval_tree_array {T} (F : FloatOps T) (O : OpSet T) (hash : list pnode -> N) (D : nat)
    (e : expr T) (X : matrix T) (o : eopts) : res (list T * bool) :=
  let n_rows := m_ncols X in
  let! (_, out, flag) :=
    eval_tree_array_into F O hash D (fill n_rows (fzero F)) e X (ctx_new n_rows) o in
  Ok (out, flag).
