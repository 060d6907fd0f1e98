(** Model of the size warm-up (symbolic_regression/src/warmup.rs) and of the choice of a mutation (mutate.rs:20-139, options.rs:7-40). *)
From Verif Require Import Base Node Compile Rng Registry Complexity Member Selection.

(** warmup.rs:5-19 [get_cur_maxsize]. [of_nat] is [as f32], [floor_nat] is [.floor() as usize], saturating. [maxsize - 3] underflows below 3: a
    panic in debug builds (in release it wraps and the result is meaningless). *)
Definition get_cur_maxsize {W} (FW : FloatOps W) (of_nat : nat -> W) (floor_nat : W -> nat) (warmup_maxsize_by : W) (maxsize : nat)
    (total_cycles cycles_remaining : nat) : res nat :=
  let cycles_elapsed := total_cycles - cycles_remaining in
  let fraction_elapsed := fdiv FW (of_nat cycles_elapsed) (of_nat total_cycles) in
  let in_warmup := fleb FW fraction_elapsed warmup_maxsize_by in
  if fltb FW (fzero FW) warmup_maxsize_by && in_warmup then
    let! _ := assert_ (3 <=? maxsize) in
    Ok (3 + floor_nat (fdiv FW (fmul FW (of_nat (maxsize - 3)) fraction_elapsed) warmup_maxsize_by))
  else Ok maxsize.

(** options.rs:7-40 [MutationWeights]; form_connection and break_connection are never read. *)
Record weights (W : Type) : Type := mkWeights {
  w_mutate_constant : W; w_mutate_operator : W; w_mutate_feature : W; w_swap_operands : W; w_rotate_tree : W; w_add_node : W;
  w_insert_node : W; w_delete_node : W; w_simplify : W; w_randomize : W; w_do_nothing : W; w_optimize : W }.
Arguments mkWeights {W}. Arguments w_mutate_constant {W}. Arguments w_mutate_operator {W}. Arguments w_mutate_feature {W}.
Arguments w_swap_operands {W}. Arguments w_rotate_tree {W}. Arguments w_add_node {W}. Arguments w_insert_node {W}. Arguments w_delete_node {W}.
Arguments w_simplify {W}. Arguments w_randomize {W}. Arguments w_do_nothing {W}. Arguments w_optimize {W}.

(** mutate.rs:20-34 [MutationChoice]. *)
Inductive choice : Type := MutateConstant | MutateOperator | MutateFeature | SwapOperands | RotateTree | AddNode | InsertNode | DeleteNode
  | Simplify | Randomize | DoNothing | Optimize.
Definition choice_eqb (a b : choice) : bool :=
  match a, b with
  | MutateConstant, MutateConstant | MutateOperator, MutateOperator | MutateFeature, MutateFeature | SwapOperands, SwapOperands
  | RotateTree, RotateTree | AddNode, AddNode | InsertNode, InsertNode | DeleteNode, DeleteNode | Simplify, Simplify
  | Randomize, Randomize | DoNothing, DoNothing | Optimize, Optimize => true
  | _, _ => false
  end.

(** mutate.rs:61-67. *)
Definition is_const_node (n : pnode) : bool := match n with Const _ => true | _ => false end.
Definition is_leaf_node (n : pnode) : bool := match n with Op _ _ => false | _ => true end.
Definition is_binary_node (n : pnode) : bool := match n with Op a _ => a =? 2 | _ => false end.
Definition count_constants (ns : list pnode) : nat := List.length (filter is_const_node ns).
Definition has_binary_op (ns : list pnode) : bool := existsb is_binary_node ns.

(** The options read by the conditioning. *)
Record cond_opts (W : Type) : Type := mkCond { should_simplify : bool; should_optimize_constants : bool; optimizer_probability : W }.
Arguments mkCond {W}. Arguments should_simplify {W}. Arguments should_optimize_constants {W}. Arguments optimizer_probability {W}.

(** mutate.rs:69-119 [condition_mutation_weights]. The member enters through its nodes, its constant table and its complexity. *)
Definition condition_mutation_weights {T W} (FW : FloatOps W) (of_nat : nat -> W) (w : weights W) (e : expr T) (complexity : nat) (o : cond_opts W)
    (curmaxsize nfeatures : nat) : weights W :=
  let z := fzero FW in
  let no_consts := match consts e with [] => true | _ => false end in
  if forallb is_leaf_node (nodes e) then
    mkWeights (if no_consts then z else w_mutate_constant w) z (if no_consts then w_mutate_feature w else z) z
      (w_rotate_tree w) (w_add_node w) (w_insert_node w) z z (w_randomize w) (w_do_nothing w) (if no_consts then z else w_optimize w)
  else
    mkWeights
      (fmul FW (w_mutate_constant w) (fdiv FW (of_nat (Nat.min (count_constants (nodes e)) 8)) (of_nat 8)))
      (w_mutate_operator w)
      (if nfeatures <=? 1 then z else w_mutate_feature w)
      (if has_binary_op (nodes e) then w_swap_operands w else z)
      (w_rotate_tree w)
      (if curmaxsize <=? complexity then z else w_add_node w)
      (if curmaxsize <=? complexity then z else w_insert_node w)
      (w_delete_node w)
      (if should_simplify o then w_simplify w else z)
      (w_randomize w) (w_do_nothing w)
      (if negb (should_optimize_constants o) || feqb FW (optimizer_probability o) z || no_consts then z else w_optimize w).

(** mutate.rs:121-139 [sample_mutation]. *)
Definition choices {W} (w : weights W) : list (choice * W) :=
  [(MutateConstant, w_mutate_constant w); (MutateOperator, w_mutate_operator w); (MutateFeature, w_mutate_feature w);
   (SwapOperands, w_swap_operands w); (RotateTree, w_rotate_tree w); (AddNode, w_add_node w); (InsertNode, w_insert_node w);
   (DeleteNode, w_delete_node w); (Simplify, w_simplify w); (Randomize, w_randomize w); (DoNothing, w_do_nothing w); (Optimize, w_optimize w)].
Definition sample_mutation {W} (FW : FloatOps W) (r : rng W) (w : weights W) : res (choice * rng W) :=
  let! (idx, r) := weighted_index FW r (map snd (choices w)) in
  let! c := index (choices w) idx in
  Ok (fst c, r).
