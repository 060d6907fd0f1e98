(** Model of the postfix expression type and the node utilities.
    dynamic_expressions/src/node.rs, expression.rs, node_utils.rs. *)
From Verif Require Import Base.

(** node.rs:2-6 [PNode]. Field widths (u16/u8) are not built into the type;
    where a width matters the code's own check is modelled. *)
Inductive pnode : Type :=
| Var (feature : nat)
| Const (idx : nat)
| Op (arity op : nat).

Definition pnode_eqb (a b : pnode) : bool :=
  match a, b with
  | Var f, Var g => f =? g
  | Const i, Const j => i =? j
  | Op a o, Op b p => (a =? b) && (o =? p)
  | _, _ => false
  end.

(** expression.rs:11-16 [PostfixExpr]; [_ops] is a phantom and dropped. *)
Record expr (T : Type) : Type := mkExpr {
  nodes : list pnode;
  consts : list T;
  var_names : list string
}.
Arguments mkExpr {T}. Arguments nodes {T}. Arguments consts {T}. Arguments var_names {T}.

(** expression.rs:40-45 [PostfixExpr::zero]. *)
Definition expr_zero {T} (F : FloatOps T) : expr T := mkExpr [Const 0] [fzero F] [].

(** traits.rs:15-19 [OpId] together with the operator's scalar functions
    (traits.rs:11-12 [Operator::eval], [Operator::partial]); [oknown arity id] tells whether the
    generated dispatch (operator_enum.rs, macros [opset!]/[custom_opset!]) has an arm for it,
    every other id panics. *)
Record OpSet (T : Type) : Type := {
  oknown : nat -> nat -> bool;
  oeval : nat -> nat -> list T -> T;
  opartial : nat -> nat -> list T -> nat -> T
}.
Arguments oknown {T}. Arguments oeval {T}. Arguments opartial {T}.

(** Stack with the top at the head of the list; Rust's [Vec] has its top at the end.
    [popn a st] removes the [a] top elements and returns them in stack order, bottom first,
    which is the order of [&stack[start..]]. *)
Definition popn {R} (a : nat) (st : list R) : option (list R * list R) :=
  if a <=? List.length st then Some (rev (firstn a st), skipn a st) else None.

(** node_utils.rs:33-55 [tree_mapreduce_impl], loop body. *)
Definition mapreduce_step {R B} (fl : pnode -> R) (fb : pnode -> B) (op : B -> list R -> R)
    (st : list R) (n : pnode) : res (list R) :=
  match n with
  | Var _ | Const _ => Ok (fl n :: st)
  | Op a _ =>
      match popn a st with
      | None => Panic
      | Some (args, rest) => Ok (op (fb n) args :: rest)
      end
  end.

(** node_utils.rs:33-55 [tree_mapreduce_impl] started on an arbitrary stack. *)
Definition tree_mapreduce_impl {R B} (fl : pnode -> R) (fb : pnode -> B) (op : B -> list R -> R)
    (ns : list pnode) (st0 : list R) : res R :=
  let! st := foldM (mapreduce_step fl fb op) ns st0 in
  match st with
  | [r] => Ok r
  | _ => Panic
  end.

(** node_utils.rs:14-31 [tree_mapreduce_with_stack]: the reusable stack is cleared first. *)
Definition tree_mapreduce_with_stack {R B} (fl : pnode -> R) (fb : pnode -> B)
    (op : B -> list R -> R) (ns : list pnode) (reuse : option (list R)) : res R :=
  match reuse with
  | Some _ => tree_mapreduce_impl fl fb op ns []
  | None => tree_mapreduce_impl fl fb op ns []
  end.

(** node_utils.rs:5-12 [tree_mapreduce]. *)
Definition tree_mapreduce {R B} (fl : pnode -> R) (fb : pnode -> B) (op : B -> list R -> R)
    (ns : list pnode) : res R := tree_mapreduce_with_stack fl fb op ns None.

(** [iter().max().unwrap_or(0)] *)
Definition list_max0 (l : list nat) : nat := fold_left Nat.max l 0.

(** node_utils.rs:61-72 [count_depth]; the thread-local stack is the [reuse] argument. *)
Definition count_depth (stale : list nat) (ns : list pnode) : res nat :=
  tree_mapreduce_with_stack (fun _ => 1) (fun _ => 0) (fun _ ch => list_max0 ch + 1) ns (Some stale).

(** node_utils.rs:74-111: counters and predicates. *)
Definition is_const (n : pnode) : bool := match n with Const _ => true | _ => false end.
Definition is_var (n : pnode) : bool := match n with Var _ => true | _ => false end.
Definition is_op (n : pnode) : bool := match n with Op _ _ => true | _ => false end.
Definition count_nodes (ns : list pnode) : nat := List.length ns.
Definition has_constants (ns : list pnode) : bool := existsb is_const ns.
Definition has_operators (ns : list pnode) : bool := existsb is_op ns.
Definition has_variables (ns : list pnode) : bool := existsb is_var ns.
Definition count_constant_nodes (ns : list pnode) : nat := List.length (filter is_const ns).
Definition count_variable_nodes (ns : list pnode) : nat := List.length (filter is_var ns).
Definition count_operator_nodes (ns : list pnode) : nat := List.length (filter is_op ns).
Definition max_arity (ns : list pnode) : nat :=
  list_max0 (flat_map (fun n => match n with Op a _ => [a] | _ => [] end) ns).

(** node_utils.rs:113-115 [is_leaf]. *)
Definition is_leaf (ns : list pnode) : bool :=
  match ns with [Var _] | [Const _] => true | _ => false end.

(** node_utils.rs:117-135 [is_valid_postfix]; the counter is [isize], modelled by [Z]
    (an [isize] cannot overflow by counting the elements of a vector). *)
Fixpoint valid_postfix_from (ns : list pnode) (stack : Z) : bool :=
  match ns with
  | [] => Z.eqb stack 1
  | (Var _ | Const _) :: ns' => valid_postfix_from ns' (stack + 1)
  | Op a _ :: ns' =>
      let a := Z.of_nat a in
      if (a <=? 0)%Z then false
      else if (stack <? a)%Z then false
      else valid_postfix_from ns' (stack - a + 1)
  end.
Definition is_valid_postfix (ns : list pnode) : bool := valid_postfix_from ns 0.

(** node_utils.rs:149-152: [for _ in 0..a { sum += stack.pop().expect(..) }]. *)
Fixpoint pop_sum (a : nat) (st : list nat) (sum : nat) : res (nat * list nat) :=
  match a with
  | 0 => Ok (sum, st)
  | S a' => match st with [] => Panic | x :: st' => pop_sum a' st' (sum + x) end
  end.

(** node_utils.rs:141-158: body of the loop over nodes; [sizes] is produced left to right, so
    writing [sizes[i]] at turn [i] is appending. *)
Definition sizes_step (s : list nat * list nat) (n : pnode) : res (list nat * list nat) :=
  let '(sizes, st) := s in
  match n with
  | Var _ | Const _ => Ok (sizes ++ [1], 1 :: st)
  | Op a _ => let! (sum, st') := pop_sum a st 1 in Ok (sizes ++ [sum], sum :: st')
  end.

(** node_utils.rs:137-161 [subtree_sizes]. *)
Definition subtree_sizes (ns : list pnode) : res (list nat) :=
  let! (sizes, st) := foldM sizes_step ns ([], []) in
  match st with [_] => Ok sizes | _ => Panic end.

(** node_utils.rs:163-166 [subtree_range]: [(root_idx + 1 - sz, root_idx)];
    the subtraction panics on underflow (debug) and the index when out of range. *)
Definition subtree_range (sizes : list nat) (root_idx : nat) : res (nat * nat) :=
  let! sz := index sizes root_idx in
  if sz <=? root_idx + 1 then Ok (root_idx + 1 - sz, root_idx) else Panic.

(** check_constraints.rs:177-188 and mutation_functions.rs:145-156 [child_ranges] (the same text twice):
    walks the children right to left; [end] is an [isize] that must not be negative when used as an
    index, and [end + 1 - sz] must not underflow. *)
Fixpoint child_ranges_from (sizes : list nat) (k : nat) (end_ : Z) (acc : list (nat * nat))
    : res (list (nat * nat)) :=
  match k with
  | 0 => Ok acc
  | S k' =>
      if (end_ <? 0)%Z then Panic
      else
        let end_u := Z.to_nat end_ in
        let! sz := index sizes end_u in
        if sz <=? end_u + 1 then
          let start_u := end_u + 1 - sz in
          child_ranges_from sizes k' (Z.of_nat start_u - 1) ((start_u, end_u) :: acc)
        else Panic
  end.
Definition child_ranges (sizes : list nat) (root_idx arity : nat) : res (list (nat * nat)) :=
  child_ranges_from sizes arity (Z.of_nat root_idx - 1) [].
