(** Model of the plan compiler. dynamic_expressions/src/compile.rs, node.rs. *)
From Verif Require Import Base Node.

(** node.rs:9-13 [Src]. *)
Inductive src : Type :=
| SSlot (s : nat)
| SVar (f : nat)
| SConst (c : nat).

(** compile.rs:15-21 [Instr]. [args] is a [[Src; D]] padded with [Const(0)]; only the first [arity]
    entries are ever read, the model keeps exactly these. *)
Record instr : Type := mkInstr {
  i_arity : nat;
  i_op : nat;
  i_args : list src;
  i_dst : nat
}.

(** compile.rs:7-13 [EvalPlan]. *)
Record plan : Type := mkPlan {
  p_instrs : list instr;
  p_slots : nat;
  p_root : src;
  p_hash : N
}.

(** The local variables of [compile_plan] (compile.rs:43-48); stacks have their top at the head. *)
Record cstate : Type := mkC {
  c_stack : list src;
  c_instrs : list instr;
  c_free : list nat;
  c_next : nat;
  c_max : nat
}.

Definition cinit : cstate := mkC [] [] [] 0 0.

(** compile.rs:50-58 [alloc_slot]. [*next_slot += 1] overflows [u16] (a panic in debug builds, and the
    panic the model takes; release builds wrap) when [next_slot = u16::MAX]; so does [s + 1]. *)
Definition alloc_slot (c : cstate) : res (nat * cstate) :=
  match c_free c with
  | s :: fr =>
      if s <? u16_max
      then Ok (s, mkC (c_stack c) (c_instrs c) fr (c_next c) (Nat.max (c_max c) (s + 1)))
      else Panic
  | [] =>
      let s := c_next c in
      if s <? u16_max
      then Ok (s, mkC (c_stack c) (c_instrs c) [] (s + 1) (Nat.max (c_max c) (s + 1)))
      else Panic
  end.

(** compile.rs:88-92: push the slots of the arguments on the free list, in argument order. *)
Definition free_args (args : list src) (free : list nat) : list nat :=
  fold_left (fun fr s => match s with SSlot k => k :: fr | _ => fr end) args free.

(** compile.rs:60-97: one turn of the loop over nodes. *)
Definition compile_step (D n_features n_consts : nat) (c : cstate) (n : pnode) : res cstate :=
  match n with
  | Var f =>
      let! _ := assert_ (f <? n_features) in
      Ok (mkC (SVar f :: c_stack c) (c_instrs c) (c_free c) (c_next c) (c_max c))
  | Const i =>
      let! _ := assert_ (i <? n_consts) in
      Ok (mkC (SConst i :: c_stack c) (c_instrs c) (c_free c) (c_next c) (c_max c))
  | Op a o =>
      let! _ := assert_ ((1 <=? a) && (a <=? D)) in
      let! (args, rest) := expect (popn a (c_stack c)) in
      let! (dst, c1) := alloc_slot c in
      Ok (mkC (SSlot dst :: rest)
              (c_instrs c1 ++ [mkInstr a o args dst])
              (free_args args (c_free c1)) (c_next c1) (c_max c1))
  end.

(** compile.rs:29-109 [compile_plan]; [hash] stands for [build_node_hash] (compile.rs:23-27, FxHash of
    the node list), about which nothing is assumed. *)
Definition compile_plan (hash : list pnode -> N) (D : nat) (ns : list pnode)
    (n_features n_consts : nat) : res plan :=
  let! _ := assert_ (n_features <=? u16_max) in
  let! _ := assert_ (n_consts <=? u16_max) in
  let! c := foldM (compile_step D n_features n_consts) ns cinit in
  match c_stack c with
  | [root] => Ok (mkPlan (c_instrs c) (c_max c) root (hash ns))
  | _ => Panic
  end.
