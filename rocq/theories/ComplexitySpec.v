(** Specification of complexity and of the constraints, on trees. *)
From Verif Require Import Base Node Tree Registry Complexity.

(** Cost of a node according to the configured tables: 1 per operator unless overridden. *)
Definition op_cost (o : size_opts) (op : opid) : nat :=
  match map_get (operator_overrides o) op with Some c => c | None => 1 end.

(** Cost of a variable: its entry in the table, if there is a table with such an entry, else the common cost of variables. *)
Definition feature_cost (o : size_opts) (f : nat) : nat :=
  match variable_complexities o with Some v => nth f v (complexity_of_variables o) | None => complexity_of_variables o end.

(** Total cost of a tree: the plain sum over all its nodes. *)
Fixpoint cost (o : size_opts) (t : tree) : nat :=
  match t with
  | TVar f => feature_cost o f
  | TConst _ => complexity_of_constants o
  | TOp op cs => op_cost o (List.length cs, op) + sum_list (map (cost o) cs)
  end.

(** Every limited operator argument costs at most its limit. *)
Definition args_fit (o : size_opts) (t : tree) : Prop :=
  forall op cs lims j lim c,
    subtree (TOp op cs) t -> map_get (op_limits o) (List.length cs, op) = Some lims ->
    nth_error lims j = Some (Some lim) -> nth_error cs j = Some c -> cost o c <= lim.

(** [path t p]: [p] lists the operators met when walking down from the root of [t] and stopping anywhere. *)
Inductive path : tree -> list opid -> Prop :=
| path_stop : forall t, path t []
| path_down : forall op cs c p, In c cs -> path c p -> path (TOp op cs) ((List.length cs, op) :: p).

Fixpoint occurrences (o : opid) (p : list opid) : nat :=
  match p with [] => 0 | q :: p' => (if opid_eqb q o then 1 else 0) + occurrences o p' end.

(** Below an operator with the rule "at most [max_n] nested [nested]", no downward path meets [nested] more than
    [max_n] times. *)
Definition nesting_fits (o : size_opts) (t : tree) : Prop :=
  forall op cs rules nested max_n c p,
    subtree (TOp op cs) t -> map_get (nested_limits o) (List.length cs, op) = Some rules ->
    In (nested, max_n) rules -> In c cs -> path c p -> occurrences nested p <= max_n.

(** The expression satisfies every constraint for the current maximum size. *)
Definition feasible (o : size_opts) (curmaxsize : nat) (t : tree) : Prop :=
  tdepth t <= maxdepth o /\ cost o t <= curmaxsize /\ args_fit o t /\ nesting_fits o t.

(** The widths of the Rust fields: u16 costs and limits, u8 nesting limits, arrays of length [D];
    [usize] is wider than u16. *)
Record widths (umax D : nat) (o : size_opts) : Prop := {
  w_umax : u16_max < umax;
  w_const : complexity_of_constants o <= u16_max;
  w_var : complexity_of_variables o <= u16_max;
  w_vars : forall v c, variable_complexities o = Some v -> In c v -> c <= u16_max;
  w_over : forall op c, map_get (operator_overrides o) op = Some c -> c <= u16_max;
  w_lims : forall op l, map_get (op_limits o) op = Some l ->
             List.length l = D /\ (forall lim, In (Some lim) l -> lim <= u16_max);
  w_nested : forall op l r, map_get (nested_limits o) op = Some l -> In r l -> snd r <= u8_max }.
