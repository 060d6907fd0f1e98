(** Specification: expression trees, independent of the postfix algorithms. *)
From Verif Require Import Base Node.

Inductive tree : Type :=
| TVar (feature : nat)
| TConst (idx : nat)
| TOp (op : nat) (children : list tree).

(** Induction principle that reaches into the child lists. *)
Section tree_rect'.
  Variable P : tree -> Prop.
  Hypothesis HV : forall f, P (TVar f).
  Hypothesis HC : forall i, P (TConst i).
  Hypothesis HO : forall op cs, Forall P cs -> P (TOp op cs).
  Fixpoint tree_ind' (t : tree) : P t :=
    match t with
    | TVar f => HV f
    | TConst i => HC i
    | TOp op cs =>
        HO op cs ((fix go (l : list tree) : Forall P l :=
                     match l with
                     | [] => Forall_nil _
                     | c :: l' => Forall_cons c (tree_ind' c) (go l')
                     end) cs)
    end.
End tree_rect'.

(** Post-order serialisation. *)
Fixpoint flatten (t : tree) : list pnode :=
  match t with
  | TVar f => [Var f]
  | TConst i => [Const i]
  | TOp op cs => flat_map flatten cs ++ [Op (List.length cs) op]
  end.

(** The node at the root. *)
Definition root_node (t : tree) : pnode :=
  match t with
  | TVar f => Var f
  | TConst i => Const i
  | TOp op cs => Op (List.length cs) op
  end.

Fixpoint sum_list (l : list nat) : nat :=
  match l with [] => 0 | x :: l' => x + sum_list l' end.

Fixpoint tsize (t : tree) : nat :=
  match t with
  | TVar _ | TConst _ => 1
  | TOp _ cs => 1 + sum_list (map tsize cs)
  end.

(** Height, a leaf having height 1. *)
Fixpoint tdepth (t : tree) : nat :=
  match t with
  | TVar _ | TConst _ => 1
  | TOp _ cs => 1 + fold_right Nat.max 0 (map tdepth cs)
  end.

(** The counters: how many variables, constants and operators a tree has, and the largest number of arguments. *)
Fixpoint vars_in (t : tree) : nat := match t with TVar _ => 1 | TConst _ => 0 | TOp _ cs => sum_list (map vars_in cs) end.
Fixpoint consts_in (t : tree) : nat := match t with TVar _ => 0 | TConst _ => 1 | TOp _ cs => sum_list (map consts_in cs) end.
Fixpoint ops_in (t : tree) : nat := match t with TVar _ | TConst _ => 0 | TOp _ cs => 1 + sum_list (map ops_in cs) end.
Fixpoint widest (t : tree) : nat := match t with TVar _ | TConst _ => 0 | TOp _ cs => Nat.max (List.length cs) (fold_right Nat.max 0 (map widest cs)) end.

(** Every operator has at least one child. *)
Fixpoint proper (t : tree) : Prop :=
  match t with
  | TVar _ | TConst _ => True
  | TOp _ cs => cs <> [] /\ fold_right and True (map proper cs)
  end.

(** Every variable is a feature below [nf], every constant index below [nc], every operator has
    between 1 and [D] children and is known to the operator set. *)
Fixpoint tree_ok (D nf nc : nat) (known : nat -> nat -> bool) (t : tree) : Prop :=
  match t with
  | TVar f => f < nf
  | TConst i => i < nc
  | TOp op cs =>
      1 <= List.length cs <= D /\ known (List.length cs) op = true
      /\ fold_right and True (map (tree_ok D nf nc known) cs)
  end.

(** Recursive fold. *)
Fixpoint tree_fold {R B} (fl : pnode -> R) (fb : pnode -> B) (op : B -> list R -> R) (t : tree) : R :=
  match t with
  | TVar f => fl (Var f)
  | TConst i => fl (Const i)
  | TOp o cs => op (fb (Op (List.length cs) o)) (map (tree_fold fl fb op) cs)
  end.

(** Value of a tree, with the values of variables and constants given by functions. *)
Fixpoint teval {T} (O : OpSet T) (var cst : nat -> T) (t : tree) : T :=
  match t with
  | TVar f => var f
  | TConst i => cst i
  | TOp op cs => oeval O (List.length cs) op (map (teval O var cst) cs)
  end.

(** All operator applications in the tree give a finite value. *)
Fixpoint tfinite {T} (F : FloatOps T) (O : OpSet T) (var cst : nat -> T) (t : tree) : bool :=
  match t with
  | TVar _ | TConst _ => true
  | TOp op cs =>
      forallb (tfinite F O var cst) cs
      && ffinite F (oeval O (List.length cs) op (map (teval O var cst) cs))
  end.

(** [represents e t]: the node list of [e] is the serialisation of [t]. *)
Definition represents {T} (e : expr T) (t : tree) : Prop := nodes e = flatten t.

(** An expression is well formed for arity bound [D], [nf] features and a set of operators. *)
Definition expr_ok {T} (D nf : nat) (known : nat -> nat -> bool) (e : expr T) : Prop :=
  exists t, represents e t /\ tree_ok D nf (List.length (consts e)) known t.

(** Subtrees. *)
Inductive subtree : tree -> tree -> Prop :=
| sub_refl : forall t, subtree t t
| sub_child : forall s op cs c, In c cs -> subtree s c -> subtree s (TOp op cs).

(** [subtree_at t i s]: the node at position [i] of [flatten t] is the root of [s], a subtree
    occurrence of [t]. *)
Inductive subtree_at : tree -> nat -> tree -> Prop :=
| at_root : forall t, subtree_at t (tsize t - 1) t
| at_child : forall op l c r i s,
    subtree_at c i s ->
    subtree_at (TOp op (l ++ c :: r)) (sum_list (map tsize l) + i) s.
