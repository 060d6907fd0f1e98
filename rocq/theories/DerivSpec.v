(** Specification of forward derivatives: the chain rule along the tree. *)
From Verif Require Import Base Node Tree.

Section DerivSpec.
  Context {T : Type} (F : FloatOps T) (O : OpSet T).
  (** Values and derivative seeds of the leaves. *)
  Variables (var cst dvar dcst : nat -> T).

  (** 0 + p_0*d_0 + p_1*d_1 + ..., summed left to right. *)
  Definition chain_sum (p : nat -> T) (ds : list T) : T :=
    fold_left (fun acc jd => fadd F acc (fmul F (p (fst jd)) (snd jd)))
              (combine (seq 0 (List.length ds)) ds) (fzero F).

  (** Textbook chain rule. *)
  Fixpoint textbook_der (t : tree) : T :=
    match t with
    | TVar f => dvar f
    | TConst i => dcst i
    | TOp op ts =>
        chain_sum (opartial O (List.length ts) op (map (teval O var cst) ts)) (map textbook_der ts)
    end.

  (** A leaf whose derivative seed is zero. *)
  Definition dead_leaf (t : tree) : bool :=
    match t with
    | TVar f => fis_zero F (dvar f)
    | TConst i => fis_zero F (dcst i)
    | TOp _ _ => false
    end.

  (** The chain rule with the order of operations and the shortcuts for dead leaves that the library
      documents in no place but performs: unary operators on a dead leaf have derivative zero;
      with [skip2], so do binary operators on two dead leaves. *)
  Definition der_step (skip2 : bool) (dead : list bool) (p : nat -> T) (ds : list T) : T :=
    match ds with
    | [d] => if forallb (fun b => b) dead then fzero F else fmul F (p 0) d
    | [d1; d2] =>
        if skip2 && forallb (fun b => b) dead then fzero F
        else fadd F (fmul F (p 0) d1) (fmul F (p 1) d2)
    | _ => chain_sum p ds
    end.

  Fixpoint tder (skip2 : bool) (t : tree) : T :=
    match t with
    | TVar f => dvar f
    | TConst i => dcst i
    | TOp op ts =>
        der_step skip2 (map dead_leaf ts)
          (opartial O (List.length ts) op (map (teval O var cst) ts)) (map (tder skip2) ts)
    end.

  (** All values, and the derivatives of operators with three or more arguments, are finite: what
      [eval_diff_tree_array] checks. *)
  Fixpoint dfinite (t : tree) : bool :=
    match t with
    | TVar _ | TConst _ => true
    | TOp op ts =>
        forallb dfinite ts && ffinite F (teval O var cst t)
        && (if List.length ts <=? 2 then true else ffinite F (tder false t))
    end.
End DerivSpec.

(** Arithmetic in which zero behaves as zero: what separates exact arithmetic from IEEE floats here. *)
Record ZeroLaws {T} (F : FloatOps T) : Prop := {
  zl_add_0_l : forall a, fadd F (fzero F) a = a;
  zl_mul_0_r : forall a, fmul F a (fzero F) = fzero F;
  zl_is_zero : forall a, fis_zero F a = true -> a = fzero F
}.
