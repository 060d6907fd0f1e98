(** Model of dynamic_expressions/src/utils.rs and expression_algebra.rs. *)
From Verif Require Import Base Node.

(** utils.rs:22-24 [ConstRef] is its index list. utils.rs:26-31 [get_scalar_constants]. *)
Definition get_scalar_constants {T} (e : expr T) : list T * list nat :=
  (consts e, seq 0 (List.length (consts e))).

(** utils.rs:33-44 [set_scalar_constants]; the loop over [cref.const_indices.iter().enumerate()]. *)
Fixpoint set_consts_loop {T} (dsts : list nat) (src_i : nat) (new_values cs : list T) : res (list T) :=
  match dsts with
  | [] => Ok cs
  | d :: dsts' =>
      let! v := index new_values src_i in
      let! cs' := set_index cs d v in
      set_consts_loop dsts' (S src_i) new_values cs'
  end.
Definition set_scalar_constants {T} (e : expr T) (new_values : list T) (cref : list nat) : res (expr T) :=
  let! _ := assert_ (List.length new_values =? List.length cref) in
  let! cs := set_consts_loop cref 0 new_values (consts e) in
  Ok (mkExpr (nodes e) cs (var_names e)).

(** utils.rs:47: [SENTINEL]. *)
Definition sentinel : nat := u16_max.

(** Local variables of [compress_constants]: nodes rewritten so far, [remap], [new_consts], [changed]. *)
Record zstate (T : Type) : Type := mkZ {
  z_out : list pnode; z_remap : list nat; z_consts : list T; z_changed : bool }.
Arguments mkZ {T}. Arguments z_out {T}. Arguments z_remap {T}. Arguments z_consts {T}. Arguments z_changed {T}.

(** utils.rs:52-66: one turn of the loop. *)
Definition compress_step {T} (old : list T) (s : zstate T) (n : pnode) : res (zstate T) :=
  match n with
  | Const idx =>
      let! slot := index (z_remap s) idx in
      let! s1 :=
        if slot =? sentinel then
          let new_idx := List.length (z_consts s) in
          if sentinel <=? new_idx then Panic
          else
            let! remap := set_index (z_remap s) idx new_idx in
            let! c := index old idx in
            Ok (mkZ (z_out s) remap (z_consts s ++ [c]) (z_changed s))
        else Ok s in
      let! slot := index (z_remap s1) idx in
      Ok (mkZ (z_out s1 ++ [Const slot]) (z_remap s1) (z_consts s1) (z_changed s1 || negb (idx =? slot)))
  | _ => Ok (mkZ (z_out s ++ [n]) (z_remap s) (z_consts s) (z_changed s))
  end.

(** utils.rs:46-71 [compress_constants]. *)
Definition compress_constants {T} (e : expr T) : res (expr T * bool) :=
  let! s := foldM (compress_step (consts e)) (nodes e) (mkZ [] (fill (List.length (consts e)) sentinel) [] false) in
  let changed := z_changed s || negb (List.length (z_consts s) =? List.length (consts e)) in
  Ok (mkExpr (z_out s) (z_consts s) (var_names e), changed).

(** expression_algebra.rs:98-104: shift the constant indices of one argument; [checked_add] on [u16]. *)
Definition shift_node (offset : nat) (n : pnode) : res pnode :=
  match n with
  | Const idx => if idx + offset <=? u16_max then Ok (Const (idx + offset)) else Panic
  | _ => Ok n
  end.

(** expression_algebra.rs:88-109: the loop over the arguments, with accumulated nodes, constants and names. *)
Fixpoint apply_loop {T} (args : list (expr T)) (ns : list pnode) (cs : list T) (names : list string)
    : res (list pnode * list T * list string) :=
  match args with
  | [] => Ok (ns, cs, names)
  | e :: args' =>
      let names := match names, var_names e with
                   | [], (_ :: _) => var_names e
                   | _, _ => names
                   end in
      let offset := List.length cs in
      if u16_max <? offset then Panic
      else
        let! shifted := mapM (shift_node offset) (nodes e) in
        apply_loop args' (ns ++ shifted) (cs ++ consts e) names
  end.

(** expression_algebra.rs:79-117 [__apply_postfix]. [A] is the length of [args]. *)
Definition apply_postfix {T} (D op_id : nat) (args : list (expr T)) : res (expr T) :=
  let! _ := assert_ (List.length args <=? D) in
  let! (ns, cs, names) := apply_loop args [] [] [] in
  Ok (mkExpr (ns ++ [Op (List.length args) op_id]) cs names).

(** expression_algebra.rs:119-121 [__const_expr]. *)
Definition const_expr {T} (v : T) : expr T := mkExpr [Const 0] [v] [].

(** expression_algebra.rs:12-77, 123-147: [+ - * /] on two expressions, on an expression and a scalar, on
    a literal and an expression, and [neg]; the id is [<Ops as HasOp<Marker>>::ID]. *)
Definition binop {T} (D id : nat) (a b : expr T) : res (expr T) := apply_postfix D id [a; b].
Definition binop_scalar {T} (D id : nat) (a : expr T) (v : T) : res (expr T) := apply_postfix D id [a; const_expr v].
Definition lit_binop {T} (D id : nat) (v : T) (b : expr T) : res (expr T) := apply_postfix D id [const_expr v; b].
Definition unop {T} (D id : nat) (a : expr T) : res (expr T) := apply_postfix D id [a].
