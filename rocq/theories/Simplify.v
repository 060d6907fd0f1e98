(** Model of dynamic_expressions/src/simplify.rs. *)
From Verif Require Import Base Node Compile Eval Utils.

(** simplify.rs:9-14 [Frame]. *)
Record frame (T : Type) : Type := mkFrame { f_start : nat; f_const : bool; f_val : T }.
Arguments mkFrame {T}. Arguments f_start {T}. Arguments f_const {T}. Arguments f_val {T}.

(** simplify.rs:397-400: [out_nodes], [out_consts], [stack] (top at the head), [changed]. *)
Record fstate (T : Type) : Type := mkF {
  fo_nodes : list pnode; fo_consts : list T; fo_stack : list (frame T); fo_changed : bool }.
Arguments mkF {T}. Arguments fo_nodes {T}. Arguments fo_consts {T}. Arguments fo_stack {T}. Arguments fo_changed {T}.

(** The recurring exit (simplify.rs:428-432, 439-443, 460-464, 466-470): keep the node as it is. *)
Definition keep_node {T} (F : FloatOps T) (s : fstate T) (n : pnode) (start : nat) (rest : list (frame T)) : fstate T :=
  mkF (fo_nodes s ++ [n]) (fo_consts s) (mkFrame start false (fzero F) :: rest) (fo_changed s).

(** simplify.rs:402-480: one turn of the loop. [debug_assert!(a <= D)] and [vals[j]] beyond [D] are the
    same panic. [drain] is [popn]; [stack[stack_len - a].start] is the start of the first drained frame,
    out of bounds when [a = 0]. *)
Definition fold_step {T} (F : FloatOps T) (O : OpSet T) (D : nat) (o : eopts) (s : fstate T) (n : pnode) : res (fstate T) :=
  match n with
  | Var _ =>
      Ok (mkF (fo_nodes s ++ [n]) (fo_consts s)
            (mkFrame (List.length (fo_nodes s)) false (fzero F) :: fo_stack s) (fo_changed s))
  | Const idx =>
      let! v := index (fo_consts s) idx in
      Ok (mkF (fo_nodes s ++ [n]) (fo_consts s)
            (mkFrame (List.length (fo_nodes s)) true v :: fo_stack s) (fo_changed s))
  | Op a op =>
      let! _ := assert_ (a <=? D) in
      match popn a (fo_stack s) with
      | None => Ok (keep_node F s n (List.length (fo_nodes s)) (fo_stack s))
      | Some ([], _) => Panic
      | Some ((c0 :: _) as children, rest) =>
          let child_start := f_start c0 in
          if negb (forallb f_const children) then Ok (keep_node F s n child_start rest)
          else
            let vals := map f_val children in
            if existsb (fun v => negb (ffinite F v)) vals then Ok (keep_node F s n child_start rest)
            else
              let! (out, ok) := ops_eval F O a op 1 (map (@RConst T) vals) o in
              let! v := index out 0 in
              if negb (ok && ffinite F v) then Ok (keep_node F s n child_start rest)
              else if u16_max <? List.length (fo_consts s) then Ok (keep_node F s n child_start rest)
              else
                Ok (mkF (firstn child_start (fo_nodes s) ++ [Const (List.length (fo_consts s))])
                      (fo_consts s ++ [v]) (mkFrame child_start true v :: rest) true)
      end
  end.

(** simplify.rs:373-488 [simplify_tree_in_place]. *)
Definition simplify_tree_in_place {T} (F : FloatOps T) (O : OpSet T) (D : nat) (o : eopts) (e : expr T) : res (expr T * bool) :=
  let! s := foldM (fold_step F O D o) (nodes e) (mkF [] (consts e) [] false) in
  if fo_changed s then Ok (mkExpr (fo_nodes s) (fo_consts s) (var_names e), true)
  else Ok (e, false).

(** simplify.rs:16-26 [ArenaNode], [ArenaNodeKind]; the child array has length [D], unused cells 0. *)
Inductive anode : Type :=
| AVar (feature : nat)
| AConst (idx : nat)
| AOp (arity op : nat) (children : list nat).

(** simplify.rs:28-33 [CombineCfg]. *)
Record ccfg : Type := mkCfg { add_id : option nat; mul_id : option nat; sub_id : option nat }.

(** simplify.rs:39-44 [is_const]. *)
Definition a_const (ar : list anode) (id : nat) : res (option nat) :=
  let! n := index ar id in
  Ok (match n with AConst i => Some i | _ => None end).

(** simplify.rs:46-51 [is_op]; the arity found is returned, not checked. *)
Definition a_op (ar : list anode) (id op_id : nat) : res (option (nat * list nat)) :=
  let! n := index ar id in
  Ok (match n with AOp a o ch => if o =? op_id then Some (a, ch) else None | _ => None end).

(** simplify.rs:53-63 [append_const]. *)
Definition append_const {T} (F : FloatOps T) (cs : list T) (v : T) : option (nat * list T) :=
  if negb (ffinite F v) then None
  else if u16_max <? List.length cs then None
  else Some (List.length cs, cs ++ [v]).

Definition opt_is (o : option nat) (n : nat) : bool := match o with Some m => m =? n | None => false end.

(** The assignment [new_children = children; new_children[0] = l; new_children[1] = r; arena[id].kind = ...]. *)
Definition put2 (ar : list anode) (id arity op : nat) (children : list nat) (l r : nat) : res (list anode) :=
  let! c1 := set_index children 0 l in
  let! c2 := set_index c1 1 r in
  set_index ar id (AOp arity op c2).

(** Return value of [combine_node]: id, arena, constants, changed. *)
Definition cres (T : Type) : Type := (nat * list anode * list T * bool)%type.

(** simplify.rs:94-177: the [+]/[*] case. *)
Definition combine_addmul {T} (F : FloatOps T) (is_add : bool) (id : nat) (ar : list anode) (cs : list T)
    (changed : bool) (arity op : nat) (children : list nat) : res (cres T) :=
  let! lft := index children 0 in
  let! rgt := index children 1 in
  let! lc := a_const ar lft in
  let '(lft, rgt, changed) :=
    match lc with Some _ => (rgt, lft, true) | None => (lft, rgt, changed) end in
  let keep := (let! ar' := put2 ar id arity op children lft rgt in Ok (id, ar', cs, changed)) in
  let! rc := a_const ar rgt in
  match rc with
  | None => keep
  | Some top_idx =>
      let! top_v := index cs top_idx in
      let! below := a_op ar lft op in
      match below with
      | Some (2, bch) =>
          let! b0 := index bch 0 in
          let! b1 := index bch 1 in
          let! c0 := a_const ar b0 in
          let! c1 := a_const ar b1 in
          match (match c0, c1 with
                 | Some ci, _ => Some (b0, ci)
                 | None, Some ci => Some (b1, ci)
                 | None, None => None
                 end) with
          | None => keep
          | Some (const_leaf, const_idx) =>
              let! below_v := index cs const_idx in
              if negb (ffinite F below_v) || negb (ffinite F top_v) then keep
              else
                let new_v := if is_add then fadd F below_v top_v else fmul F below_v top_v in
                match append_const F cs new_v with
                | None => keep
                | Some (new_idx, cs') =>
                    let! ar' := set_index ar const_leaf (AConst new_idx) in
                    Ok (lft, ar', cs', true)
                end
          end
      | _ => keep
      end
  end.

(** simplify.rs:189-236: patterns 1 and 2, with a constant on the left. [None]: no pattern applied. *)
Definition combine_sub_left {T} (F : FloatOps T) (id : nat) (ar : list anode) (cs : list T)
    (arity op : nat) (children : list nat) (lft rgt : nat) : res (option (cres T)) :=
  let! lc := a_const ar lft in
  match lc with
  | None => Ok None
  | Some a_idx =>
      let! ro := a_op ar rgt op in
      match ro with
      | None => Ok None
      | Some (_, rch) =>
          let! r0 := index rch 0 in
          let! r1 := index rch 1 in
          let! a_v := index cs a_idx in
          let! c0 := a_const ar r0 in
          match c0 with
          | Some b_idx =>
              let! b_v := index cs b_idx in
              if ffinite F a_v && ffinite F b_v then
                match append_const F cs (fsub F b_v a_v) with
                | Some (new_idx, cs') =>
                    let! ar1 := set_index ar r0 (AConst new_idx) in
                    let! ar2 := put2 ar1 id arity op children r1 r0 in
                    Ok (Some (id, ar2, cs', true))
                | None => Ok None
                end
              else Ok None
          | None =>
              let! c1 := a_const ar r1 in
              match c1 with
              | Some b_idx =>
                  let! b_v := index cs b_idx in
                  if ffinite F a_v && ffinite F b_v then
                    match append_const F cs (fadd F a_v b_v) with
                    | Some (new_idx, cs') =>
                        let! ar1 := set_index ar lft (AConst new_idx) in
                        let! ar2 := put2 ar1 id arity op children lft r0 in
                        Ok (Some (id, ar2, cs', true))
                    | None => Ok None
                    end
                  else Ok None
              | None => Ok None
              end
          end
      end
  end.

(** simplify.rs:238-285: patterns 3 and 4, with a constant on the right. *)
Definition combine_sub_right {T} (F : FloatOps T) (id : nat) (ar : list anode) (cs : list T)
    (arity op : nat) (children : list nat) (lft rgt : nat) : res (option (cres T)) :=
  let! rc := a_const ar rgt in
  match rc with
  | None => Ok None
  | Some b_idx =>
      let! lo := a_op ar lft op in
      match lo with
      | None => Ok None
      | Some (_, lch) =>
          let! l0 := index lch 0 in
          let! l1 := index lch 1 in
          let! b_v := index cs b_idx in
          let! c0 := a_const ar l0 in
          match c0 with
          | Some a_idx =>
              let! a_v := index cs a_idx in
              if ffinite F a_v && ffinite F b_v then
                match append_const F cs (fsub F a_v b_v) with
                | Some (new_idx, cs') =>
                    let! ar1 := set_index ar l0 (AConst new_idx) in
                    let! ar2 := put2 ar1 id arity op children l0 l1 in
                    Ok (Some (id, ar2, cs', true))
                | None => Ok None
                end
              else Ok None
          | None =>
              let! c1 := a_const ar l1 in
              match c1 with
              | Some a_idx =>
                  let! a_v := index cs a_idx in
                  if ffinite F a_v && ffinite F b_v then
                    match append_const F cs (fadd F a_v b_v) with
                    | Some (new_idx, cs') =>
                        let! ar1 := set_index ar l1 (AConst new_idx) in
                        let! ar2 := put2 ar1 id arity op children l0 l1 in
                        Ok (Some (id, ar2, cs', true))
                    | None => Ok None
                    end
                  else Ok None
              | None => Ok None
              end
          end
      end
  end.

(** simplify.rs:90-288: what happens at a binary node once its children are done. *)
Definition combine_top {T} (F : FloatOps T) (cfg : ccfg) (id : nat) (ar : list anode) (cs : list T)
    (changed : bool) (arity op : nat) (children : list nat) : res (cres T) :=
  let is_add := opt_is (add_id cfg) op in
  let is_mul := opt_is (mul_id cfg) op in
  let is_sub := opt_is (sub_id cfg) op in
  if is_add || is_mul then combine_addmul F is_add id ar cs changed arity op children
  else if is_sub then
    let! lft := index children 0 in
    let! rgt := index children 1 in
    let! r1 := combine_sub_left F id ar cs arity op children lft rgt in
    match r1 with
    | Some r => Ok r
    | None =>
        let! r2 := combine_sub_right F id ar cs arity op children lft rgt in
        match r2 with
        | Some r => Ok r
        | None => Ok (id, ar, cs, changed)
        end
    end
  else Ok (id, ar, cs, changed).

(** simplify.rs:65-289 [combine_node]. The recursion is bounded by [fuel]. *)
Fixpoint combine_node {T} (F : FloatOps T) (cfg : ccfg) (fuel id : nat) (ar : list anode) (cs : list T)
    (changed : bool) : res (cres T) :=
  match fuel with
  | 0 => OutOfFuel
  | S fuel' =>
      let! n := index ar id in
      match n with
      | AVar _ | AConst _ => Ok (id, ar, cs, changed)
      | AOp arity op children =>
          let! (done, ar, cs, changed) :=
            foldM (fun '(done, ar, cs, changed) cid =>
                     let! (cid', ar', cs', changed') := combine_node F cfg fuel' cid ar cs changed in
                     Ok (done ++ [cid'], ar', cs', changed'))
              (firstn arity children) ([], ar, cs, changed) in
          let children := done ++ skipn arity children in
          let! ar := set_index ar id (AOp arity op children) in
          if negb (arity =? 2) then Ok (id, ar, cs, changed)
          else combine_top F cfg id ar cs changed arity op children
      end
  end.

(** simplify.rs:291-302 [emit_postfix]; the nodes pushed, in order. *)
Fixpoint emit_postfix (fuel id : nat) (ar : list anode) : res (list pnode) :=
  match fuel with
  | 0 => OutOfFuel
  | S fuel' =>
      let! n := index ar id in
      match n with
      | AVar f => Ok [Var f]
      | AConst i => Ok [Const i]
      | AOp arity op children =>
          let! out := foldM (fun out cid => let! more := emit_postfix fuel' cid ar in Ok (out ++ more))
                        (firstn arity children) [] in
          Ok (out ++ [Op arity op])
      end
  end.

(** simplify.rs:304-347 [parse_postfix_to_arena], loop body; [None] is the early return. *)
Definition parse_step (D : nat) (s : option (list anode * list nat)) (n : pnode) : res (option (list anode * list nat)) :=
  match s with
  | None => Ok None
  | Some (ar, st) =>
      let id := List.length ar in
      match n with
      | Var f => Ok (Some (ar ++ [AVar f], id :: st))
      | Const i => Ok (Some (ar ++ [AConst i], id :: st))
      | Op a op =>
          match popn a st with
          | None => Ok None
          | Some (cs, rest) =>
              let! _ := assert_ (a <=? D) in
              Ok (Some (ar ++ [AOp a op (cs ++ fill (D - a) 0)], id :: rest))
          end
      end
  end.

(** simplify.rs:304-347 [parse_postfix_to_arena]. *)
Definition parse_postfix_to_arena (D : nat) (ns : list pnode) : res (option (list anode * nat)) :=
  let! s := foldM (parse_step D) ns (Some ([], [])) in
  Ok (match s with
      | Some (ar, [root]) => Some (ar, root)
      | _ => None
      end).

(** simplify.rs:349-371 [combine_operators_in_place_with_cfg]. The recursion depth is at most the id of the
    root plus one, since children have smaller ids. *)
Definition combine_operators {T} (F : FloatOps T) (D : nat) (cfg : ccfg) (e : expr T) : res (expr T * bool) :=
  let! p := parse_postfix_to_arena D (nodes e) in
  match p with
  | None => Ok (e, false)
  | Some (ar, root) =>
      let! (new_root, ar', cs', changed) := combine_node F cfg (S root) root ar (consts e) false in
      if negb changed && (new_root =? root) then Ok (mkExpr (nodes e) cs' (var_names e), false)
      else
        let! out := emit_postfix (S new_root) new_root ar' in
        Ok (mkExpr out cs' (var_names e), changed)
  end.

(** simplify.rs:503-512 [simplify_in_place]; the configuration is the one built from
    [lookup_with_arity] at simplify.rs:495-499. *)
Definition simplify_in_place {T} (F : FloatOps T) (O : OpSet T) (D : nat) (cfg : ccfg) (o : eopts) (e : expr T)
    : res (expr T * bool) :=
  let! (e1, c1) := simplify_tree_in_place F O D o e in
  let! (e2, c2) := combine_operators F D cfg e1 in
  let! (e3, c3) := compress_constants e2 in
  Ok (e3, c1 || c2 || c3).
