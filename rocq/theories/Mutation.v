(** Model of symbolic_regression/src/mutation_functions.rs. *)
From Verif Require Import Base Node Utils Rng Registry.

(** [x as u8]. *)
Definition as_u8 (n : nat) : nat := n mod S u8_max.

(** mutation_functions.rs:11-27 [random_leaf]. *)
Definition random_leaf {T} (g : rng T) (n_features : nat) (cs : list T) : res (pnode * rng T * list T) :=
  let '(b, g) := rng_bool g in
  if b then
    let '(v, g) := rng_real g in
    if List.length cs <=? u16_max then Ok (Const (List.length cs), g, cs ++ [v]) else Panic
  else
    let! (f, g) := usize_range g 0 n_features in
    if f <=? u16_max then Ok (Var f, g, cs) else Panic.

(** [for _ in 0..arity { repl.push(random_leaf(rng, n_features, &mut consts)); }] (50-52, 106-108, 471-473). *)
Fixpoint random_leaves {T} (n : nat) (g : rng T) (n_features : nat) (cs : list T) : res (list pnode * rng T * list T) :=
  match n with
  | 0 => Ok ([], g, cs)
  | S n' =>
      let! (l, g, cs) := random_leaf g n_features cs in
      let! (ls, g, cs) := random_leaves n' g n_features cs in
      Ok (l :: ls, g, cs)
  end.

(** [v.splice(lo..=hi, repl)]. *)
Definition splice {A} (v : list A) (lo hi : nat) (repl : list A) : res (list A) :=
  if (lo <=? hi + 1) && (hi + 1 <=? List.length v) then Ok (firstn lo v ++ repl ++ skipn (hi + 1) v) else Panic.

(** [&v[lo..=hi]]. *)
Definition slice_incl {A} (v : list A) (lo hi : nat) : res (list A) :=
  if (lo <=? hi + 1) && (hi + 1 <=? List.length v) then Ok (firstn (hi + 1 - lo) (skipn lo v)) else Panic.

(** [iter().enumerate().filter_map(..).collect()]: the positions of the nodes satisfying a test (43-47, 98-103, 121-143,
    248-253, 456-461). *)
Definition positions (p : pnode -> bool) (ns : list pnode) : list nat :=
  filter (fun i => match nth_error ns i with Some n => p n | None => false end) (seq 0 (List.length ns)).
Definition is_leaf_node (n : pnode) : bool := match n with Var _ | Const _ => true | Op _ _ => false end.
Definition is_binary (n : pnode) : bool := match n with Op a _ => a =? 2 | _ => false end.

(** [idxs[usize_range(rng, 0..idxs.len())]]. *)
Definition pick {T} (g : rng T) (idxs : list nat) : res (nat * rng T) :=
  let! (k, g) := usize_range g 0 (List.length idxs) in
  let! i := index idxs k in
  Ok (i, g).

(** mutation_functions.rs:38-62: the loop of [random_expr]; every turn adds at least one node, so fuel
    [target_size] is enough (proved in [C18_random_expr], which never meets [OutOfFuel]). *)
Fixpoint random_expr_loop {T} (fuel D : nat) (reg : registry) (nf target : nat) (g : rng T) (ns : list pnode) (cs : list T)
    : res (list pnode * list T * rng T) :=
  match fuel with
  | 0 => OutOfFuel
  | S fuel' =>
      if List.length ns <? target then
        let rem := target - List.length ns in
        let! total := total_ops_up_to D reg (Nat.min D rem) in
        if 0 <? total then
          let! (arity, g) := sample_arity D reg g (Nat.min rem D) in
          let! (op, g) := sample_op reg g arity in
          let! (leaf_idx, g) := pick g (positions is_leaf_node ns) in
          let! (repl, g, cs) := random_leaves arity g nf cs in
          let! ns := splice ns leaf_idx leaf_idx (repl ++ [Op (as_u8 arity) (snd op)]) in
          random_expr_loop fuel' D reg nf target g ns cs
        else Ok (ns, cs, g)
      else Ok (ns, cs, g)
  end.

(** mutation_functions.rs:29-65 [random_expr]. *)
Definition random_expr {T} (D : nat) (reg : registry) (nf target : nat) (g : rng T) : res (expr T * rng T) :=
  let! _ := assert_ (1 <=? target) in
  let! (leaf, g, cs) := random_leaf g nf [] in
  let! (ns, cs, g) := random_expr_loop (S target) D reg nf target g [leaf] cs in
  Ok (mkExpr ns cs [], g).

(** mutation_functions.rs:83-116: the loop of [random_expr_append_ops]. *)
Fixpoint append_ops_loop {T} (n D : nat) (reg : registry) (nf max_size : nat) (g : rng T) (ns : list pnode) (cs : list T)
    : res (list pnode * list T * rng T) :=
  match n with
  | 0 => Ok (ns, cs, g)
  | S n' =>
      let rem := max_size - List.length ns in
      if rem =? 0 then Ok (ns, cs, g)
      else
        let max_arity := Nat.min rem D in
        let! total := total_ops_up_to D reg max_arity in
        if total =? 0 then Ok (ns, cs, g)
        else
          let! (arity, g) := sample_arity D reg g max_arity in
          let! (op, g) := sample_op reg g arity in
          let leaf_positions := positions is_leaf_node ns in
          match leaf_positions with
          | [] => Ok (ns, cs, g)
          | _ =>
              let! (leaf_idx, g) := pick g leaf_positions in
              let! (repl, g, cs) := random_leaves arity g nf cs in
              let! ns := splice ns leaf_idx leaf_idx (repl ++ [Op (as_u8 arity) (snd op)]) in
              append_ops_loop n' D reg nf max_size g ns cs
          end
  end.

(** mutation_functions.rs:73-119 [random_expr_append_ops]. *)
Definition random_expr_append_ops {T} (F : FloatOps T) (D : nat) (reg : registry) (nf n_append_ops max_size : nat) (g : rng T)
    : res (expr T * rng T) :=
  let max_size := Nat.max max_size 1 in
  let e := expr_zero F in
  let! (ns, cs, g) := append_ops_loop n_append_ops D reg nf max_size g (nodes e) (consts e) in
  let! (e, _) := compress_constants (mkExpr ns cs (var_names e)) in
  Ok (e, g).

(** A mutation in place: success flag, the expression afterwards, the generator afterwards. *)
Definition mutated (T : Type) : Type := res (bool * expr T * rng T).

Definition with_nodes {T} (e : expr T) (ns : list pnode) : expr T := mkExpr ns (consts e) (var_names e).

(** mutation_functions.rs:158-186 [mutate_constant_in_place]. The multiplier is computed in f64 from two real
    draws and one boolean draw by [powf], a reciprocal and a sign; [factor] is that function, left arbitrary. *)
Definition mutate_constant {T} (F : FloatOps T) (factor : T -> bool -> T -> T) (g : rng T) (e : expr T) : mutated T :=
  let idxs := positions is_const (nodes e) in
  match idxs with
  | [] => Ok (false, e, g)
  | _ =>
      let! (node_i, g) := pick g idxs in
      let! n := index (nodes e) node_i in
      match n with
      | Const ci =>
          let '(exponent, g) := rng_real g in
          let '(bigger, g) := rng_bool g in
          let '(negdraw, g) := rng_real g in
          let! c := index (consts e) ci in
          let! cs := set_index (consts e) ci (fmul F c (factor exponent bigger negdraw)) in
          Ok (true, mkExpr (nodes e) cs (var_names e), g)
      | _ => Ok (false, e, g)
      end
  end.

(** mutation_functions.rs:188-211 [mutate_operator_in_place]. *)
Definition mutate_operator {T} (reg : registry) (g : rng T) (e : expr T) : mutated T :=
  let idxs := positions is_op (nodes e) in
  match idxs with
  | [] => Ok (false, e, g)
  | _ =>
      let! (i, g) := pick g idxs in
      let! n := index (nodes e) i in
      match n with
      | Op a _ =>
          let! k := nops reg a in
          if k =? 0 then Ok (false, e, g)
          else
            let! (op, g) := sample_op reg g a in
            let! ns := set_index (nodes e) i (Op a (snd op)) in
            Ok (true, with_nodes e ns, g)
      | _ => Ok (false, e, g)
      end
  end.

(** mutation_functions.rs:235-244: up to eight draws of a different feature. *)
Fixpoint draw_feature {T} (tries : nat) (g : rng T) (nf old : nat) : res (option nat * rng T) :=
  match tries with
  | 0 => Ok (None, g)
  | S k =>
      let! (f, g) := usize_range g 0 nf in
      if negb (f =? old) then (if f <=? u16_max then Ok (Some f, g) else Panic)
      else draw_feature k g nf old
  end.

(** mutation_functions.rs:213-245 [mutate_feature_in_place]. *)
Definition mutate_feature {T} (nf : nat) (g : rng T) (e : expr T) : mutated T :=
  if nf <=? 1 then Ok (false, e, g)
  else
    let idxs := positions is_var (nodes e) in
    match idxs with
    | [] => Ok (false, e, g)
    | _ =>
        let! (node_i, g) := pick g idxs in
        let! n := index (nodes e) node_i in
        match n with
        | Var old =>
            if nf <=? old then Ok (false, e, g)
            else
              let! (r, g) := draw_feature 8 g nf old in
              match r with
              | Some f =>
                  let! ns := set_index (nodes e) node_i (Var f) in
                  Ok (true, with_nodes e ns, g)
              | None => Ok (false, e, g)
              end
        | _ => Ok (false, e, g)
        end
    end.

(** mutation_functions.rs:247-270 [swap_operands_in_place]. *)
Definition swap_operands {T} (g : rng T) (e : expr T) : mutated T :=
  let idxs := positions is_binary (nodes e) in
  match idxs with
  | [] => Ok (false, e, g)
  | _ =>
      let! sizes := subtree_sizes (nodes e) in
      let! (root_idx, g) := pick g idxs in
      let! n := index (nodes e) root_idx in
      match n with
      | Op _ op =>
          let! (sub_start, sub_end) := subtree_range sizes root_idx in
          let! child := child_ranges sizes root_idx 2 in
          let! c1 := index child 1 in
          let! c0 := index child 0 in
          let! s1 := slice_incl (nodes e) (fst c1) (snd c1) in
          let! s0 := slice_incl (nodes e) (fst c0) (snd c0) in
          let! ns := splice (nodes e) sub_start sub_end (s1 ++ s0 ++ [Op 2 op]) in
          Ok (true, with_nodes e ns, g)
      | _ => Ok (false, e, g)
      end
  end.

(** [children.iter().any(|c| matches!(expr.nodes[c.1], PNode::Op { .. }))] (287) and the positions of these
    children (311-315). *)
Definition op_children (ns : list pnode) (children : list (nat * nat)) : res (list bool) :=
  mapM (fun c => let! n := index ns (snd c) in Ok (is_op n)) children.

(** mutation_functions.rs:276-290: the loop collecting rotation roots. *)
Fixpoint valid_roots_loop (ns : list pnode) (sizes : list nat) (is_ : list nat) (acc : list nat) : res (list nat) :=
  match is_ with
  | [] => Ok acc
  | i :: rest =>
      let! n := index ns i in
      match n with
      | Op a _ =>
          if a =? 0 then valid_roots_loop ns sizes rest acc
          else
            let! children := child_ranges sizes i a in
            let! flags := op_children ns children in
            valid_roots_loop ns sizes rest (if existsb (fun b => b) flags then acc ++ [i] else acc)
      | _ => valid_roots_loop ns sizes rest acc
      end
  end.

Definition true_positions (bs : list bool) : list nat :=
  filter (fun j => nth j bs false) (seq 0 (List.length bs)).

(** mutation_functions.rs:337-346 and 353-361: concatenate the children, the one at [p] replaced by [x]. *)
Fixpoint concat_children (ns : list pnode) (cs : list (nat * nat)) (j p : nat) (x : list pnode) : res (list pnode) :=
  match cs with
  | [] => Ok []
  | c :: cs' =>
      let! s := if j =? p then Ok x else slice_incl ns (fst c) (snd c) in
      let! rest := concat_children ns cs' (S j) p x in
      Ok (s ++ rest)
  end.

(** mutation_functions.rs:272-368 [rotate_tree_in_place]. *)
Definition rotate_tree {T} (g : rng T) (e : expr T) : mutated T :=
  let ns := nodes e in
  let! sizes := subtree_sizes ns in
  let! valid_roots := valid_roots_loop ns sizes (seq 0 (List.length ns)) [] in
  match valid_roots with
  | [] => Ok (false, e, g)
  | _ =>
      let! (root_idx, g) := pick g valid_roots in
      let! n := index ns root_idx in
      match n with
      | Op root_arity op_root =>
          if root_arity =? 0 then Ok (false, e, g)
          else
            let! root_children := child_ranges sizes root_idx root_arity in
            let! flags := op_children ns root_children in
            let pivot_positions := true_positions flags in
            match pivot_positions with
            | [] => Ok (false, e, g)
            | _ =>
                let! (pivot_pos, g) := pick g pivot_positions in
                let! pc := index root_children pivot_pos in
                let pivot_root_idx := snd pc in
                let! p := index ns pivot_root_idx in
                match p with
                | Op pivot_arity op_pivot =>
                    if pivot_arity =? 0 then Ok (false, e, g)
                    else
                      let! pivot_children := child_ranges sizes pivot_root_idx pivot_arity in
                      let! (grandchild_pos, g) := usize_range g 0 pivot_arity in
                      let! grandchild := index pivot_children grandchild_pos in
                      let! (sub_start, sub_end) := subtree_range sizes root_idx in
                      let! gnodes := slice_incl ns (fst grandchild) (snd grandchild) in
                      let! rotated := concat_children ns root_children 0 pivot_pos gnodes in
                      let rotated_root := rotated ++ [Op root_arity op_root] in
                      let! new_sub := concat_children ns pivot_children 0 grandchild_pos rotated_root in
                      let! ns' := splice ns sub_start sub_end (new_sub ++ [Op pivot_arity op_pivot]) in
                      Ok (true, with_nodes e ns', g)
                | _ => Ok (false, e, g)
                end
            end
      | _ => Ok (false, e, g)
      end
  end.

(** mutation_functions.rs:391-398, 425-431: the children of the new operator, the old subtree at [carry]. *)
Fixpoint carry_children {T} (j arity carry : nat) (old : list pnode) (g : rng T) (nf : nat) (cs : list T)
    : res (list pnode * rng T * list T) :=
  match arity with
  | 0 => Ok ([], g, cs)
  | S k =>
      let! (s, g, cs) := if j =? carry then Ok (old, g, cs)
                         else let! (l, g, cs) := random_leaf g nf cs in Ok ([l], g, cs) in
      let! (rest, g, cs) := carry_children (S j) k carry old g nf cs in
      Ok (s ++ rest, g, cs)
  end.

(** mutation_functions.rs:370-406 [insert_random_op_in_place]. *)
Definition insert_random_op {T} (D : nat) (reg : registry) (nf : nat) (g : rng T) (e : expr T) : mutated T :=
  match nodes e with
  | [] => Ok (false, e, g)
  | _ =>
      let! total := total_ops_up_to D reg D in
      if total =? 0 then Ok (false, e, g)
      else
        let! (root_idx, g) := usize_range g 0 (List.length (nodes e)) in
        let! sizes := subtree_sizes (nodes e) in
        let! (start, end_) := subtree_range sizes root_idx in
        let! old_sub := slice_incl (nodes e) start end_ in
        let! (arity, g) := sample_arity D reg g D in
        let! (op, g) := sample_op reg g arity in
        let! (carry, g) := usize_range g 0 arity in
        let! (new_sub, g, cs) := carry_children 0 arity carry old_sub g nf (consts e) in
        let! ns := splice (nodes e) start end_ (new_sub ++ [Op (as_u8 arity) (snd op)]) in
        let! (e, _) := compress_constants (mkExpr ns cs (var_names e)) in
        Ok (true, e, g)
  end.

(** mutation_functions.rs:408-440 [prepend_random_op_in_place]. *)
Definition prepend_random_op {T} (D : nat) (reg : registry) (nf : nat) (g : rng T) (e : expr T) : mutated T :=
  match nodes e with
  | [] => Ok (false, e, g)
  | _ =>
      let! total := total_ops_up_to D reg D in
      if total =? 0 then Ok (false, e, g)
      else
        let! (arity, g) := sample_arity D reg g D in
        let! (op, g) := sample_op reg g arity in
        let! (carry, g) := usize_range g 0 arity in
        let! (new_nodes, g, cs) := carry_children 0 arity carry (nodes e) g nf (consts e) in
        let! (e, _) := compress_constants (mkExpr (new_nodes ++ [Op (as_u8 arity) (snd op)]) cs (var_names e)) in
        Ok (true, e, g)
  end.

(** mutation_functions.rs:442-481 [append_random_op_in_place]. *)
Definition append_random_op {T} (D : nat) (reg : registry) (nf : nat) (g : rng T) (e : expr T) : mutated T :=
  match nodes e with
  | [] => Ok (false, e, g)
  | _ =>
      let! total := total_ops_up_to D reg D in
      if total =? 0 then Ok (false, e, g)
      else
        match positions is_leaf_node (nodes e) with
        | [] => Ok (false, e, g)
        | leaf_positions =>
            let! (leaf_idx, g) := pick g leaf_positions in
            let! (arity, g) := sample_arity D reg g D in
            let! (op, g) := sample_op reg g arity in
            let! (repl, g, cs) := random_leaves arity g nf (consts e) in
            let! ns := splice (nodes e) leaf_idx leaf_idx (repl ++ [Op (as_u8 arity) (snd op)]) in
            let! (e, _) := compress_constants (mkExpr ns cs (var_names e)) in
            Ok (true, e, g)
        end
  end.

(** mutation_functions.rs:483-494 [add_node_in_place]. *)
Definition add_node {T} (D : nat) (reg : registry) (nf : nat) (g : rng T) (e : expr T) : mutated T :=
  let '(b, g) := rng_bool g in
  if b then append_random_op D reg nf g e else prepend_random_op D reg nf g e.

(** mutation_functions.rs:496-523 [delete_random_op_in_place]. *)
Definition delete_random_op {T} (g : rng T) (e : expr T) : mutated T :=
  match positions is_op (nodes e) with
  | [] => Ok (false, e, g)
  | idxs =>
      let! (root_idx, g) := pick g idxs in
      let! n := index (nodes e) root_idx in
      match n with
      | Op a _ =>
          if a =? 0 then Ok (false, e, g)
          else
            let! sizes := subtree_sizes (nodes e) in
            let! (sub_start, sub_end) := subtree_range sizes root_idx in
            if sub_start =? sub_end then Ok (false, e, g)
            else
              let! child := child_ranges sizes root_idx a in
              let! (k, g) := usize_range g 0 a in
              let! keep := index child k in
              let! kept := slice_incl (nodes e) (fst keep) (snd keep) in
              let! ns := splice (nodes e) sub_start sub_end kept in
              let! (e, _) := compress_constants (with_nodes e ns) in
              Ok (true, e, g)
      | _ => Ok (false, e, g)
      end
  end.

(** mutation_functions.rs:530-562 [remap_subtree_consts]; [mp] is [map]. *)
Fixpoint remap_loop {T} (ns : list pnode) (donor dst : list T) (mp : list (option nat)) : res (list pnode * list T) :=
  match ns with
  | [] => Ok ([], dst)
  | n :: rest =>
      match n with
      | Const old =>
          let! slot := index mp old in
          match slot with
          | Some v =>
              let! (out, dst) := remap_loop rest donor dst mp in Ok (Const v :: out, dst)
          | None =>
              let v := List.length dst in
              if v <=? u16_max then
                let! c := index donor old in
                let! mp := set_index mp old (Some v) in
                let! (out, dst) := remap_loop rest donor (dst ++ [c]) mp in Ok (Const v :: out, dst)
              else Panic
          end
      | _ => let! (out, dst) := remap_loop rest donor dst mp in Ok (n :: out, dst)
      end
  end.
Definition remap_subtree_consts {T} (ns : list pnode) (donor dst : list T) : res (list pnode * list T) :=
  remap_loop ns donor dst (fill (List.length donor) None).

(** mutation_functions.rs:525-591 [crossover_trees]. *)
Definition crossover_trees {T} (g : rng T) (a b : expr T) : res (expr T * expr T * rng T) :=
  let! a_sizes := subtree_sizes (nodes a) in
  let! b_sizes := subtree_sizes (nodes b) in
  let! (a_root, g) := usize_range g 0 (List.length (nodes a)) in
  let! (b_root, g) := usize_range g 0 (List.length (nodes b)) in
  let! (a_start, a_end) := subtree_range a_sizes a_root in
  let! (b_start, b_end) := subtree_range b_sizes b_root in
  let! a_sub := slice_incl (nodes a) a_start a_end in
  let! b_sub := slice_incl (nodes b) b_start b_end in
  let! (b_remap, a_consts) := remap_subtree_consts b_sub (consts b) (consts a) in
  let! a_pre := slice (nodes a) 0 a_start in
  let a_post := skipn (a_end + 1) (nodes a) in
  let! (a_remap, b_consts) := remap_subtree_consts a_sub (consts a) (consts b) in
  let! b_pre := slice (nodes b) 0 b_start in
  let b_post := skipn (b_end + 1) (nodes b) in
  let! (child_a, _) := compress_constants (mkExpr (a_pre ++ b_remap ++ a_post) a_consts (var_names a)) in
  let! (child_b, _) := compress_constants (mkExpr (b_pre ++ a_remap ++ b_post) b_consts (var_names b)) in
  Ok (child_a, child_b, g).
