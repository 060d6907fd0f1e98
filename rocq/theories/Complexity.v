(** Model of the complexity measure and of the constraint check.
    symbolic_regression/src/complexity.rs, check_constraints.rs, options.rs. *)
From Coq Require Import String.
From Verif Require Import Base Node Registry.
From Coq Require Import List.
Import ListNotations.

(** A [HashMap<OpId, V>]: a list of bindings, looked up by key. The order of the list is the
    (unspecified) iteration order; theorems hold for every order. *)
Fixpoint map_get {V} (m : list (opid * V)) (k : opid) : option V :=
  match m with
  | [] => None
  | (k', v) :: m' => if opid_eqb k' k then Some v else map_get m' k
  end.
(** [insert] and write-through of [entry(k).or_insert(..)]: replaces the binding or adds one. *)
Fixpoint map_set {V} (m : list (opid * V)) (k : opid) (v : V) : list (opid * V) :=
  match m with
  | [] => [(k, v)]
  | (k', v') :: m' => if opid_eqb k' k then (k', v) :: m' else (k', v') :: map_set m' k v
  end.

(** options.rs:43-207 [Options], the fields used by complexity.rs and check_constraints.rs. *)
Record size_opts : Type := mkSizeOpts {
  complexity_of_constants : nat;                          (* u16 *)
  complexity_of_variables : nat;                          (* u16 *)
  variable_complexities : option (list nat);              (* u16 *)
  operator_overrides : list (opid * nat);                 (* u16 *)
  maxdepth : nat;
  op_limits : list (opid * list (option nat));            (* op_constraints.limits: [Option<u16>; D] *)
  nested_limits : list (opid * list (opid * nat)) }.      (* nested_constraints.limits: u8 *)

(** options.rs:258-263 [uses_default_complexity]. *)
Definition uses_default_complexity (o : size_opts) : bool :=
  (complexity_of_constants o =? 1) && (complexity_of_variables o =? 1)
  && match variable_complexities o with None => true | Some _ => false end
  && match operator_overrides o with [] => true | _ => false end.

(** [usize::saturating_add] where [umax] is [usize::MAX] of the platform. *)
Definition sat_add (umax a b : nat) : nat := Nat.min umax (a + b).

(** complexity.rs:20-26: cost of a variable. *)
Definition var_cost (o : size_opts) (feature : nat) : nat :=
  match variable_complexities o with
  | None => complexity_of_variables o
  | Some v => match nth_error v feature with Some c => c | None => complexity_of_variables o end
  end.

(** complexity.rs:31-34: [for j in (0..a).rev() { child[j] = st.pop().unwrap_or(0) }]. *)
Fixpoint pop_children (a : nat) (st : list nat) (child : list nat) : res (list nat * list nat) :=
  match a with
  | 0 => Ok (child, st)
  | S j => let! child := set_index child j (hd 0 st) in pop_children j (tl st) child
  end.

(** complexity.rs:37-46: [true] when some argument exceeds its limit ([return None]). *)
Fixpoint over_limit (limits : list (option nat)) (child : list nat) (js : list nat) : res bool :=
  match js with
  | [] => Ok false
  | j :: js' =>
      let! l := index limits j in
      match l with
      | None => over_limit limits child js'
      | Some lim =>
          let! c := index child j in
          if lim <? c then Ok true else over_limit limits child js'
      end
  end.

(** complexity.rs:16-56: the loop over the nodes; [None] is the early [return None]. *)
Fixpoint complexity_loop (umax D : nat) (o : size_opts) (lims : option (list (opid * list (option nat))))
    (ns : list pnode) (st : list nat) : res (option (list nat)) :=
  match ns with
  | [] => Ok (Some st)
  | Var f :: ns' => complexity_loop umax D o lims ns' (var_cost o f :: st)
  | Const _ :: ns' => complexity_loop umax D o lims ns' (complexity_of_constants o :: st)
  | Op a op :: ns' =>
      let! (child, st') := pop_children a st (fill D 0) in
      let! over :=
        match match lims with Some m => map_get m (a, op) | None => None end with
        | Some limits => over_limit limits child (seq 0 a)
        | None => Ok false
        end in
      if over then Ok None
      else
        let sum := fold_left (sat_add umax) child 0 in
        let base := match map_get (operator_overrides o) (a, op) with Some b => b | None => 1 end in
        complexity_loop umax D o lims ns' (sat_add umax base sum :: st')
  end.

(** complexity.rs:9-62 [compute_custom_complexity_checked]. *)
Definition custom_complexity_checked (umax D : nat) (o : size_opts)
    (lims : option (list (opid * list (option nat)))) (ns : list pnode) : res (option nat) :=
  let! r := complexity_loop umax D o lims ns [] in
  match r with
  | Some [c] => Ok (Some c)
  | _ => Ok None
  end.

(** complexity.rs:64-70 [compute_complexity]. *)
Definition compute_complexity (umax D : nat) (o : size_opts) (ns : list pnode) : res nat :=
  if uses_default_complexity o then Ok (List.length ns)
  else
    let! r := custom_complexity_checked umax D o None ns in
    Ok (match r with Some c => c | None => 0 end).

(** check_constraints.rs:177-188 [child_ranges] has the same text as node_utils.rs:163-180, modelled
    by [Node.child_ranges]. *)

(** check_constraints.rs:90-99: the arguments of one operator; [true] = within limits. *)
Fixpoint args_within (sizes : list nat) (ranges : list (nat * nat)) (lims : list (option nat))
    (js : list nat) : res bool :=
  match js with
  | [] => Ok true
  | j :: js' =>
      let! l := index lims j in
      match l with
      | None => args_within sizes ranges lims js'
      | Some lim =>
          let! (_, end_) := index ranges j in
          let! sz := index sizes end_ in
          if lim <? sz then Ok false else args_within sizes ranges lims js'
      end
  end.

(** check_constraints.rs:80-100: the loop over the nodes. *)
Fixpoint default_args_loop (o : size_opts) (sizes : list nat) (ns : list pnode) (i : nat) : res bool :=
  match ns with
  | [] => Ok true
  | Op a op :: ns' =>
      match map_get (op_limits o) (a, op) with
      | None => default_args_loop o sizes ns' (S i)
      | Some lims =>
          let! ranges := child_ranges sizes i a in
          let! ok := args_within sizes ranges lims (seq 0 a) in
          if ok then default_args_loop o sizes ns' (S i) else Ok false
      end
  | _ :: ns' => default_args_loop o sizes ns' (S i)
  end.

(** check_constraints.rs:75-102 [check_default_op_arg_constraints]. *)
Definition check_default_args (o : size_opts) (ns : list pnode) : res bool :=
  match op_limits o with
  | [] => Ok true
  | _ =>
      let! sizes := subtree_sizes ns in
      default_args_loop o sizes ns 0
  end.

(** check_constraints.rs:123-126: maximum of the [a] popped values. *)
Fixpoint pop_max (a : nat) (st : list nat) (m : nat) : res (nat * list nat) :=
  match a with
  | 0 => Ok (m, st)
  | S a' => match st with [] => Panic | x :: st' => pop_max a' st' (Nat.max m x) end
  end.

(** check_constraints.rs:112-133: the loop of [nestedness_vec]; [out] grows at the end. *)
Fixpoint nestedness_loop (target : opid) (ns : list pnode) (st out : list nat)
    : res (option (list nat * list nat)) :=
  match ns with
  | [] => Ok (Some (st, out))
  | Op a op :: ns' =>
      if List.length st <? a then Ok None
      else
        let! (m, st') := pop_max a st 0 in
        let v := sat_add u16_max m (if opid_eqb (a, op) target then 1 else 0) in
        nestedness_loop target ns' (v :: st') (out ++ [v])
  | _ :: ns' => nestedness_loop target ns' (0 :: st) (out ++ [0])
  end.

(** check_constraints.rs:109-138 [nestedness_vec]. *)
Definition nestedness_vec (ns : list pnode) (target : opid) : res (option (list nat)) :=
  let! r := nestedness_loop target ns [] [] in
  match r with
  | Some ([_], out) => Ok (Some out)
  | _ => Ok None
  end.

(** check_constraints.rs:140-150: fill the cache; [None] is [return false]. *)
Fixpoint fill_cache (ns : list pnode) (targets : list opid) (cache : list (opid * list nat))
    : res (option (list (opid * list nat))) :=
  match targets with
  | [] => Ok (Some cache)
  | t :: ts =>
      match map_get cache t with
      | Some _ => fill_cache ns ts cache
      | None =>
          let! v := nestedness_vec ns t in
          match v with
          | None => Ok None
          | Some v => fill_cache ns ts (map_set cache t v)
          end
      end
  end.

(** check_constraints.rs:160-171: one rule at node [i]; [true] = within the limit. *)
Definition rule_ok (cache : list (opid * list nat)) (root : opid) (i : nat) (r : opid * nat) : bool :=
  let '(nested_op, max_n) := r in
  let v := match map_get cache nested_op with
           | Some vv => match nth_error vv i with Some v => v | None => 0 end
           | None => 0
           end in
  let v := if opid_eqb root nested_op && (0 <? v) then v - 1 else v in
  negb (max_n <? v).

(** check_constraints.rs:152-172: the loop over the nodes. *)
Fixpoint nested_loop (o : size_opts) (cache : list (opid * list nat)) (ns : list pnode) (i : nat) : bool :=
  match ns with
  | [] => true
  | Op a op :: ns' =>
      match map_get (nested_limits o) (a, op) with
      | None => nested_loop o cache ns' (S i)
      | Some rules => if forallb (rule_ok cache (a, op) i) rules then nested_loop o cache ns' (S i) else false
      end
  | _ :: ns' => nested_loop o cache ns' (S i)
  end.

(** check_constraints.rs:104-175 [check_nested_constraints]. *)
Definition check_nested (o : size_opts) (ns : list pnode) : res bool :=
  match nested_limits o with
  | [] => Ok true
  | _ =>
      let! cache := fill_cache ns (map fst (flat_map snd (nested_limits o))) [] in
      match cache with
      | None => Ok false
      | Some cache => Ok (nested_loop o cache ns 0)
      end
  end.

(** check_constraints.rs:44-73 [check_constraints]. *)
Definition check_constraints {T} (umax D : nat) (stale : list nat) (o : size_opts) (e : expr T) (curmaxsize : nat)
    : res bool :=
  let needs_depth_check := (maxdepth o <? curmaxsize) || negb (uses_default_complexity o) in
  let! too_deep :=
    (if needs_depth_check then let! d := count_depth stale (nodes e) in Ok (maxdepth o <? d) else Ok false) in
  if too_deep then Ok false
  else if uses_default_complexity o then
    if curmaxsize <? List.length (nodes e) then Ok false
    else
      let! ok := check_default_args o (nodes e) in
      if ok then check_nested o (nodes e) else Ok false
  else
    let! total := custom_complexity_checked umax D o (Some (op_limits o)) (nodes e) in
    match total with
    | None => Ok false
    | Some total => if curmaxsize <? total then Ok false else check_nested o (nodes e)
    end.

(** check_constraints.rs:25-29 [OpConstraints::set_op_arg_constraint]. *)
Definition set_op_arg_constraint (D : nat) (m : list (opid * list (option nat))) (op : opid) (arg_idx max_complexity : nat)
    : res (list (opid * list (option nat))) :=
  let! _ := assert_ (arg_idx <? D) in
  let entry := match map_get m op with Some l => l | None => fill D None end in
  let! entry := set_index entry arg_idx (Some max_complexity) in
  Ok (map_set m op entry).

(** check_constraints.rs:39-41 [NestedConstraints::add_nested_constraint]. *)
Definition add_nested_constraint (m : list (opid * list (opid * nat))) (root nested : opid) (max_nestedness : nat)
    : list (opid * list (opid * nat)) :=
  map_set m root (match map_get m root with Some l => l | None => [] end ++ [(nested, max_nestedness)]).
