(** Model of population members, populations, the hall of fame and migration.
    symbolic_regression/src/pop_member.rs, population.rs, hall_of_fame.rs, migration.rs. *)
From Verif Require Import Base Node Compile Rng Registry Complexity.

(** pop_member.rs:13-23 [PopMember]; [MemberId] is its number; ids and birth stamps are u64, modelled unbounded. *)
Record member (T : Type) : Type := mkMember {
  m_id : nat;
  m_parent : option nat;
  m_birth : nat;
  m_expr : expr T;
  m_plan : plan;
  m_complexity : nat;
  m_loss : T;
  m_cost : T }.
Arguments mkMember {T}. Arguments m_id {T}. Arguments m_parent {T}. Arguments m_birth {T}. Arguments m_expr {T}.
Arguments m_plan {T}. Arguments m_complexity {T}. Arguments m_loss {T}. Arguments m_cost {T}.

(** [PartialOrd::partial_cmp] of floats. *)
Definition partial_cmp {T} (F : FloatOps T) (a b : T) : option comparison :=
  if fltb F a b then Some Lt else if feqb F a b then Some Eq else if fltb F b a then Some Gt else None.
(** [a.partial_cmp(b).unwrap_or(Ordering::Greater)] *)
Definition cmp_or_greater {T} (F : FloatOps T) (a b : T) : comparison :=
  match partial_cmp F a b with Some c => c | None => Gt end.
Definition is_less (c : comparison) : bool := match c with Lt => true | _ => false end.

(** [slice::sort_by] with the comparison [cmp]: a stable sort. When [cmp] is not a consistent total order (NaN keys)
    the standard library leaves the order unspecified and may panic; theorems about the order assume no NaN. *)
Fixpoint insert_by {A} (cmp : A -> A -> comparison) (x : A) (l : list A) : list A :=
  match l with
  | [] => [x]
  | y :: l' => if is_less (cmp y x) then y :: insert_by cmp x l' else x :: l
  end.
Fixpoint sort_by {A} (cmp : A -> A -> comparison) (l : list A) : list A :=
  match l with
  | [] => []
  | x :: l' => insert_by cmp x (sort_by cmp l')
  end.

(** population.rs:22-30 [oldest_index]: [min_by_key] keeps the first of equal minima. *)
Fixpoint min_index_from (bs : list nat) (i : nat) (best : nat * nat) : nat * nat :=
  match bs with
  | [] => best
  | b :: bs' => min_index_from bs' (S i) (if b <? snd best then (i, b) else best)
  end.
Definition oldest_index {T} (ms : list (member T)) : res nat :=
  match map m_birth ms with
  | [] => Panic
  | b :: bs => Ok (fst (min_index_from bs 1 (0, b)))
  end.

(** population.rs:32-59 [two_oldest_indices]: the loop over (i, birth). *)
Fixpoint two_oldest_loop (bs : list nat) (i : nat) (first second : option (nat * nat))
    : option (nat * nat) * option (nat * nat) :=
  match bs with
  | [] => (first, second)
  | b :: bs' =>
      match first with
      | None => two_oldest_loop bs' (S i) (Some (i, b)) second
      | Some (ifst, bf) =>
          if b <? bf then two_oldest_loop bs' (S i) (Some (i, b)) first
          else
            match second with
            | None => two_oldest_loop bs' (S i) first (if ifst =? i then None else Some (i, b))
            | Some (_, bs2) =>
                if (b <? bs2) && negb (ifst =? i) then two_oldest_loop bs' (S i) first (Some (i, b))
                else two_oldest_loop bs' (S i) first second
            end
      end
  end.
Definition two_oldest_indices {T} (ms : list (member T)) : res (nat * nat) :=
  let '(first, second) := two_oldest_loop (map m_birth ms) 0 None None in
  let! (i1, _) := expect first in
  let! (i2, _) := expect second in
  Ok (i1, i2).

(** population.rs:61-64 [replace_oldest]. *)
Definition replace_oldest {T} (ms : list (member T)) (child : member T) : res (list (member T)) :=
  let! idx := oldest_index ms in
  set_index ms idx child.

(** population.rs:66-70 [replace_two_oldest]. *)
Definition replace_two_oldest {T} (ms : list (member T)) (a b : member T) : res (list (member T)) :=
  let! (i1, i2) := two_oldest_indices ms in
  let! ms := set_index ms i1 a in
  set_index ms i2 b.

(** hall_of_fame.rs:7-9 [HallOfFame], :11-16 [new]. *)
Definition hof (T : Type) : Type := list (option (member T)).
Definition hof_new {T} (max_complexity : nat) : hof T := fill (max_complexity + 1) None.

(** hall_of_fame.rs:18-42 [consider]. [stale] is the content of the reused stack of [count_depth]. *)
Definition consider {T} (F : FloatOps T) (umax D : nat) (o : size_opts) (stale : list nat)
    (h : hof T) (m : member T) (curmaxsize : nat) : res (hof T) :=
  let! ok := check_constraints umax D stale o (m_expr m) curmaxsize in
  if negb ok then Ok h
  else
    let c := m_complexity m in
    if c =? 0 then Ok h
    else if List.length h <=? c then Ok h
    else
      let! slot := index h c in
      match slot with
      | None => set_index h c (Some m)
      | Some best =>
          if is_less (cmp_or_greater F (m_cost m) (m_cost best)) then set_index h c (Some m) else Ok h
      end.

(** hall_of_fame.rs:44-53 [update_from_members]. *)
Definition update_from_members {T} (F : FloatOps T) (umax D : nat) (o : size_opts) (stale : list nat)
    (h : hof T) (ms : list (member T)) (curmaxsize : nat) : res (hof T) :=
  foldM (fun h m => consider F umax D o stale h m curmaxsize) ms h.

(** hall_of_fame.rs:55-57 [members]. *)
Fixpoint hof_members {T} (h : hof T) : list (member T) :=
  match h with [] => [] | None :: h' => hof_members h' | Some m :: h' => m :: hof_members h' end.

(** hall_of_fame.rs:59-69 [pareto_front]. *)
Fixpoint pareto_loop {T} (F : FloatOps T) (ms : list (member T)) (best_loss : T) : list (member T) :=
  match ms with
  | [] => []
  | m :: ms' =>
      if fltb F (m_loss m) best_loss then m :: pareto_loop F ms' (m_loss m)
      else pareto_loop F ms' best_loss
  end.
Definition pareto_front {T} (F : FloatOps T) (h : hof T) : list (member T) :=
  pareto_loop F (hof_members h) (finf F).

(** migration.rs:10-23 [best_sub_pop]. The index vector always holds indices of [ms]. *)
Definition best_sub_pop {T} (F : FloatOps T) (ms : list (member T)) (topn : nat) : res (list (member T)) :=
  let cost i := match nth_error ms i with Some m => m_cost m | None => fnan F end in
  let idxs := sort_by (fun i j => cmp_or_greater F (cost i) (cost j)) (seq 0 (List.length ms)) in
  let idxs := firstn (Nat.min topn (List.length idxs)) idxs in
  mapM (index ms) idxs.

(** migration.rs:53-63: the loop body, repeated [n] times. *)
Fixpoint migrate_loop {T W} (n : nat) (ms migrants : list (member T)) (r : rng W) (next_id next_birth : nat)
    : res (list (member T) * rng W * nat * nat) :=
  match n with
  | 0 => Ok (ms, r, next_id, next_birth)
  | S n' =>
      let! (loc, r) := usize_range r 0 (List.length ms) in
      let! (k, r) := usize_range r 0 (List.length migrants) in   (* random.rs:87-93 [choose] *)
      let! src := index migrants k in
      let m := mkMember next_id (Some (m_id src)) next_birth (m_expr src) (m_plan src) (m_complexity src) (m_loss src) (m_cost src) in
      let! ms := set_index ms loc m in
      migrate_loop n' ms migrants r (next_id + 1) (next_birth + 1)
  end.

(** migration.rs:25-64 [migrate_into]. [W] is f64; [poisson] stands for random.rs:21-75 [poisson_sample], whose
    returned count is arbitrary here; [of_nat] is [as f64]. *)
Definition migrate_into {T W} (FW : FloatOps W) (of_nat : nat -> W) (poisson : rng W -> W -> nat * rng W)
    (ms migrants : list (member T)) (frac : W) (r : rng W) (next_id next_birth : nat)
    : res (list (member T) * rng W * nat * nat) :=
  match migrants with
  | [] => Ok (ms, r, next_id, next_birth)
  | _ =>
      if fleb FW frac (fzero FW) then Ok (ms, r, next_id, next_birth)
      else
        match ms with
        | [] => Ok (ms, r, next_id, next_birth)
        | _ =>
            let mean := fmul FW (of_nat (List.length ms)) frac in
            if negb (ffinite FW mean) then Ok (ms, r, next_id, next_birth)
            else
              let '(n_replace, r) := poisson r mean in
              let n_replace := Nat.min (Nat.min n_replace (List.length ms)) (List.length migrants) in
              if n_replace =? 0 then Ok (ms, r, next_id, next_birth)
              else migrate_loop n_replace ms migrants r next_id next_birth
        end
  end.
