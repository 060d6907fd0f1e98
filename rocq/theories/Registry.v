(** Model of operator lookup (dynamic_expressions/src/traits.rs) and of the operator registry
    (symbolic_regression/src/operators.rs). *)
From Coq Require Import String Ascii.
From Verif Require Import Base Rng.
From Coq Require Import List.
Import ListNotations.

(** traits.rs:15-19 [OpId]. *)
Definition opid : Type := (nat * nat)%type.  (* arity, id *)
Definition opid_eqb (a b : opid) : bool := (fst a =? fst b) && (snd a =? snd b).

(** What [OperatorSet] says about each operator (traits.rs:40-105): [ops_with_arity], [name], [display], [infix]. *)
Record optable : Type := mkTable {
  max_ar : nat;
  ops_with_arity : nat -> list nat;
  op_name : opid -> string;
  op_display : opid -> string;
  op_infix : opid -> option string }.

(** Rust [char::is_whitespace] on ASCII. *)
Definition is_ws (c : ascii) : bool :=
  let n := nat_of_ascii c in (n =? 32) || ((9 <=? n) && (n <=? 13)).
Fixpoint trim_start (s : string) : string :=
  match s with
  | EmptyString => EmptyString
  | String c s' => if is_ws c then trim_start s' else s
  end.
Fixpoint rev_string (s acc : string) : string :=
  match s with EmptyString => acc | String c s' => rev_string s' (String c acc) end.
(** [str::trim] on ASCII text. *)
Definition trim (s : string) : string :=
  rev_string (trim_start (rev_string (trim_start s) EmptyString)) EmptyString.

(** [to_ascii_lowercase] of one byte. *)
Definition lower (c : ascii) : ascii :=
  let n := nat_of_ascii c in if (65 <=? n) && (n <=? 90) then ascii_of_nat (n + 32) else c.
(** [str::eq_ignore_ascii_case]. *)
Fixpoint eq_ignore_case (a b : string) : bool :=
  match a, b with
  | EmptyString, EmptyString => true
  | String x a', String y b' => Ascii.eqb (lower x) (lower y) && eq_ignore_case a' b'
  | _, _ => false
  end.

(** traits.rs:119-122 [matches_token]. *)
Definition matches_token (tb : optable) (op : opid) (tok : string) : bool :=
  let t := trim tok in
  eq_ignore_case t (op_name tb op) || String.eqb t (op_display tb op)
  || match op_infix tb op with Some s => String.eqb t s | None => false end.

(** traits.rs:125-131 [for_each_op], as the list of operators visited. *)
Definition all_ops (tb : optable) : list opid :=
  flat_map (fun a => map (fun id => (a, id)) (ops_with_arity tb a)) (seq 1 (max_ar tb)).

(** traits.rs:133-141 [lookup_all]. *)
Definition lookup_all (tb : optable) (tok : string) : list opid :=
  filter (fun op => matches_token tb op tok) (all_ops tb).

(** traits.rs [LookupError]. *)
Inductive lookup_error : Type := Unknown (tok : string) | Ambiguous (tok : string) (candidates : list string).

(** traits.rs:145-152, 163-170: the [match] on the matching operators. *)
Definition unique_match (tb : optable) (tok : string) (ms : list opid) : opid + lookup_error :=
  match ms with
  | [] => inr (Unknown (trim tok))
  | [single] => inl single
  | _ => inr (Ambiguous (trim tok) (map (op_name tb) ms))
  end.

(** traits.rs:143-153 [lookup]. *)
Definition lookup (tb : optable) (tok : string) : opid + lookup_error :=
  unique_match tb tok (lookup_all tb tok).

(** traits.rs:155-171 [lookup_with_arity]. *)
Definition lookup_with_arity (tb : optable) (tok : string) (arity : nat) : opid + lookup_error :=
  unique_match tb tok (filter (fun op => matches_token tb op tok) (map (fun id => (arity, id)) (ops_with_arity tb arity))).

(** operators.rs:12-14 [Operators<D>]: the lists [ops_by_arity], of length [D]. *)
Definition registry : Type := list (list opid).

(** operators.rs:102-109 [OperatorSelectError]. *)
Inductive select_error : Type :=
| ELookup (e : lookup_error)
| EArityMismatch (tok : string) (expected found : nat)
| EArityTooLarge (tok : string) (arity max : nat)
| EDuplicate (tok : string)
| EEmpty.

(** operators.rs:136-140 [new]. *)
Definition reg_new (D : nat) : registry := repeat [] D.

(** operators.rs:142-146 [push]. *)
Definition reg_push (D : nat) (reg : registry) (op : opid) : res registry :=
  let! _ := assert_ ((1 <=? fst op) && (fst op <=? D)) in
  let! v := index reg (fst op - 1) in
  set_index reg (fst op - 1) (v ++ [op]).

(** operators.rs:148-150 [nops]; [arity - 1] underflows (a panic) at 0. *)
Definition nops (reg : registry) (arity : nat) : res nat :=
  match arity with
  | 0 => Panic
  | S a => let! v := index reg a in Ok (List.length v)
  end.

Definition sum_nops (reg : registry) (max : nat) : res nat :=
  foldM (fun s a => let! n := nops reg a in Ok (s + n)) (seq 1 max) 0.

(** operators.rs:152-155 [total_ops_up_to]. *)
Definition total_ops_up_to (D : nat) (reg : registry) (max_arity : nat) : res nat :=
  sum_nops reg (Nat.min max_arity D).

(** operators.rs:162-169: the loop of [sample_arity]; falling through is [unreachable!]. *)
Fixpoint pick_arity (reg : registry) (arities : list nat) (r : nat) : res nat :=
  match arities with
  | [] => Panic
  | a :: rest =>
      let! n := nops reg a in
      if r <? n then Ok a else pick_arity reg rest (r - n)
  end.

(** operators.rs:157-170 [sample_arity]. *)
Definition sample_arity {T} (D : nat) (reg : registry) (g : rng T) (max_arity : nat) : res (nat * rng T) :=
  let max := Nat.min max_arity D in
  let! total := sum_nops reg max in
  let! _ := assert_ (0 <? total) in
  let! (r, g) := usize_range g 0 total in
  let! a := pick_arity reg (seq 1 max) r in
  Ok (a, g).

(** operators.rs:172-176 [sample_op]. *)
Definition sample_op {T} (reg : registry) (g : rng T) (arity : nat) : res (opid * rng T) :=
  match arity with
  | 0 => Panic
  | S a =>
      let! v := index reg a in
      let! (i, g) := usize_range g 0 (List.length v) in
      let! op := index v i in
      Ok (op, g)
  end.

(** A Rust [Result] inside a computation that may panic. *)
Definition outcome : Type := res (registry + select_error).

(** operators.rs:185-199 loop of [from_names]; [seen] is the hash set. *)
Fixpoint from_names_loop (tb : optable) (D : nat) (names : list string) (reg : registry) (seen : list opid) : outcome :=
  match names with
  | [] => Ok (inl reg)
  | tok :: rest =>
      match lookup tb tok with
      | inr e => Ok (inr (ELookup e))
      | inl op =>
          if D <? fst op then Ok (inr (EArityTooLarge tok (fst op) D))
          else if existsb (opid_eqb op) seen then Ok (inr (EDuplicate tok))
          else let! reg' := reg_push D reg op in from_names_loop tb D rest reg' (op :: seen)
      end
  end.

(** operators.rs:178-201 [from_names]. *)
Definition from_names (tb : optable) (D : nat) (names : list string) : outcome :=
  match names with
  | [] => Ok (inr EEmpty)
  | _ => from_names_loop tb D names (reg_new D) []
  end.

(** operators.rs:215-238 the two nested loops of [from_names_by_arity], over the pairs (expected arity, token). *)
Fixpoint by_arity_loop (tb : optable) (D : nat) (toks : list (nat * string)) (reg : registry) (seen : list opid) : outcome :=
  match toks with
  | [] => Ok (inl reg)
  | (expected, tok) :: rest =>
      match lookup_with_arity tb tok expected with
      | inr e => Ok (inr (ELookup e))
      | inl op =>
          if negb (fst op =? expected) then Ok (inr (EArityMismatch tok expected (fst op)))
          else if D <? fst op then Ok (inr (EArityTooLarge tok (fst op) D))
          else if existsb (opid_eqb op) seen then Ok (inr (EDuplicate tok))
          else let! reg' := reg_push D reg op in by_arity_loop tb D rest reg' (op :: seen)
      end
  end.

(** operators.rs:203-241 [from_names_by_arity]. *)
Definition from_names_by_arity (tb : optable) (D : nat) (unary binary ternary : list string) : outcome :=
  match unary, binary, ternary with
  | [], [], [] => Ok (inr EEmpty)
  | _, _, _ =>
      by_arity_loop tb D (map (pair 1) unary ++ map (pair 2) binary ++ map (pair 3) ternary) (reg_new D) []
  end.
