(** Shared vocabulary of the model: results of Rust computations, list access
    with explicit failure, and the scalar type. No repository code is modelled
    here; every item says which Rust construct it stands for. *)
From Coq Require Export List Arith ZArith NArith Bool Lia String Permutation.
From Coq Require Export ZifyBool ZifyNat ZifyN.
Export ListNotations.
Open Scope nat_scope.
Open Scope list_scope.

(** Outcome of running Rust code: a value, a panic, or (only for loops that the
    model has to bound) exhaustion of the fuel, which is never a normal result. *)
Inductive res (A : Type) : Type :=
| Ok (a : A)
| Panic
| OutOfFuel.
Arguments Ok {A} a.
Arguments Panic {A}.
Arguments OutOfFuel {A}.

Definition bind {A B} (r : res A) (f : A -> res B) : res B :=
  match r with
  | Ok a => f a
  | Panic => Panic
  | OutOfFuel => OutOfFuel
  end.
Notation "'let!' x := r 'in' k" := (bind r (fun x => k))
  (at level 200, x pattern, r at level 100, k at level 200, right associativity).

(** [assert!(b)] / [assert_eq!] / [debug_assert!]. *)
Definition assert_ (b : bool) : res unit := if b then Ok tt else Panic.

(** [Option::expect]/[unwrap]/slice indexing: [None] is a panic. *)
Definition expect {A} (o : option A) : res A :=
  match o with Some a => Ok a | None => Panic end.

Definition is_ok {A} (r : res A) : Prop := exists a, r = Ok a.

(** [l[i]] *)
Definition index {A} (l : list A) (i : nat) : res A := expect (nth_error l i).

(** [l[a..a+n]] : panics when the end lies beyond the slice. *)
Definition slice {A} (l : list A) (a n : nat) : res (list A) :=
  if a + n <=? List.length l then Ok (firstn n (skipn a l)) else Panic.

(** [l[i] = x] *)
Fixpoint upd {A} (l : list A) (i : nat) (x : A) : list A :=
  match l, i with
  | [], _ => []
  | _ :: l', 0 => x :: l'
  | y :: l', S i' => y :: upd l' i' x
  end.

(** [l[i] = x] with the bounds check. *)
Definition set_index {A} (l : list A) (i : nat) (x : A) : res (list A) :=
  if i <? List.length l then Ok (upd l i x) else Panic.

(** [vec![x; n]] *)
Definition fill {A} (n : nat) (x : A) : list A := repeat x n.

(** [u16::MAX] and [u8::MAX], kept symbolic. *)
Definition u16_max : nat := N.to_nat 65535.
Definition u8_max : nat := N.to_nat 255.
Global Arguments u16_max : simpl never.
Global Arguments u8_max : simpl never.

Fixpoint mapM {A B} (f : A -> res B) (l : list A) : res (list B) :=
  match l with
  | [] => Ok []
  | a :: l' => let! b := f a in let! bs := mapM f l' in Ok (b :: bs)
  end.

Fixpoint foldM {A S} (f : S -> A -> res S) (l : list A) (s : S) : res S :=
  match l with
  | [] => Ok s
  | a :: l' => let! s' := f s a in foldM f l' s'
  end.

(** The scalar type [T: num_traits::Float]: operations only, no laws. *)
Record FloatOps (T : Type) : Type := {
  fzero : T;
  fone : T;
  fnan : T;
  finf : T;
  fadd : T -> T -> T;
  fsub : T -> T -> T;
  fmul : T -> T -> T;
  fdiv : T -> T -> T;
  fneg : T -> T;
  ffinite : T -> bool;      (* is_finite *)
  fis_zero : T -> bool;     (* Zero::is_zero *)
  fltb : T -> T -> bool;    (* <  (false on NaN) *)
  feqb : T -> T -> bool     (* == (false on NaN) *)
}.
Arguments fzero {T} _. Arguments fone {T} _. Arguments fnan {T} _. Arguments finf {T} _.
Arguments fadd {T} _ _ _. Arguments fsub {T} _ _ _. Arguments fmul {T} _ _ _.
Arguments fdiv {T} _ _ _. Arguments fneg {T} _ _. Arguments ffinite {T} _ _.
Arguments fis_zero {T} _ _. Arguments fltb {T} _ _ _. Arguments feqb {T} _ _ _.

Definition fleb {T} (F : FloatOps T) (a b : T) : bool := fltb F a b || feqb F a b.
Definition fgtb {T} (F : FloatOps T) (a b : T) : bool := fltb F b a.
Definition fgeb {T} (F : FloatOps T) (a b : T) : bool := fltb F b a || feqb F a b.
