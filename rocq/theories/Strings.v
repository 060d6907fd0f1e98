(** Model of printing: dynamic_expressions/src/strings.rs. A [str] is the list of its bytes. *)
From Coq Require Import String Ascii DecimalString Decimal.
From Verif Require Import Base Node Registry.
From Coq Require Import List.
Import ListNotations.
Local Open Scope list_scope.

Definition text : Type := list ascii.
Definition text_of (s : string) : text := list_ascii_of_string s.

(** [format!("{}", n)] of an unsigned integer. *)
Definition decimal (n : nat) : text := text_of (NilZero.string_of_uint (Nat.to_uint n)).

(** strings.rs:13-20 [default_string_variable]. *)
Definition default_string_variable (names : option (list text)) (feature : nat) : text :=
  match match names with Some ns => nth_error ns feature | None => None end with
  | Some name => name
  | None => text_of "x" ++ decimal feature
  end.

(** strings.rs:35-48: the scan for the closing bracket, from byte [i] (the counter is an [i32]: a text with 2^31 open brackets is not modelled).
    The result is the final value of [encloses_all]. *)
Fixpoint encloses_all (bytes : text) (i : nat) (depth : Z) (len : nat) : bool :=
  match bytes with
  | [] => false
  | b :: bytes' =>
      if Ascii.eqb b "(" then encloses_all bytes' (S i) (depth + 1)%Z len
      else if Ascii.eqb b ")" then
        (if (depth - 1 =? 0)%Z then i =? len - 1 else encloses_all bytes' (S i) (depth - 1)%Z len)
      else encloses_all bytes' (S i) depth len
  end.

(** strings.rs:26-56 [strip_outer_parens]; the loop removes two bytes per round, so the length is enough fuel. *)
Fixpoint strip_loop (fuel : nat) (s : text) : text :=
  match fuel with
  | 0 => s
  | S fuel =>
      if (List.length s <? 2) || negb (match s with b :: _ => Ascii.eqb b "(" | [] => false end) || negb (Ascii.eqb (last s " "%char) ")") then s
      else if encloses_all s 0 0%Z (List.length s) then strip_loop fuel (removelast (tl s))
      else s
  end.
Definition strip_outer_parens (s : text) : text := strip_loop (List.length s) s.

(** [[&str]::join]. *)
Fixpoint join (sep : text) (l : list text) : text :=
  match l with
  | [] => []
  | x :: l' => match l' with [] => x | _ => x ++ sep ++ join sep l' end
  end.

(** Running the children: a panic in one of them is a panic of the whole. *)
Fixpoint sequence {A} (l : list (res A)) : res (list A) :=
  match l with
  | [] => Ok []
  | r :: l' => let! x := r in let! xs := sequence l' in Ok (x :: xs)
  end.

(** strings.rs:82-100: the closure that combines the children's texts. *)
Definition combine_op (tb : optable) (pretty : bool) (op : opid) (children : list text) : text :=
  let op_display := text_of (if pretty then op_display tb op else match op_infix tb op with Some s => s | None => op_name tb op end) in
  if (match op_infix tb op with Some _ => true | None => false end) && (1 <? fst op)
  then text_of "(" ++ join (text_of " " ++ op_display ++ text_of " ") children ++ text_of ")"
  else op_display ++ text_of "(" ++ join (text_of ", ") (map strip_outer_parens children) ++ text_of ")".

(** strings.rs:58-103 [string_tree]. [names]: the variable names in force (lines 63-69 take the option's, else the expression's if there are any);
    [show] is [T]'s [Display]. *)
Definition string_tree {T} (tb : optable) (show : T -> text) (names : option (list text)) (pretty : bool) (e : expr T) : res text :=
  let! out := tree_mapreduce
    (fun n => match n with
              | Var f => Ok (default_string_variable names f)
              | Const i => let! c := index (consts e) i in Ok (show c)
              | Op _ _ => Panic
              end)
    (fun n => match n with Op a o => (a, o) | _ => (0, 0) end)
    (fun op cs => let! cs := sequence cs in
                  let! _ := assert_ (List.length cs =? fst op) in Ok (combine_op tb pretty op cs))
    (nodes e) in
  let! s := out in
  Ok (strip_outer_parens s).

(** operator_enum.rs:659-672 [BuiltinOpsF64] (and [BuiltinOpsF32], lines 645-657), with the names given by [stringify!] of the snake-cased
    identifier (line 12-14) and the infix symbols of lines 407-458; an unknown operator prints as traits.rs:81-93 say. *)
Local Open Scope string_scope.
Definition builtin_names (arity : nat) : list (string * option string) :=
  match arity with
  | 1 => [("abs", None); ("abs2", None); ("acos", None); ("acosh", None); ("asin", None); ("asinh", None); ("atan", None); ("atanh", None);
          ("cbrt", None); ("cos", None); ("cosh", None); ("cot", None); ("csc", None); ("exp", None); ("exp2", None); ("expm1", None);
          ("identity", None); ("inv", None); ("log", None); ("log1p", None); ("log2", None); ("log10", None);
          ("neg", Some "-"); ("sec", None); ("sign", None); ("sin", None); ("sinh", None); ("sqrt", None); ("tan", None); ("tanh", None)]
  | 2 => [("add", Some "+"); ("atan2", None); ("div", Some "/"); ("max", None); ("min", None); ("mul", Some "*"); ("pow", None); ("sub", Some "-")]
  | 3 => [("clamp", None); ("fma", None)]
  | _ => []
  end.
Definition builtin_meta (op : opid) : option (string * option string) := nth_error (builtin_names (fst op)) (snd op).
Definition builtin_table : optable := mkTable 3 (fun a => seq 0 (List.length (builtin_names a)))
  (fun op => match builtin_meta op with Some (n, _) => n | None => "unknown_op" end)
  (fun op => match builtin_meta op with Some (n, i) => match i with Some s => s | None => n end | None => "unknown_op" end)
  (fun op => match builtin_meta op with Some (_, i) => i | None => None end).
