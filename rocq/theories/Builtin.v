(** Model of the built-in operators (dynamic_expressions/src/operator_enum.rs:1-636) and of their numbering in the preset operator sets (638-673). *)
From Verif Require Import Base Node.

(** The functions of num_traits::Float the operators call, beyond those of [FloatOps]. They are parameters. *)
Record MathOps (T : Type) : Type := mkMath {
  mo_sin : T -> T; mo_cos : T -> T; mo_tan : T -> T; mo_asin : T -> T; mo_acos : T -> T; mo_atan : T -> T;
  mo_sinh : T -> T; mo_cosh : T -> T; mo_tanh : T -> T; mo_asinh : T -> T; mo_acosh : T -> T; mo_atanh : T -> T;
  mo_exp : T -> T; mo_exp2 : T -> T; mo_exp_m1 : T -> T; mo_ln : T -> T; mo_log2 : T -> T; mo_log10 : T -> T; mo_ln_1p : T -> T;
  mo_sqrt : T -> T; mo_cbrt : T -> T; mo_abs : T -> T; mo_recip : T -> T; mo_signum : T -> T;
  mo_powf : T -> T -> T; mo_atan2 : T -> T -> T; mo_min : T -> T -> T; mo_max : T -> T -> T;
  mo_mul_add : T -> T -> T -> T; mo_clamp : T -> T -> T -> T; mo_is_nan : T -> bool;
  mo_three : T; mo_ten : T; mo_half : T }.
Arguments mkMath {T}.
Arguments mo_sin {T}. Arguments mo_cos {T}. Arguments mo_tan {T}. Arguments mo_asin {T}. Arguments mo_acos {T}. Arguments mo_atan {T}.
Arguments mo_sinh {T}. Arguments mo_cosh {T}. Arguments mo_tanh {T}. Arguments mo_asinh {T}. Arguments mo_acosh {T}. Arguments mo_atanh {T}.
Arguments mo_exp {T}. Arguments mo_exp2 {T}. Arguments mo_exp_m1 {T}. Arguments mo_ln {T}. Arguments mo_log2 {T}. Arguments mo_log10 {T}. Arguments mo_ln_1p {T}.
Arguments mo_sqrt {T}. Arguments mo_cbrt {T}. Arguments mo_abs {T}. Arguments mo_recip {T}. Arguments mo_signum {T}.
Arguments mo_powf {T}. Arguments mo_atan2 {T}. Arguments mo_min {T}. Arguments mo_max {T}. Arguments mo_mul_add {T}. Arguments mo_clamp {T}. Arguments mo_is_nan {T}.
Arguments mo_three {T}. Arguments mo_ten {T}. Arguments mo_half {T}.

Inductive builtin1 : Type := Abs | Abs2 | Acos | Acosh | Asin | Asinh | Atan | Atanh | Cbrt | Cos | Cosh | Cot | Csc | Exp | Exp2 | Expm1 | Identity | Inv
  | Log | Log1p | Log2 | Log10 | Neg | Sec | Sign | Sin | Sinh | Sqrt | Tan | Tanh.
Inductive builtin2 : Type := Add | Atan2 | Div | Max | Min | Mul | Pow | Sub.
Inductive builtin3 : Type := Clamp | Fma.

(** operator_enum.rs:659-672 [BuiltinOpsF64] (645-657 [BuiltinOpsF32]): an operator's id is its position. *)
Definition unary_ids : list builtin1 :=
  [Abs; Abs2; Acos; Acosh; Asin; Asinh; Atan; Atanh; Cbrt; Cos; Cosh; Cot; Csc; Exp; Exp2; Expm1; Identity; Inv; Log; Log1p; Log2; Log10; Neg; Sec; Sign; Sin; Sinh;
   Sqrt; Tan; Tanh].
Definition binary_ids : list builtin2 := [Add; Atan2; Div; Max; Min; Mul; Pow; Sub].
Definition ternary_ids : list builtin3 := [Clamp; Fma].

Section Builtin.
Context {T : Type} (F : FloatOps T) (M : MathOps T).
Local Notation one := (fone F).
Local Notation zero := (fzero F).
Local Notation "a + b" := (fadd F a b).
Local Notation "a - b" := (fsub F a b).
Local Notation "a * b" := (fmul F a b).
Local Notation "a / b" := (fdiv F a b).
Local Notation "- a" := (fneg F a).

(** operator_enum.rs:4-6 [two]. *)
Definition two : T := one + one.

(** operator_enum.rs:83-416, the [eval] blocks. *)
Definition eval1 (b : builtin1) (x : T) : T :=
  match b with
  | Abs => mo_abs M x                   (* 349 *)
  | Abs2 => x * x                       (* 368 *)
  | Acos => mo_acos M x                 (* 127 *)
  | Acosh => mo_acosh M x               (* 190 *)
  | Asin => mo_asin M x                 (* 117 *)
  | Asinh => mo_asinh M x               (* 180 *)
  | Atan => mo_atan M x                 (* 137 *)
  | Atanh => mo_atanh M x               (* 203 *)
  | Cbrt => mo_cbrt M x                 (* 336 *)
  | Cos => mo_cos M x                   (* 84 *)
  | Cosh => mo_cosh M x                 (* 157 *)
  | Cot => one / mo_tan M x             (* 240 *)
  | Csc => one / mo_sin M x             (* 226 *)
  | Exp => mo_exp M x                   (* 253 *)
  | Exp2 => mo_exp2 M x                 (* 306 *)
  | Expm1 => mo_exp_m1 M x              (* 316 *)
  | Identity => x                       (* 398 *)
  | Inv => mo_recip M x                 (* 378 *)
  | Log => mo_ln M x                    (* 263 *)
  | Log1p => mo_ln_1p M x               (* 296 *)
  | Log2 => mo_log2 M x                 (* 273 *)
  | Log10 => mo_log10 M x               (* 283 *)
  | Neg => - x                          (* 409 *)
  | Sec => one / mo_cos M x             (* 213 *)
  | Sign => mo_signum M x               (* 388 *)
  | Sin => mo_sin M x                   (* 94 *)
  | Sinh => mo_sinh M x                 (* 147 *)
  | Sqrt => mo_sqrt M x                 (* 326 *)
  | Tan => mo_tan M x                   (* 104 *)
  | Tanh => mo_tanh M x                 (* 167 *)
  end.

(** operator_enum.rs:83-416, the [partial] blocks at index 0. [powi(2)] is a product. *)
Definition partial1 (b : builtin1) (x : T) : T :=
  match b with
  | Abs => if fgtb F x zero then one else if fltb F x zero then - one else zero   (* 350-364 *)
  | Abs2 => two * x                                                      (* 369-374 *)
  | Acos => - one / mo_sqrt M (one - x * x)                              (* 128-133 *)
  | Acosh => one / (mo_sqrt M (x - one) * mo_sqrt M (x + one))           (* 191-199 *)
  | Asin => one / mo_sqrt M (one - x * x)                                (* 118-123 *)
  | Asinh => one / mo_sqrt M (x * x + one)                               (* 181-186 *)
  | Atan => one / (one + x * x)                                          (* 138-143 *)
  | Atanh => one / (one - x * x)                                         (* 204-209 *)
  | Cbrt => one / (mo_three M * (mo_cbrt M x * mo_cbrt M x))             (* 337-345 *)
  | Cos => - mo_sin M x                                                  (* 85-90 *)
  | Cosh => mo_sinh M x                                                  (* 158-163 *)
  | Cot => let s := mo_sin M x in - one / (s * s)                        (* 241-249 *)
  | Csc => let csc := one / mo_sin M x in let cot := one / mo_tan M x in - csc * cot   (* 227-236 *)
  | Exp => mo_exp M x                                                    (* 254-259 *)
  | Exp2 => mo_exp2 M x * mo_ln M two                                    (* 307-312 *)
  | Expm1 => mo_exp M x                                                  (* 317-322 *)
  | Identity => one                                                      (* 399-404 *)
  | Inv => - one / (x * x)                                               (* 379-384 *)
  | Log => one / x                                                       (* 264-269 *)
  | Log1p => one / (one + x)                                             (* 297-302 *)
  | Log2 => one / (x * mo_ln M two)                                      (* 274-279 *)
  | Log10 => one / (x * mo_ln M (mo_ten M))                              (* 284-292 *)
  | Neg => - one                                                         (* 410-415 *)
  | Sec => let sec := one / mo_cos M x in sec * mo_tan M x               (* 214-222 *)
  | Sign => zero                                                         (* 389-394 *)
  | Sin => mo_cos M x                                                    (* 95-100 *)
  | Sinh => mo_cosh M x                                                  (* 148-153 *)
  | Sqrt => one / (two * mo_sqrt M x)                                    (* 327-332 *)
  | Tan => let c := mo_cos M x in one / (c * c)                          (* 105-113 *)
  | Tanh => let c := mo_cosh M x in one / (c * c)                        (* 168-176 *)
  end.

(** operator_enum.rs:418-589, [eval]. *)
Definition eval2 (b : builtin2) (x y : T) : T :=
  match b with
  | Add => x + y                        (* 422 *)
  | Atan2 => mo_atan2 M x y             (* 484 *)
  | Div => x / y                        (* 459 *)
  | Max => mo_max M x y                 (* 547 *)
  | Min => mo_min M x y                 (* 500 *)
  | Mul => x * y                        (* 447 *)
  | Pow => mo_powf M x y                (* 470 *)
  | Sub => x - y                        (* 433 *)
  end.

(** operator_enum.rs:501-541, 548-588: the partial of [Min] and [Max] at one argument, given the other. *)
Definition min_partial (self other : T) : T :=
  if mo_is_nan M self && mo_is_nan M other then mo_half M
  else if mo_is_nan M self then zero else if mo_is_nan M other then one
  else if fltb F self other then one else if fgtb F self other then zero else mo_half M.
Definition max_partial (self other : T) : T :=
  if mo_is_nan M self && mo_is_nan M other then mo_half M
  else if mo_is_nan M self then zero else if mo_is_nan M other then one
  else if fgtb F self other then one else if fltb F self other then zero else mo_half M.

(** operator_enum.rs:418-589, [partial]; any index beyond 1 is [unreachable!]. *)
Definition partial2 (b : builtin2) (x y : T) (idx : nat) : T :=
  match b, idx with
  | Add, _ => one                                                        (* 423-428 *)
  | Atan2, 0 => let denom := y * y + x * x in y / denom                  (* 485-494; there y is the first argument *)
  | Atan2, _ => let denom := y * y + x * x in - x / denom
  | Div, 0 => one / y                                                    (* 460-466 *)
  | Div, _ => - x / (y * y)
  | Max, 0 => max_partial x y
  | Max, _ => max_partial y x
  | Min, 0 => min_partial x y
  | Min, _ => min_partial y x
  | Mul, 0 => y                                                          (* 448-454 *)
  | Mul, _ => x
  | Pow, 0 => y * mo_powf M x (y - one)                                  (* 471-480 *)
  | Pow, _ => mo_powf M x y * mo_ln M x
  | Sub, 0 => one                                                        (* 434-440 *)
  | Sub, _ => - one
  end.

(** operator_enum.rs:591-635. *)
Definition eval3 (b : builtin3) (x y z : T) : T :=
  match b with
  | Fma => mo_mul_add M x y z                                            (* 592 *)
  | Clamp => if fleb F y z then mo_clamp M x y z else if fltb F x y then y else if fgtb F x z then z else x   (* 604-618 *)
  end.
Definition partial3 (b : builtin3) (x y z : T) (idx : nat) : T :=
  match b, idx with
  | Fma, 0 => y                                                          (* 593-600 *)
  | Fma, 1 => x
  | Fma, _ => one
  | Clamp, 0 => if fltb F x y || fgtb F x z then zero else one           (* 619-634 *)
  | Clamp, 1 => if fltb F x y then one else zero
  | Clamp, _ => if fgtb F x z then one else zero
  end.

(** The operator set: [OperatorSet::eval] and [partial] dispatch on the arity and the id (operator_enum.rs:976-1031); an argument list of the wrong length or an unknown
    id does not occur (a panic, which [oknown] excludes), here the value is then [fnan]. *)
Definition builtin_ops : OpSet T := {|
  oknown := fun a id => match a with
    | 1 => id <? List.length unary_ids
    | 2 => id <? List.length binary_ids
    | 3 => id <? List.length ternary_ids
    | _ => false end;
  oeval := fun a id args => match a, args with
    | 1, [x] => match nth_error unary_ids id with Some b => eval1 b x | None => fnan F end
    | 2, [x; y] => match nth_error binary_ids id with Some b => eval2 b x y | None => fnan F end
    | 3, [x; y; z] => match nth_error ternary_ids id with Some b => eval3 b x y z | None => fnan F end
    | _, _ => fnan F end;
  opartial := fun a id args idx => match a, args with
    | 1, [x] => match nth_error unary_ids id with Some b => partial1 b x | None => fnan F end
    | 2, [x; y] => match nth_error binary_ids id with Some b => partial2 b x y idx | None => fnan F end
    | 3, [x; y; z] => match nth_error ternary_ids id with Some b => partial3 b x y z idx | None => fnan F end
    | _, _ => fnan F end |}.
End Builtin.
