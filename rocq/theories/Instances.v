(** Concrete arithmetics and operator sets used by examples and refutations. *)
From Verif Require Import Base Node DerivSpec.
From Coq Require Import SpecFloat.

(** Exact integers; there is no NaN, every value is finite. *)
Definition zops : FloatOps Z := {|
  fzero := 0%Z; fone := 1%Z; fnan := 0%Z; finf := 0%Z;
  fadd := Z.add; fsub := Z.sub; fmul := Z.mul; fdiv := Z.div; fneg := Z.opp;
  ffinite := fun _ => true; fis_zero := Z.eqb 0; fltb := Z.ltb; feqb := Z.eqb |}.

Lemma zops_zero_laws : ZeroLaws zops.
Proof.
  split; intros.
  - reflexivity.
  - apply Z.mul_0_r.
  - change (Z.eqb 0 a = true) in H. apply Z.eqb_eq in H. auto.
Qed.

(** IEEE binary64 / binary32 arithmetic, from the standard library's executable specification. *)
Definition sf_finite (x : spec_float) : bool :=
  match x with S754_zero _ | S754_finite _ _ _ => true | _ => false end.
Definition sf_is_zero (x : spec_float) : bool := match x with S754_zero _ => true | _ => false end.
Definition sfops (prec emax : Z) : FloatOps spec_float := {|
  fzero := S754_zero false;
  fone := binary_normalize prec emax 1 0 false;
  fnan := S754_nan;
  finf := S754_infinity false;
  fadd := SFadd prec emax; fsub := SFsub prec emax; fmul := SFmul prec emax; fdiv := SFdiv prec emax;
  fneg := SFopp; ffinite := sf_finite; fis_zero := sf_is_zero; fltb := SFltb; feqb := SFeqb |}.
Definition f64ops := sfops 53 1024.
Definition f32ops := sfops 24 128.

(** An integer-valued binary64/binary32 literal, times a power of two. *)
Definition f64lit (m e : Z) : spec_float := binary_normalize 53 1024 m e false.
Definition f32lit (m e : Z) : spec_float := binary_normalize 24 128 m e false.

(** Operator set with the built-in ids (operator_enum.rs) of the rational operators:
    unary Neg 22, Inv 17; binary Add 0, Div 2, Mul 5, Sub 7; ternary Fma 1.
    Partials as in operator_enum.rs:377-400, 407-500, 591-601. [recip] is written as a division and the
    fused [mul_add] as a product and a sum. *)
Definition rational_ops {T} (F : FloatOps T) : OpSet T := {|
  oknown := fun a o =>
    match a, o with
    | 1, 17 | 1, 22 | 2, 0 | 2, 2 | 2, 5 | 2, 7 | 3, 1 => true
    | _, _ => false
    end;
  oeval := fun a o args =>
    match a, o, args with
    | 1, 17, [x] => fdiv F (fone F) x
    | 1, 22, [x] => fneg F x
    | 2, 0, [x; y] => fadd F x y
    | 2, 2, [x; y] => fdiv F x y
    | 2, 5, [x; y] => fmul F x y
    | 2, 7, [x; y] => fsub F x y
    | 3, 1, [x; y; z] => fadd F (fmul F x y) z
    | _, _, _ => fnan F
    end;
  opartial := fun a o args j =>
    match a, o, args, j with
    | 1, 17, [x], 0 => fdiv F (fneg F (fone F)) (fmul F x x)
    | 1, 22, [x], 0 => fneg F (fone F)
    | 2, 0, [x; y], (0 | 1) => fone F
    | 2, 2, [x; y], 0 => fdiv F (fone F) y
    | 2, 2, [x; y], 1 => fdiv F (fneg F x) (fmul F y y)
    | 2, 5, [x; y], 0 => y
    | 2, 5, [x; y], 1 => x
    | 2, 7, [x; y], 0 => fone F
    | 2, 7, [x; y], 1 => fneg F (fone F)
    | 3, 1, [x; y; z], 0 => y
    | 3, 1, [x; y; z], 1 => x
    | 3, 1, [x; y; z], 2 => fone F
    | _, _, _, _ => fzero F
    end |}.

(** A hash without collisions between short lists, for examples. *)
Definition hash0 (ns : list pnode) : N :=
  fold_left (fun h n => (h * 1000 + match n with
                                    | Var f => 3 * N.of_nat f
                                    | Const i => 3 * N.of_nat i + 1
                                    | Op a o => 3 * (N.of_nat a + 10 * N.of_nat o) + 2
                                    end)%N) ns 1%N.

Definition pnode_eq_dec (a b : pnode) : {a = b} + {a <> b}.
Proof. decide equality; apply Nat.eq_dec. Defined.
(** A hash that distinguishes the given program from all others. *)
Definition hash_at (ns0 ns : list pnode) : N := if list_eq_dec pnode_eq_dec ns ns0 then 1%N else 0%N.
