(** The real numbers as scalar type: the arithmetic the floats approximate. The functions are those of Coq's standard library (or defined from them). *)
From Coq Require Import Reals.
From Verif Require Import Base Node Loss Builtin DerivSpec.
Local Open Scope R_scope.

Definition rltb (a b : R) : bool := if Rlt_dec a b then true else false.
Definition reqb (a b : R) : bool := if Req_EM_T a b then true else false.
(** There is no NaN and no infinity: every number is finite and [fnan], [finf] stand for nothing. *)
Definition rops : FloatOps R := {|
  fzero := 0; fone := 1; fnan := 0; finf := 0; fadd := Rplus; fsub := Rminus; fmul := Rmult; fdiv := Rdiv; fneg := Ropp;
  ffinite := fun _ => true; fis_zero := fun x => reqb x 0; fltb := rltb; feqb := reqb |}.

Definition rcbrt (x : R) : R := if Rlt_dec 0 x then Rpower x (/ 3) else if Rlt_dec x 0 then - Rpower (- x) (/ 3) else 0.
Definition rsignum (x : R) : R := if Rlt_dec x 0 then -1 else 1.
(** [y.atan2(x)]: the angle of the point (x, y), in (-PI, PI]. *)
Definition ratan2 (y x : R) : R :=
  if Rlt_dec 0 y then PI / 2 - atan (x / y)
  else if Rlt_dec y 0 then - (PI / 2) - atan (x / y)
  else if Rlt_dec x 0 then PI else 0.
Definition rclamp (x lo hi : R) : R := if Rlt_dec x lo then lo else if Rlt_dec hi x then hi else x.
Definition rmath : MathOps R :=
  mkMath sin cos tan asin acos atan sinh cosh tanh arcsinh (fun x => ln (x + sqrt (x * x - 1))) (fun x => ln ((1 + x) / (1 - x)) / 2)
    exp (Rpower 2) (fun x => exp x - 1) ln (fun x => ln x / ln 2) (fun x => ln x / ln 10) (fun x => ln (1 + x))
    sqrt rcbrt Rabs Rinv rsignum Rpower ratan2 Rmin Rmax (fun a b c => a * b + c) rclamp (fun _ => false) 3 10 (1 / 2).
Definition rbuiltin : OpSet R := builtin_ops rops rmath.

Definition rloss : LossOps R := mkLossOps Rabs sqrt cosh ln tanh (fun x p => if Rlt_dec 0 x then Rpower x p else 0) INR 2 (1 / 2) (1 / 100).

Lemma rltb_iff a b : rltb a b = true <-> a < b.
Proof. unfold rltb. destruct (Rlt_dec a b); split; auto; discriminate. Qed.
Lemma rltb_false a b : rltb a b = false <-> b <= a.
Proof. unfold rltb. destruct (Rlt_dec a b); split; intros H; auto; try discriminate; [apply Rlt_not_le in r; contradiction|apply Rnot_lt_le; auto]. Qed.
Lemma reqb_iff a b : reqb a b = true <-> a = b.
Proof. unfold reqb. destruct (Req_EM_T a b); split; auto; discriminate. Qed.
Lemma rops_zero_laws : ZeroLaws rops.
Proof. split; cbn; intros a; [ring|ring|]. intros H. now apply reqb_iff. Qed.
