(** Model of the samplers of symbolic_regression/src/random.rs: [standard_normal], [poisson_sample] and [log_factorial]. *)
From Coq Require Import ZArith.
From Verif Require Import Base Rng Dataset Loss.

(** What the samplers use of f64 besides arithmetic. [po_dec m e] is the decimal literal m * 10^-e, [po_floor] is [x.floor() as i64], [po_nat] is [k as f64]. *)
Record PoissonOps (T : Type) : Type := mkPoisson {
  po_exp : T -> T; po_ln : T -> T; po_sqrt : T -> T; po_cos : T -> T; po_abs : T -> T;
  po_floor : T -> Z; po_nat : nat -> T; po_dec : Z -> nat -> T; po_min_positive : T; po_two_pi : T }.
Arguments mkPoisson {T}. Arguments po_exp {T}. Arguments po_ln {T}. Arguments po_sqrt {T}. Arguments po_cos {T}. Arguments po_abs {T}.
Arguments po_floor {T}. Arguments po_nat {T}. Arguments po_dec {T}. Arguments po_min_positive {T}. Arguments po_two_pi {T}.

Section Samplers.
Context {T : Type} (F : FloatOps T) (P : PoissonOps T).
Local Notation dec := (po_dec P).

(** random.rs:15-19 [standard_normal]: the draw is a [rng.f64()], [max] of two numbers. *)
Definition standard_normal (r : rng T) : T * rng T :=
  let '(u, r) := rng_real r in
  let u1 := if fltb F u (po_min_positive P) then po_min_positive P else u in
  let '(u2, r) := rng_real r in
  (fmul F (po_sqrt P (fmul F (fneg F (dec 2 0)) (po_ln P u1))) (po_cos P (fmul F (po_two_pi P) u2)), r).

(** random.rs:95-110 [log_factorial]. *)
Definition log_factorial (k : nat) : T :=
  if k <? 2 then fzero F
  else if k <? 256 then fsum F (map (fun i => po_ln P (po_nat P i)) (seq 2 (k - 1)))
  else
    let x := fadd F (po_nat P k) (fone F) in
    let inv := fdiv F (fone F) x in
    let inv2 := fmul F inv inv in
    let a := fsub F (fmul F (fsub F x (dec 5 1)) (po_ln P x)) x in
    let a := fadd F a (fmul F (dec 5 1) (dec 18378770664093453 16)) in
    let a := fadd F a (fdiv F inv (dec 12 0)) in
    let a := fsub F a (fdiv F (fmul F inv2 inv) (dec 360 0)) in
    fadd F a (fdiv F (fmul F (fmul F inv2 inv2) inv) (dec 1260 0)).

(** random.rs:27-38: the loop for small means. [k] is the number of earlier draws; the code returns its own counter minus 1. *)
Fixpoint knuth (fuel : nat) (limit p : T) (k : nat) (r : rng T) : res (nat * rng T) :=
  match fuel with
  | 0 => OutOfFuel
  | S fuel =>
      let '(u, r) := rng_real r in
      let p := fmul F p u in
      if fleb F p limit then Ok (k, r) else knuth fuel limit p (S k) r
  end.

(** random.rs:48-74: the rejection loop for large means. *)
Fixpoint ptrs (fuel : nat) (mean a b inv_alpha v_r : T) (r : rng T) : res (nat * rng T) :=
  match fuel with
  | 0 => OutOfFuel
  | S fuel =>
      let '(u, r) := rng_real r in
      let u := fsub F u (dec 5 1) in
      let '(v, r) := rng_real r in
      let us := fsub F (dec 5 1) (po_abs P u) in
      if fleb F us (fzero F) then ptrs fuel mean a b inv_alpha v_r r
      else
        let k := po_floor P (fadd F (fadd F (fmul F (fadd F (fdiv F (fmul F (dec 2 0) a) us) b) u) mean) (dec 43 2)) in
        if (k <? 0)%Z then ptrs fuel mean a b inv_alpha v_r r
        else
          let n := Z.to_nat k in
          if fgeb F us (dec 7 2) && fleb F v v_r then Ok (n, r)
          else if fltb F us (dec 13 3) && fgtb F v us then ptrs fuel mean a b inv_alpha v_r r
          else
            let lhs := po_ln P (fdiv F (fmul F v inv_alpha) (fadd F (fdiv F a (fmul F us us)) b)) in
            let rhs := fsub F (fadd F (fneg F mean) (fmul F (po_nat P n) (po_ln P mean))) (log_factorial n) in
            if fleb F lhs rhs then Ok (n, r) else ptrs fuel mean a b inv_alpha v_r r
  end.

(** random.rs:21-75 [poisson_sample]. The loops of the code have no bound; [fuel] bounds the number of rounds. *)
Definition poisson_sample (fuel : nat) (r : rng T) (mean : T) : res (nat * rng T) :=
  if negb (ffinite F mean) || fleb F mean (fzero F) then Ok (0, r)
  else if fltb F mean (dec 30 0) then knuth fuel (po_exp P (fneg F mean)) (fone F) 0 r
  else
    let sqrt_mean := po_sqrt P mean in
    let b := fadd F (dec 931 3) (fmul F (dec 253 2) sqrt_mean) in
    let a := fadd F (fneg F (dec 59 3)) (fmul F (dec 2483 5) b) in
    let inv_alpha := fadd F (dec 11239 4) (fdiv F (dec 11328 4) (fsub F b (dec 34 1))) in
    let v_r := fsub F (dec 9277 4) (fdiv F (dec 36224 4) (fsub F b (dec 2 0))) in
    ptrs fuel mean a b inv_alpha v_r r.
End Samplers.
