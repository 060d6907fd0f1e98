(** Model of the factor by which a constant is mutated: mutation_functions.rs:172-183, inside [mutate_constant_in_place]. *)
From Verif Require Import Base Rng Node Mutation.

(** The options it reads: [options.perturbation_factor], [options.probability_negate_constant] (options.rs:75-78). *)
Record factor_cfg (T : Type) : Type := mkFactor { fc_perturbation : T; fc_negate : T; fc_powf : T -> T -> T; fc_1_1 : T }.
Arguments mkFactor {T}. Arguments fc_perturbation {T}. Arguments fc_negate {T}. Arguments fc_powf {T}. Arguments fc_1_1 {T}.

(** [temperature.max(0.0)] (mutation_functions.rs:172): Rust's maximum, which is 0 for NaN. *)
Definition max0 {T} (F : FloatOps T) (t : T) : T := if fltb F (fzero F) t then t else fzero F.

(** mutation_functions.rs:172-173: [max_change]. The literal 1.1 is [fc_1_1]. *)
Definition max_change {T} (F : FloatOps T) (c : factor_cfg T) (temperature : T) : T :=
  fadd F (fmul F (fc_perturbation c) (max0 F temperature)) (fc_1_1 c).

(** mutation_functions.rs:174-182: [mul], from the draw [exponent], the boolean draw [make_const_bigger] and the draw compared with
    [probability_negate_constant]. In the code it is computed in f64 and then converted to the scalar type ([T::from(mul)], 183); here both are [T]. *)
Definition mutate_factor {T} (F : FloatOps T) (c : factor_cfg T) (temperature exponent : T) (make_const_bigger : bool) (draw : T) : T :=
  let mul := fc_powf c (max_change F c temperature) exponent in
  let mul := if make_const_bigger then mul else fdiv F (fone F) mul in
  if fgtb F draw (fc_negate c) then fneg F mul else mul.
