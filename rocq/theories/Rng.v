(** Model of the random source. symbolic_regression/src/random.rs and the parts of the external crate
    fastrand it uses. A generator is an arbitrary pair of infinite sequences, one of naturals and one of
    reals: every theorem that quantifies over [rng T] quantifies over everything a generator could
    return. Integer draws are reduced to the requested range, as fastrand guarantees; real draws are not
    restricted, so a theorem that needs them in [0, 1) says so. *)
From Verif Require Import Base.

Record rng (T : Type) : Type := mkRng { rg_nat : nat -> nat; rg_real : nat -> T }.
Arguments mkRng {T}. Arguments rg_nat {T}. Arguments rg_real {T}.

Definition shift {A} (f : nat -> A) : nat -> A := fun k => f (S k).

(** random.rs:3-5 [usize_range] and fastrand's [Rng::usize(lo..hi)]: panics on an empty range. *)
Definition usize_range {T} (r : rng T) (lo hi : nat) : res (nat * rng T) :=
  if lo <? hi then Ok (lo + rg_nat r 0 mod (hi - lo), mkRng (shift (rg_nat r)) (rg_real r))
  else Panic.

(** fastrand's [Rng::bool]. *)
Definition rng_bool {T} (r : rng T) : bool * rng T :=
  (Nat.odd (rg_nat r 0), mkRng (shift (rg_nat r)) (rg_real r)).

(** fastrand's [Rng::f64]; also used for draws from other distributions over the reals, such as
    random.rs:15-19 [standard_normal], whose result is any real here. *)
Definition rng_real {T} (r : rng T) : T * rng T :=
  (rg_real r 0, mkRng (rg_nat r) (shift (rg_real r))).

(** random.rs:7-13 [usize_range_inclusive]. *)
Definition usize_range_inclusive {T} (r : rng T) (lo hi : nat) : res (nat * rng T) :=
  if hi <=? lo then Ok (lo, r)
  else let! (k, r) := usize_range r 0 (hi - lo + 1) in Ok (lo + k, r).

Lemma usize_range_ok {T} (r : rng T) lo hi : lo < hi ->
  exists k r', usize_range r lo hi = Ok (k, r') /\ lo <= k < hi.
Proof.
  intros H. unfold usize_range. destruct (Nat.ltb_spec lo hi); [|lia]. do 2 eexists. split; [reflexivity|].
  pose proof (Nat.mod_upper_bound (rg_nat r 0) (hi - lo)). lia.
Qed.

Lemma usize_range_inv {T} (r : rng T) lo hi k r' : usize_range r lo hi = Ok (k, r') -> lo <= k < hi.
Proof.
  unfold usize_range. destruct (Nat.ltb_spec lo hi); [|discriminate]. intros E. injection E as <- _.
  pose proof (Nat.mod_upper_bound (rg_nat r 0) (hi - lo)). lia.
Qed.

(** Every value of the range can be drawn. *)
Lemma usize_range_any {T} (r : rng T) lo hi k : lo <= k < hi ->
  usize_range (mkRng (fun n => match n with 0 => k - lo | S n => rg_nat r n end) (rg_real r)) lo hi
  = Ok (k, mkRng (fun n => rg_nat r n) (rg_real r)).
Proof.
  intros H. unfold usize_range. destruct (Nat.ltb_spec lo hi); [|lia]. cbn [rg_nat rg_real]. rewrite Nat.mod_small by lia.
  replace (lo + (k - lo)) with k by lia. reflexivity.
Qed.

Lemma usize_range_inclusive_ok {T} (r : rng T) lo hi : lo <= hi ->
  exists k r', usize_range_inclusive r lo hi = Ok (k, r') /\ lo <= k <= hi.
Proof.
  intros H. unfold usize_range_inclusive. destruct (Nat.leb_spec hi lo).
  - exists lo, r. split; auto.
  - destruct (usize_range_ok r 0 (hi - lo + 1)) as (k & r' & E & Hk); [lia|]. rewrite E. cbn [bind]. do 2 eexists. split; [reflexivity|lia].
Qed.
