(** What holds in IEEE arithmetic itself, without any law of exact arithmetic: the line search and the minimisers (C33), and the size warm-up (C31). *)
From Coq Require Import SpecFloat Reals Lra Lia ZArith Bool.
From Flocq Require Import Core IEEE754.BinarySingleNaN Relative.
From Verif Require Import Base BaseLemmas Num Instances Optim PropOptim Conditioning Ieee.
Local Open Scope nat_scope.

Section Signs.
Variable prec emax : Z.
Context (Hprec : Prec_gt_0 prec) (Hmax : Prec_lt_emax prec emax).
Local Notation bf := (binary_float prec emax).
Local Notation F := (bops prec emax Hprec Hmax).
Local Notation V := (@B2R prec emax).

Lemma b_le_inf (x : bf) : is_finite x = true -> fleb F x (B754_infinity false) = true.
Proof. destruct x as [s|s| |s m e B]; try discriminate; intros _; [destruct s|destruct s]; reflexivity. Qed.
Lemma b_inf_le (x : bf) : is_finite x = true -> fleb F (B754_infinity true) x = true.
Proof. destruct x as [s|s| |s m e B]; try discriminate; intros _; reflexivity. Qed.

Theorem b_sign_laws (half : bf) : is_finite half = true -> (0 <= V half <= 1)%R -> SignLaws F half.
Proof.
  intros Fh Hh.
  assert (Hz : is_finite (fzero F) = true) by reflexivity. assert (Vz : V (fzero F) = 0%R) by reflexivity.
  split.
  - intros a Ha. unfold num. apply eq_fin; auto.
  - reflexivity.
  - intros a Ha. destruct a as [s|s| |s m e B]; try discriminate; destruct s; reflexivity.
  - intros a b Ha Hb. destruct (is_finite b) eqn:Fb.
    + apply le_fin in Hb; auto. rewrite Vz in Hb.
      assert (Hle : (rnd prec emax (V a + V b) <= V a)%R).
      { rewrite <- (rnd_val prec emax a) at 2. apply rnd_le; auto. lra. }
      destruct (add_fin prec emax Hprec Hmax a b Ha Fb) as [(_ & H1 & H2)|(H1 & H2 & H3)].
      * apply le_fin; auto. rewrite H2. auto.
      * rewrite H2. destruct (Bsign a) eqn:Sa; [apply b_inf_le; auto|]. exfalso.
        symmetry in H3. apply sign_false in H3; auto. apply sign_false in Sa; auto.
        assert (V b = 0%R) as E by lra. rewrite E, Rplus_0_r, rnd_val in H1; auto. pose proof (val_top prec emax a). rewrite Rabs_pos_eq in H1; lra.
    + destruct b as [s|s| |s m e B]; try discriminate. destruct s; [|discriminate].
      destruct a as [s'|s'| |s' m' e' B']; try discriminate; reflexivity.
  - intros a b Ha Fa Hb Fb. apply lt_fin in Ha; auto. apply lt_fin in Hb; auto. rewrite Vz in *.
    destruct (mul_fin prec emax Hprec Hmax a b Fa Fb) as [(_ & H1 & H2)|(H1 & H2)].
    + apply le_fin; auto. rewrite H2, Vz, <- (rnd_0 prec emax). apply rnd_le; auto. nra.
    + rewrite H2, (sign_pos _ _ a), (sign_pos _ _ b) by auto. reflexivity.
  - intros a b Ha Hb Fb. apply lt_fin in Hb; auto. rewrite Vz in Hb. pose proof (sign_neg _ _ b Fb Hb) as Sb. destruct (is_finite a) eqn:Fa.
    + apply le_fin in Ha; auto. rewrite Vz in Ha. destruct (mul_fin prec emax Hprec Hmax a b Fa Fb) as [(_ & H1 & H2)|(H1 & H2)].
      * apply le_fin; auto. rewrite H2, Vz, <- (rnd_0 prec emax). apply rnd_le; auto. nra.
      * rewrite H2, Sb. destruct (Bsign a) eqn:Sa; [|reflexivity]. exfalso. apply sign_true in Sa; auto. assert (V a = 0%R) as E by lra.
        rewrite E, Rmult_0_l, rnd_0, Rabs_R0 in H1. pose proof (bpow_gt_0 radix2 emax). unfold top in H1. lra.
    + destruct a as [s|s| |s m e B]; try discriminate. destruct s; [discriminate|].
      destruct b as [s'|s'| |s' m' e' B']; try discriminate; cbn in Sb; subst s'; [cbn in Hb; lra|reflexivity].
  - intros a Ha Fa. apply lt_fin in Ha; auto. rewrite Vz in Ha.
    destruct (mul_fin prec emax Hprec Hmax a half Fa Fh) as [(_ & H1 & H2)|(H1 & _)]; [exact H1|]. exfalso.
    assert (H3 : (0 <= rnd prec emax (V a * V half))%R) by (rewrite <- (rnd_0 prec emax); apply rnd_le; auto; nra).
    assert (H4 : (rnd prec emax (V a * V half) <= V a)%R) by (rewrite <- (rnd_val prec emax a) at 2; apply rnd_le; auto; nra).
    pose proof (val_top prec emax a). rewrite Rabs_pos_eq in H1; lra.
Qed.
End Signs.

(** ** binary64 and binary32 *)
#[global] Instance prec64 : Prec_gt_0 53 := eq_refl.
#[global] Instance max64 : Prec_lt_emax 53 1024 := eq_refl.
#[global] Instance prec32 : Prec_gt_0 24 := eq_refl.
#[global] Instance max32 : Prec_lt_emax 24 128 := eq_refl.
Definition f64 : Type := binary_float 53 1024.
Definition f32 : Type := binary_float 24 128.
Definition F64 : FloatOps f64 := bops 53 1024 prec64 max64.
Definition F32 : FloatOps f32 := bops 24 128 prec32 max32.

(** ** C33 *)
(** The step accepted in a descent direction is positive and finite, and the value does not rise. *)
Theorem C33_step_binary64 : forall (S : Type) (OO : OptOps f64) (phi_at : S -> list f64 -> res (S * option f64)) ls x s alpha0 phi0 dphi0 st st' alpha phi xn,
  B2R (oo_half OO) = (1 / 2)%R -> is_finite (bt_maxstep ls) = false ->
  is_finite (bt_c1 ls) = true -> (0 < B2R (bt_c1 ls))%R ->
  is_finite phi0 = true -> is_finite dphi0 = true -> (B2R dphi0 < 0)%R ->
  linesearch F64 OO phi_at ls x s alpha0 phi0 dphi0 st = Ok (st', Some (alpha, phi, xn)) ->
  is_finite alpha = true /\ (0 < B2R alpha)%R /\ is_finite phi = true /\ (B2R phi <= B2R phi0)%R.
Proof.
  intros S OO phi_at ls x s alpha0 phi0 dphi0 st st' alpha phi xn Hh Hm Fc Hc Fp Fd Hd H.
  assert (Fh : is_finite (oo_half OO) = true) by (destruct (oo_half OO); auto; cbn in Hh; lra).
  assert (SL : SignLaws F64 (oo_half OO)) by (apply b_sign_laws; [auto|rewrite Hh; lra]).
  pose proof (b_order_laws 53 1024 _ _) as L.
  assert (Fz : is_finite (fzero F64) = true) by reflexivity.
  assert (Hfin : is_finite phi = true) by (apply (C33_armijo _ _ F64) in H as (_ & _ & Hf & _); exact Hf).
  apply (C33_step_no_worse f64 S F64 OO) in H as (H1 & H2 & H3); auto.
  - change (is_finite alpha = true) in H2. apply lt_fin in H1; auto. apply le_fin in H3; auto.
  - apply lt_fin; auto.
  - apply lt_fin; auto.
Qed.

(** BFGS in binary64: the minimum reported is finite, is the objective at the minimiser reported, and is at most its value at the start. *)
Theorem C33_bfgs_binary64 : forall (St : Type) (OO : OptOps f64) (obj : objective St f64) Inv f opts ls st x0 st' r,
  B2R (oo_half OO) = (1 / 2)%R -> is_finite (bt_maxstep ls) = false -> is_finite (bt_c1 ls) = true -> (0 < B2R (bt_c1 ls))%R ->
  repeatable Inv obj f -> Inv st ->
  bfgs_minimize F64 OO obj opts ls st x0 = Ok (st', Some r) ->
  exists v0, f x0 = Some v0 /\ is_finite v0 = true /\ List.length (or_minimizer r) = List.length x0
    /\ f (or_minimizer r) = Some (or_minimum r) /\ is_finite (or_minimum r) = true /\ (B2R (or_minimum r) <= B2R v0)%R.
Proof.
  intros St OO obj Inv f opts ls st x0 st' r Hh Hm Fc Hc Hrep HI H.
  assert (Fh : is_finite (oo_half OO) = true) by (destruct (oo_half OO); auto; cbn in Hh; lra).
  assert (SL : SignLaws F64 (oo_half OO)) by (apply b_sign_laws; [auto|rewrite Hh; lra]).
  pose proof (b_order_laws 53 1024 _ _) as L.
  apply (C33_bfgs_no_worse St f64 F64 OO obj Inv f) in H as (v0 & H1 & H2 & H3 & H4 & H5 & H6); auto; [|apply lt_fin; auto].
  change (is_finite v0 = true) in H2. change (is_finite (or_minimum r) = true) in H5. apply le_fin in H6; auto.
  exists v0. repeat (split; auto).
Qed.

(** Newton's method in one variable, in binary64, as soon as one iteration is allowed. *)
Theorem C33_newton_binary64 : forall (St : Type) (OO : OptOps f64) (obj : objective St f64) Inv f opts ls st x0 st' r,
  B2R (oo_half OO) = (1 / 2)%R -> repeatable Inv obj f -> Inv st -> 1 <= oi_iterations opts ->
  newton_1d_minimize F64 OO obj opts ls st x0 = Ok (st', Some r) ->
  exists v0 x, f [x0] = Some v0 /\ is_finite v0 = true /\ or_minimizer r = [x] /\ f [x] = Some (or_minimum r)
    /\ is_finite (or_minimum r) = true /\ (B2R (or_minimum r) <= B2R v0)%R.
Proof.
  intros St OO obj Inv f opts ls st x0 st' r Hh Hrep HI Hi H.
  assert (Fh : is_finite (oo_half OO) = true) by (destruct (oo_half OO); auto; cbn in Hh; lra).
  assert (SL : SignLaws F64 (oo_half OO)) by (apply b_sign_laws; [auto|rewrite Hh; lra]).
  pose proof (b_order_laws 53 1024 _ _) as L.
  apply (C33_newton_no_worse St f64 F64 OO obj Inv f) in H as (_ & H); auto. destruct (H Hi) as (v0 & x & H1 & H2 & H3 & H4 & H5 & H6).
  change (is_finite v0 = true) in H2. change (is_finite (or_minimum r) = true) in H5. apply le_fin in H6; auto.
  exists v0, x. repeat (split; auto).
Qed.

(** ** C31 *)
Section WarmUp.
Local Open Scope R_scope.
Local Notation V := (@B2R 24 128).
Local Notation r := (rnd 24 128).
Local Notation ofn := (b_of_nat 24 128 prec32 max32).
Local Notation W n := (IZR (Z.of_nat n)).

Lemma format_FLT32 x : FLT_format radix2 (-149) 24 x -> r x = x.
Proof. intros H. unfold rnd. apply round_generic; [auto with typeclass_instances|]. exact (generic_format_FLT radix2 (-149) 24 x H). Qed.
Lemma r_int (m : Z) : (Z.abs m < 2 ^ 24)%Z -> r (IZR m) = IZR m.
Proof.
  intros H. apply format_FLT32. exists (Float radix2 m 0); [unfold F2R; cbn; lra| |cbn; lia]. exact H.
Qed.
Lemma r_half (m : Z) : (0 <= m)%Z -> (2 * m + 1 < 2 ^ 24)%Z -> r (IZR m + / 2) = IZR m + / 2.
Proof.
  intros H0 H. apply format_FLT32. exists (Float radix2 (2 * m + 1) (-1)); [|cbn [Fnum]; change (radix2 ^ 24)%Z with (2 ^ 24)%Z; rewrite Z.abs_eq; lia|cbn; lia].
  unfold F2R. cbn [Fnum Fexp]. rewrite plus_IZR, mult_IZR. change (bpow radix2 (-1)) with (/ 2). lra.
Qed.
Lemma r_bpow e : (-149 <= e)%Z -> r (bpow radix2 e) = bpow radix2 e.
Proof.
  intros H. apply format_FLT32. exists (Float radix2 1 e); [unfold F2R; cbn; lra|reflexivity|exact H].
Qed.
Lemma r_mono x y : x <= y -> r x <= r y.
Proof. apply rnd_le. exact prec32. Qed.
Lemma top_val : top 128 = bpow radix2 128. Proof. reflexivity. Qed.

Lemma ofn_val n : (Z.of_nat n <= 2 ^ 64)%Z -> is_finite (ofn n) = true /\ V (ofn n) = r (W n).
Proof.
  intros Hn. pose proof (binary_normalize_correct 24 128 prec32 max32 mode_NE (Z.of_nat n) 0 false) as H. cbv zeta in H.
  assert (E : F2R (beta := radix2) {| Fnum := Z.of_nat n; Fexp := 0 |} = W n) by (unfold F2R; cbn; lra). rewrite E in H.
  assert (H1 : 0 <= r (W n)) by (rewrite <- (rnd_0 24 128); apply r_mono; apply IZR_le; lia).
  assert (H2 : r (W n) <= bpow radix2 64) by (rewrite <- (r_bpow 64) by lia; apply r_mono; change (bpow radix2 64) with (IZR (2 ^ 64)); apply IZR_le; lia).
  assert (H3 : bpow radix2 64 < bpow radix2 128) by (apply bpow_lt; lia).
  rewrite Rlt_bool_true in H.
  - destruct H as (Ha & Hb & _). unfold b_of_nat. auto.
  - change (round radix2 (SpecFloat.fexp 24 128) (round_mode mode_NE) (W n)) with (r (W n)). rewrite Rabs_pos_eq; lra.
Qed.

(** The share of the cycles that have been started, as the code computes it. *)
Definition share (total elapsed : nat) : f32 := fdiv F32 (ofn elapsed) (ofn total).

Lemma r_ge1 n : (1 <= n)%nat -> 1 <= r (W n).
Proof. intros H. rewrite <- (r_int 1) by (cbn; lia). apply r_mono. apply IZR_le. lia. Qed.
Lemma share_val total elapsed : (1 <= total)%nat -> (Z.of_nat total <= 2 ^ 64)%Z -> (elapsed <= total)%nat ->
  is_finite (share total elapsed) = true /\ V (share total elapsed) = r (r (W elapsed) / r (W total)) /\ 0 <= V (share total elapsed) <= 1.
Proof.
  intros Ht Hb He. destruct (ofn_val total) as [F1 V1]; auto. destruct (ofn_val elapsed) as [F2 V2]; [lia|].
  pose proof (r_ge1 total Ht) as P1. assert (P2 : 0 <= r (W elapsed)) by (rewrite <- (rnd_0 24 128); apply r_mono; apply IZR_le; lia).
  assert (P3 : r (W elapsed) <= r (W total)) by (apply r_mono; apply IZR_le; lia).
  assert (Q0 : 0 <= r (W elapsed) / r (W total)) by (apply Rmult_le_pos; [lra|]; left; apply Rinv_0_lt_compat; lra).
  assert (Q1 : r (W elapsed) / r (W total) <= 1) by (apply (Rmult_le_reg_r (r (W total))); [lra|]; unfold Rdiv; rewrite Rmult_assoc, Rinv_l by lra; lra).
  assert (R0 : 0 <= r (r (W elapsed) / r (W total))) by (rewrite <- (rnd_0 24 128); apply r_mono; auto).
  assert (R1 : r (r (W elapsed) / r (W total)) <= 1) by (rewrite <- (r_int 1) by (cbn; lia); apply r_mono; auto).
  destruct (div_fin 24 128 prec32 max32 (ofn elapsed) (ofn total) F2 F1) as [(_ & H1 & H2)|(H1 & _)].
  - rewrite V1. lra.
  - change (fdiv (bops 24 128 prec32 max32)) with (fdiv F32) in *. rewrite V1, V2 in H2. unfold share. rewrite H2. auto.
  - exfalso. rewrite V1, V2, Rabs_pos_eq in H1 by auto. assert (1 < bpow radix2 128) by (change 1 with (bpow radix2 0); apply bpow_lt; lia). unfold top in H1. lra.
Qed.
Lemma share_mono total e1 e2 : (1 <= total)%nat -> (Z.of_nat total <= 2 ^ 64)%Z -> (e1 <= e2)%nat -> (e2 <= total)%nat -> V (share total e1) <= V (share total e2).
Proof.
  intros Ht Hb H1 H2. destruct (share_val total e1) as (_ & -> & _); auto; [lia|]. destruct (share_val total e2) as (_ & -> & _); auto.
  apply r_mono. apply Rmult_le_compat_r; [left; apply Rinv_0_lt_compat; pose proof (r_ge1 total Ht); lra|]. apply r_mono. apply IZR_le. lia.
Qed.
Lemma share_pos total e : (1 <= total)%nat -> (Z.of_nat total <= 2 ^ 64)%Z -> (1 <= e <= total)%nat -> bpow radix2 (-64) <= V (share total e).
Proof.
  intros Ht Hb [H1 H2]. destruct (share_val total e) as (_ & -> & _); auto. rewrite <- (r_bpow (-64)) by lia. apply r_mono.
  pose proof (r_ge1 total Ht) as P1. pose proof (r_ge1 e H1) as P2.
  assert (P3 : r (W total) <= bpow radix2 64) by (rewrite <- (r_bpow 64) by lia; apply r_mono; change (bpow radix2 64) with (IZR (2 ^ 64)); apply IZR_le; lia).
  apply (Rmult_le_reg_r (r (W total))); [lra|]. unfold Rdiv. rewrite Rmult_assoc, Rinv_l, Rmult_1_r by lra.
  apply (Rle_trans _ (bpow radix2 (-64) * bpow radix2 64)); [apply Rmult_le_compat_l; [apply bpow_ge_0|auto]|]. rewrite <- bpow_plus. cbn. lra.
Qed.
Lemma share_0 total : (1 <= total)%nat -> (Z.of_nat total <= 2 ^ 64)%Z -> V (share total 0) = 0.
Proof.
  intros Ht Hb. destruct (share_val total 0) as (_ & -> & _); auto; [lia|]. change (W 0) with 0. rewrite rnd_0. unfold Rdiv. rewrite Rmult_0_l. apply rnd_0.
Qed.
Lemma share_1 total : (1 <= total)%nat -> (Z.of_nat total <= 2 ^ 64)%Z -> V (share total total) = 1.
Proof.
  intros Ht Hb. destruct (share_val total total) as (_ & -> & _); auto. pose proof (r_ge1 total Ht). replace (r (W total) / r (W total)) with 1 by (field; lra).
  apply (r_int 1). cbn. lia.
Qed.

Context (umax maxsize total : nat) (by_ : f32).
Hypothesis Hm : (3 <= maxsize <= umax)%nat.
Hypothesis Hm2 : (Z.of_nat maxsize <= 2 ^ 23)%Z.
Hypothesis Ht : (1 <= total)%nat.
Hypothesis Ht2 : (Z.of_nat total <= 2 ^ 64)%Z.
Local Notation limit remaining := (get_cur_maxsize F32 ofn (b_floor_nat 24 128 umax) by_ maxsize total remaining).
Local Notation M := (maxsize - 3)%nat.

(** The value before truncation, for a finite positive share [by_] of the cycles. *)
Definition ramp (elapsed : nat) : R := r (r (W M * V (share total elapsed)) / V by_).

Lemma M_val : is_finite (ofn M) = true /\ V (ofn M) = W M /\ 0 <= W M.
Proof.
  destruct (ofn_val M) as [H1 H2]; [lia|]. split; auto. rewrite H2. split; [apply r_int; lia|]. apply IZR_le. lia.
Qed.
Lemma ramp_prod e : (e <= total)%nat -> is_finite (fmul F32 (ofn M) (share total e)) = true /\ V (fmul F32 (ofn M) (share total e)) = r (W M * V (share total e))
  /\ 0 <= r (W M * V (share total e)) <= W M.
Proof.
  intros He. destruct M_val as (F1 & V1 & P1). destruct (share_val total e) as (F2 & _ & P2); auto.
  assert (R0 : 0 <= r (W M * V (share total e))) by (rewrite <- (rnd_0 24 128); apply r_mono; apply Rmult_le_pos; lra).
  assert (R1 : r (W M * V (share total e)) <= W M).
  { rewrite <- (r_int (Z.of_nat M)) at 2 by lia. apply r_mono. rewrite <- (Rmult_1_r (W M)) at 2. apply Rmult_le_compat_l; lra. }
  destruct (mul_fin 24 128 prec32 max32 (ofn M) (share total e) F1 F2) as [(_ & H1 & H2)|(H1 & _)].
  - rewrite V1 in H2. auto.
  - exfalso. rewrite V1, Rabs_pos_eq in H1 by auto. pose proof (val_top 24 128 (ofn M)) as HT. rewrite V1 in HT. lra.
Qed.
Lemma ramp_bound e : (e <= total)%nat -> 0 < V by_ -> V (share total e) <= V by_ -> 0 <= r (W M * V (share total e)) / V by_ <= W M + / 2.
Proof.
  intros He Hb Hs. destruct M_val as (_ & _ & P1). destruct (ramp_prod e He) as (_ & _ & R0 & R1). destruct (share_val total e) as (_ & _ & P2); auto.
  split; [apply Rmult_le_pos; [lra|left; apply Rinv_0_lt_compat; lra]|].
  apply (Rmult_le_reg_r (V by_)); [lra|]. unfold Rdiv. rewrite Rmult_assoc, Rinv_l, Rmult_1_r by lra.
  destruct (Nat.eq_dec e 0) as [->|Ne].
  { rewrite (share_0 total Ht Ht2), Rmult_0_r, rnd_0. apply Rmult_le_pos; lra. }
  destruct (Nat.eq_dec M 0) as [E0|NM].
  { rewrite E0. change (W 0) with 0. rewrite Rmult_0_l, rnd_0. apply Rmult_le_pos; lra. }
  pose proof (share_pos total e Ht Ht2 ltac:(lia)) as PS. assert (PM : 1 <= W M) by (apply IZR_le; lia).
  set (x := W M * V (share total e)) in *.
  assert (Hx : bpow radix2 (-64) <= x).
  { unfold x. rewrite <- (Rmult_1_l (bpow radix2 (-64))). apply Rmult_le_compat; try lra. apply bpow_ge_0. }
  pose proof (bpow_gt_0 radix2 (-64)) as PB.
  pose proof (relative_error_N_FLT radix2 (-149) 24 ltac:(lia) (fun n => negb (Z.even n)) x) as HR.
  assert (HR' : Rabs (r x - x) <= / 2 * bpow radix2 (-24 + 1) * Rabs x).
  { apply HR. rewrite Rabs_pos_eq by lra. apply (Rle_trans _ (bpow radix2 (-64))); auto. apply bpow_le. lia. }
  rewrite (Rabs_pos_eq x) in HR' by lra. apply Rabs_le_inv in HR'. change (bpow radix2 (-24 + 1)) with (/ 8388608) in HR'.
  assert (Hxb : x <= W M * V by_) by (unfold x; apply Rmult_le_compat_l; lra).
  assert (HM : W M <= 8388608) by (change 8388608 with (IZR (2 ^ 23)); apply IZR_le; lia).
  assert (Hq : / 2 * / 8388608 * x <= / 2 * V by_).
  { apply (Rle_trans _ (/ 2 * / 8388608 * (W M * V by_))); [apply Rmult_le_compat_l; lra|].
    assert (HMb : W M * V by_ <= 8388608 * V by_) by (apply Rmult_le_compat_r; lra). lra. }
  rewrite Rmult_plus_distr_r. lra.
Qed.
Lemma ramp_range e : (e <= total)%nat -> 0 < V by_ -> V (share total e) <= V by_ -> 0 <= ramp e <= W M + / 2.
Proof.
  intros He Hb Hs. destruct (ramp_bound e He Hb Hs) as [B0 B1]. split.
  - rewrite <- (rnd_0 24 128). apply r_mono; auto.
  - rewrite <- (r_half (Z.of_nat M)) by lia. apply r_mono; auto.
Qed.

(** What the code computes, for every value of the option. *)
Lemma limit_eq e : (e <= total)%nat ->
  get_cur_maxsize F32 ofn (b_floor_nat 24 128 umax) by_ maxsize total (total - e) = Ok
    (if fltb F32 (fzero F32) by_ && fleb F32 (share total e) by_ then
       (if is_finite by_ then 3 + Z.to_nat (Zfloor (ramp e)) else 3)%nat else maxsize).
Proof.
  intros He. unfold get_cur_maxsize. replace (total - (total - e))%nat with e by lia. fold (share total e).
  destruct (fltb F32 (fzero F32) by_) eqn:E0; cbn [andb]; auto. destruct (fleb F32 (share total e) by_) eqn:E1; auto.
  assert (E3 : (3 <=? maxsize)%nat = true) by (apply Nat.leb_le; lia). rewrite E3. cbn [assert_ bind].
  destruct (share_val total e) as (FS & _ & PS); auto. destruct (ramp_prod e He) as (FP & VP & PP).
  set (p := fmul F32 (ofn M) (share total e)) in *. destruct (is_finite by_) eqn:Fb.
  - apply lt_fin in E0; auto. apply le_fin in E1; auto. change (V (fzero F32)) with 0 in E0.
    destruct (ramp_range e He E0 E1) as [G0 G1].
    destruct (div_fin 24 128 prec32 max32 p by_ FP Fb ltac:(lra)) as [(_ & H1 & H2)|(H1 & _)].
    + change (fdiv (bops 24 128 prec32 max32)) with (fdiv F32) in *. rewrite VP in H2. fold (ramp e) in H2.
      match goal with |- context [b_floor_nat _ _ _ ?y] => pose proof (b_floor_spec 24 128 max32 umax y H1) as EF end. rewrite EF, H2. rewrite Nat.min_r; auto. assert (Zfloor (ramp e) <= Z.of_nat M)%Z; [|lia].
      apply Zlt_succ_le. apply lt_IZR. apply (Rle_lt_trans _ (ramp e)); [apply Zfloor_lb|]. rewrite succ_IZR. lra.
    + exfalso. rewrite VP in H1. fold (ramp e) in H1. rewrite Rabs_pos_eq in H1 by auto.
      assert (HT : W M + / 2 < bpow radix2 24).
      { change (bpow radix2 24) with (IZR (2 ^ 24)). apply (Rlt_le_trans _ (IZR (Z.of_nat M + 1))); [rewrite plus_IZR; lra|]. apply IZR_le. lia. }
      assert (bpow radix2 24 < bpow radix2 128) by (apply bpow_lt; lia). unfold top in H1. lra.
  - destruct by_ as [s|s| |s m0 e0 B]; try discriminate. destruct s; [discriminate|].
    clearbody p. destruct p as [s'|s'| |s' m' e' B']; try discriminate; cbn; rewrite Nat.min_0_r; reflexivity.
Qed.

(** The size limit of the warm-up, in the arithmetic of the code (binary32): between 3 and the configured maximum; never decreasing as cycles are started; 3 at the
    start of a warm-up; the configured maximum when the option is 0, negative or NaN, when the share of the cycles exceeds it, and at the end of the search if the
    option is at most 1. *)
Theorem C31_binary32 :
  (forall remaining, exists m, limit remaining = Ok m /\ (3 <= m <= maxsize)%nat) /\
  (forall rem1 rem2 m1 m2, (rem2 <= rem1)%nat -> limit rem1 = Ok m1 -> limit rem2 = Ok m2 -> (m1 <= m2)%nat) /\
  (fltb F32 (fzero F32) by_ = true -> limit total = Ok 3%nat) /\
  (forall remaining, fltb F32 (fzero F32) by_ = false \/ is_finite by_ = true /\ V by_ < V (share total (total - remaining)) -> limit remaining = Ok maxsize) /\
  (is_finite by_ = true -> V by_ <= 1 -> limit 0%nat = Ok maxsize).
Proof.
  assert (HE : forall remaining, limit remaining = limit (total - (total - remaining))%nat).
  { intros remaining. unfold get_cur_maxsize. replace (total - (total - (total - remaining)))%nat with (total - remaining)%nat by lia. reflexivity. }
  assert (HF : forall e, (e <= total)%nat -> fltb F32 (fzero F32) by_ = true -> fleb F32 (share total e) by_ = true -> is_finite by_ = true ->
    0 < V by_ /\ V (share total e) <= V by_ /\ (0 <= Zfloor (ramp e) <= Z.of_nat M)%Z).
  { intros e He E0 E1 Fb. destruct (share_val total e) as (FS & _ & PS); auto. apply lt_fin in E0; auto. apply le_fin in E1; auto. change (V (fzero F32)) with 0 in E0.
    destruct (ramp_range e He E0 E1) as [G0 G1]. split; auto. split; auto. split.
    - apply Zfloor_lub. exact G0.
    - apply Zlt_succ_le. apply lt_IZR. apply (Rle_lt_trans _ (ramp e)); [apply Zfloor_lb|]. rewrite succ_IZR. lra. }
  split; [|split; [|split; [|split]]].
  - intros remaining. rewrite HE, limit_eq by lia. eexists. split; [reflexivity|].
    destruct (fltb F32 (fzero F32) by_) eqn:E0; cbn [andb]; [|lia]. destruct (fleb F32 (share total (total - remaining)) by_) eqn:E1; [|lia].
    destruct (is_finite by_) eqn:Fb; [|lia]. destruct (HF (total - remaining)%nat ltac:(lia) eq_refl E1 eq_refl) as (_ & _ & G). lia.
  - intros rem1 rem2 m1 m2 Hle E1 E2. rewrite HE, limit_eq in E1, E2 by lia.
    assert (Em : forall a b : nat, Ok a = Ok b -> b = a) by congruence. apply Em in E1, E2. rewrite E1, E2. clear E1 E2.
    set (e1 := (total - rem1)%nat). set (e2 := (total - rem2)%nat). assert (He : (e1 <= e2 <= total)%nat) by (unfold e1, e2; lia).
    destruct (fltb F32 (fzero F32) by_) eqn:E0; cbn [andb]; [|lia].
    destruct (is_finite by_) eqn:Fb.
    + destruct (fleb F32 (share total e2) by_) eqn:E2.
      * destruct (HF e2 ltac:(lia) eq_refl E2 eq_refl) as (P0 & P2 & G2).
        pose proof (share_mono total e1 e2 Ht Ht2 ltac:(lia) ltac:(lia)) as HM. destruct (share_val total e1) as (FS1 & _ & PS1); auto; [lia|].
        assert (E1 : fleb F32 (share total e1) by_ = true) by (apply le_fin; auto; lra). rewrite E1.
        apply Nat.add_le_mono_l. apply Z2Nat.inj_le; [destruct (HF e1 ltac:(lia) eq_refl E1 eq_refl) as (_ & _ & G1); lia|lia|].
        apply Zfloor_le. apply r_mono. apply Rmult_le_compat_r; [left; apply Rinv_0_lt_compat; lra|]. apply r_mono.
        apply Rmult_le_compat_l; [apply IZR_le; lia|auto].
      * destruct (fleb F32 (share total e1) by_) eqn:E1; [|lia]. destruct (HF e1 ltac:(lia) eq_refl E1 eq_refl) as (_ & _ & G1). lia.
    + destruct (fleb F32 (share total e1) by_) eqn:E2; destruct (fleb F32 (share total e2) by_); try lia.
      exfalso. destruct (share_val total e1) as (FS2 & _ & _); auto; [lia|]. destruct by_ as [s|s| |s m0 e0 B]; try discriminate. destruct s; [discriminate|].
      assert (E3 : false = true) by (rewrite <- E2; exact (b_le_inf 24 128 prec32 max32 _ FS2)). discriminate.
  - intros E0. replace total with (total - 0)%nat at 2 by lia. rewrite limit_eq by lia. rewrite E0. cbn [andb].
    destruct (share_val total 0) as (FS & _ & PS); auto; [lia|]. pose proof (share_0 total Ht Ht2) as S0. destruct (is_finite by_) eqn:Fb.
    + pose proof E0 as E0'. apply lt_fin in E0'; auto. change (V (fzero F32)) with 0 in E0'.
      assert (E1 : fleb F32 (share total 0) by_ = true) by (apply le_fin; auto; lra). rewrite E1. do 2 f_equal.
      unfold ramp. rewrite S0, Rmult_0_r, rnd_0. unfold Rdiv. rewrite Rmult_0_l, rnd_0. change 0 with (IZR 0). rewrite Zfloor_IZR. reflexivity.
    + destruct by_ as [s|s| |s m0 e0 B]; try discriminate. destruct s; [discriminate|].
      assert (E3 : fleb F32 (share total 0) (B754_infinity false) = true) by exact (b_le_inf 24 128 prec32 max32 _ FS). rewrite E3. reflexivity.
  - intros remaining H. rewrite HE, limit_eq by lia. destruct H as [->|[Fb H]]; cbn [andb]; auto.
    destruct (fleb F32 (share total (total - remaining)) by_) eqn:E1; [|rewrite andb_false_r; auto].
    destruct (share_val total (total - remaining)) as (FS & _ & _); auto; [lia|]. apply le_fin in E1; auto. lra.
  - intros Fb H1. replace 0%nat with (total - total)%nat by lia. rewrite limit_eq by lia. rewrite Fb.
    destruct (share_val total total) as (FS & _ & _); auto. pose proof (share_1 total Ht Ht2) as S1.
    destruct (fltb F32 (fzero F32) by_) eqn:E0; cbn [andb]; auto. destruct (fleb F32 (share total total) by_) eqn:E1; auto.
    apply le_fin in E1; auto. assert (E : V by_ = 1) by lra. unfold ramp. rewrite S1, E, Rmult_1_r. rewrite r_int by lia. unfold Rdiv. rewrite Rinv_1, Rmult_1_r, r_int by lia.
    rewrite Zfloor_IZR, Nat2Z.id. f_equal. lia.
Qed.
End WarmUp.

(** A warm-up over half of 20 cycles, to 13: the premises hold and the limits are these. *)
Definition half32 : f32 := binary_normalize 24 128 prec32 max32 mode_NE 1 (-1) false.
Example C31_binary32_case :
  map (fun rem => get_cur_maxsize F32 (b_of_nat 24 128 prec32 max32) (b_floor_nat 24 128 1000) half32 13 20 rem) [20; 19; 17; 15; 12; 10; 9; 0]
  = [Ok 3; Ok 4; Ok 6; Ok 8; Ok 11; Ok 13; Ok 13; Ok 13].
Proof. vm_compute. reflexivity. Qed.

(** In exact arithmetic the configured maximum is reached as soon as the share of the cycles reaches the option (C31_warmup). In binary32 the last step of the ramp can
    be rounded down: with the option 0.9 and 10 cycles, after 9 of them the limit is still one below the maximum. *)
Theorem C31_last_step_refuted : exists by_ : f32, is_finite by_ = true /\ (0 < B2R by_)%R /\ (B2R by_ * 10 <= 9)%R
  /\ get_cur_maxsize F32 (b_of_nat 24 128 prec32 max32) (b_floor_nat 24 128 1000) by_ 6 10 1 = Ok 5
  /\ get_cur_maxsize F32 (b_of_nat 24 128 prec32 max32) (b_floor_nat 24 128 1000) by_ 6 10 0 = Ok 6.
Proof.
  exists (fdiv F32 (b_of_nat 24 128 prec32 max32 9) (b_of_nat 24 128 prec32 max32 10)). split; [vm_compute; reflexivity|].
  assert (E : B2R (fdiv F32 (b_of_nat 24 128 prec32 max32 9) (b_of_nat 24 128 prec32 max32 10)) = F2R (Float radix2 15099494 (-24))).
  { set (x := fdiv F32 _ _). assert (Ex : B2SF x = S754_finite false 15099494 (-24)) by (vm_compute; reflexivity).
    clearbody x. destruct x; cbn in Ex; try discriminate. injection Ex as -> -> ->. reflexivity. }
  rewrite E. unfold F2R. cbn [Fnum Fexp]. change (bpow radix2 (-24)) with (/ 16777216)%R. split; [lra|]. split; [lra|]. split; vm_compute; reflexivity.
Qed.
Print Assumptions C31_binary32.

(** ** Binary64 run of BFGS, on (x - 1)^2 + 10 (y + 2)^2 from (0, 0) *)
Definition lit64 (m e : Z) : f64 := binary_normalize 53 1024 prec64 max64 mode_NE m e false.
Definition opt64 : OptOps f64 :=
  mkOptOps Babs (Bsqrt mode_NE) (fun a b => if Bltb a b then b else a) (fun a b => if Bltb a b then a else b) (lit64 2 0) (lit64 3 0) (lit64 1 (-1)) (lit64 1 (-40))
    (lit64 1 (-52)) (lit64 1 (-26)) 52.
Definition bt64 : backtracking f64 := mkBT (lit64 1 (-13)) (lit64 1 (-1)) (lit64 1 (-3)) 1000 3 (B754_infinity false).
Definition bowl (x y : f64) : f64 :=
  let a := fsub F64 x (lit64 1 0) in let b := fadd F64 y (lit64 2 0) in fadd F64 (fmul F64 a a) (fmul F64 (lit64 10 0) (fmul F64 b b)).
Definition bowl_f (p : list f64) : option f64 := match p with [x; y] => Some (bowl x y) | _ => None end.
Definition bowl_obj : objective nat f64 :=
  mkObj (fun n p => Ok (S n, bowl_f p))
        (fun n p => Ok (S n, match p with
           | [x; y] => Some (bowl x y, [fmul F64 (lit64 2 0) (fsub F64 x (lit64 1 0)); fmul F64 (lit64 20 0) (fadd F64 y (lit64 2 0))])
           | _ => None end)).
Lemma bowl_repeatable : repeatable (fun _ => True) bowl_obj bowl_f.
Proof.
  split.
  - intros st x st' v _ H. split; auto. assert (E : (S st, bowl_f x) = (st', v)) by (cbn [bowl_obj ob_f] in H; congruence). congruence.
  - intros st x st' v _ H. split; auto. intros a g ->. cbn [bowl_obj ob_fg] in H.
    destruct x as [|x [|y [|]]]; try (exfalso; congruence). unfold bowl_f. congruence.
Qed.
Example C33_binary64_case : B2R (oo_half opt64) = (1 / 2)%R /\ is_finite (bt_maxstep bt64) = false /\ is_finite (bt_c1 bt64) = true /\ (0 < B2R (bt_c1 bt64))%R
  /\ repeatable (fun _ => True) bowl_obj bowl_f
  /\ exists st' r, bfgs_minimize F64 opt64 bowl_obj (mkOptim 2 8 (lit64 1 (-20))) bt64 0 [lit64 0 0; lit64 0 0] = Ok (st', Some r)
     /\ fltb F64 (or_minimum r) (lit64 41 0) = true /\ bowl_f [lit64 0 0; lit64 0 0] = Some (lit64 41 0).
Proof.
  assert (E1 : B2R (oo_half opt64) = F2R (Float radix2 4503599627370496 (-53))).
  { cbn [opt64 oo_half]. set (x := lit64 1 (-1)). assert (Ex : B2SF x = S754_finite false 4503599627370496 (-53)) by (vm_compute; reflexivity).
    clearbody x. destruct x; cbn in Ex; try discriminate. injection Ex as -> -> ->. reflexivity. }
  assert (E2 : B2R (bt_c1 bt64) = F2R (Float radix2 4503599627370496 (-65))).
  { cbn [bt64 bt_c1]. set (x := lit64 1 (-13)). assert (Ex : B2SF x = S754_finite false 4503599627370496 (-65)) by (vm_compute; reflexivity).
    clearbody x. destruct x; cbn in Ex; try discriminate. injection Ex as -> -> ->. reflexivity. }
  split; [rewrite E1; unfold F2R; cbn [Fnum Fexp]; change (bpow radix2 (-53)) with (/ 9007199254740992)%R; lra|].
  split; [reflexivity|]. split; [vm_compute; reflexivity|].
  split; [rewrite E2; apply F2R_gt_0; reflexivity|]. split; [exact bowl_repeatable|].
  set (run := bfgs_minimize F64 opt64 bowl_obj (mkOptim 2 8 (lit64 1 (-20))) bt64 0 [lit64 0 0; lit64 0 0]).
  assert (ER : match run with Ok (_, Some r) => fltb F64 (or_minimum r) (lit64 41 0) = true | _ => False end) by (vm_compute; reflexivity).
  destruct run as [[st' [r|]]| |]; try contradiction. exists st', r. split; [reflexivity|]. split; [exact ER|].
  assert (EB : B2SF (bowl (lit64 0 0) (lit64 0 0)) = B2SF (lit64 41 0)) by (vm_compute; reflexivity). apply B2SF_inj in EB. cbn [bowl_f]. rewrite EB. reflexivity.
Qed.
Print Assumptions C33_bfgs_binary64.
Print Assumptions C33_newton_binary64.
Print Assumptions C33_step_binary64.
