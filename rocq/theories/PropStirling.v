(** Property C59, continued: how close [log_factorial] is to ln k!. *)
From Coq Require Import Reals Lra Lia ZArith.
From Coquelicot Require Import Coquelicot.
From Verif Require Import Base BaseLemmas Rng Dataset Loss RealOps Poisson PropPoisson.
Local Open Scope R_scope.

(** ** The logarithm near 1 *)
Definition atanh_sum (w : R) : R := 2 * (w + w ^ 3 / 3 + w ^ 5 / 5 + w ^ 7 / 7).
Lemma rising (f df : R -> R) b : 0 <= b -> (forall t, 0 <= t <= b -> is_derive f t (df t)) -> (forall t, 0 <= t <= b -> 0 <= df t) -> f 0 <= f b.
Proof.
  intros Hb Hd Hp. destruct (MVT_gen f 0 b df) as (c & Hc & E).
  - intros x Hx. rewrite Rmin_left, Rmax_right in Hx by lra. apply Hd. lra.
  - intros x Hx. rewrite Rmin_left, Rmax_right in Hx by lra. apply derivable_continuous_pt. exists (df x). apply is_derive_Reals. apply Hd. lra.
  - rewrite Rmin_left, Rmax_right in Hc by lra. pose proof (Hp c Hc) as H. pose proof (Rmult_le_pos _ _ H Hb). rewrite Rminus_0_r in E. lra.
Qed.
Lemma ln_ratio_bounds w : 0 <= w <= / 2 -> atanh_sum w <= ln ((1 + w) / (1 - w)) <= atanh_sum w + w ^ 9.
Proof.
  intros Hw.
  assert (D : forall t, 0 <= t <= w -> is_derive (fun t => ln ((1 + t) / (1 - t))) t (2 / (1 - t * t))).
  { intros t Ht. auto_derive; [split; [intros Hz; lra|split; [|exact I]]; apply (Rdiv_lt_0_compat (1 + t) (1 + - t)); lra|]. field. repeat split; intros Hz; nra. }
  assert (DS : forall t, is_derive atanh_sum t (2 * (1 + t ^ 2 + t ^ 4 + t ^ 6))).
  { intros t. unfold atanh_sum. auto_derive; [exact I|]. field. }
  assert (H2 : forall t, 0 <= t <= w -> 0 < 1 - t * t) by (intros; nra).
  assert (Z0 : ln ((1 + 0) / (1 - 0)) = 0) by (replace ((1 + 0) / (1 - 0)) with 1 by field; apply ln_1).
  split.
  - pose proof (rising (fun t => ln ((1 + t) / (1 - t)) - atanh_sum t) (fun t => 2 / (1 - t * t) - 2 * (1 + t ^ 2 + t ^ 4 + t ^ 6)) w ltac:(lra)) as H.
    cbv beta in H. rewrite Z0 in H. unfold atanh_sum at 1 in H. enough (0 - 2 * (0 + 0 ^ 3 / 3 + 0 ^ 5 / 5 + 0 ^ 7 / 7) <= ln ((1 + w) / (1 - w)) - atanh_sum w) by lra.
    apply H; [intros t Ht; apply (is_derive_minus (V := R_NormedModule)); auto|].
    intros t Ht. specialize (H2 t Ht). replace (2 / (1 - t * t) - 2 * (1 + t ^ 2 + t ^ 4 + t ^ 6)) with (2 * t ^ 8 / (1 - t * t)) by (field; lra).
    apply Rmult_le_pos; [|apply Rlt_le, Rinv_0_lt_compat; auto]. pose proof (pow_le t 8 (proj1 Ht)). lra.
  - pose proof (rising (fun t => atanh_sum t + t ^ 9 - ln ((1 + t) / (1 - t))) (fun t => 2 * (1 + t ^ 2 + t ^ 4 + t ^ 6) + 9 * t ^ 8 - 2 / (1 - t * t)) w ltac:(lra)) as H.
    cbv beta in H. rewrite Z0 in H. unfold atanh_sum at 1 in H. enough (2 * (0 + 0 ^ 3 / 3 + 0 ^ 5 / 5 + 0 ^ 7 / 7) + 0 ^ 9 - 0 <= atanh_sum w + w ^ 9 - ln ((1 + w) / (1 - w))) by lra.
    apply H.
    + intros t Ht. apply (is_derive_minus (V := R_NormedModule)); auto. apply (is_derive_plus (V := R_NormedModule)); auto. auto_derive; [exact I|]. ring.
    + intros t Ht. specialize (H2 t Ht). replace (2 * (1 + t ^ 2 + t ^ 4 + t ^ 6) + 9 * t ^ 8 - 2 / (1 - t * t)) with (t ^ 8 * (9 * (1 - t * t) - 2) / (1 - t * t)) by (field; lra).
      apply Rmult_le_pos; [|apply Rlt_le, Rinv_0_lt_compat; auto]. apply Rmult_le_pos; [apply pow_le; lra|]. nra.
Qed.

(** ** One step of the series *)
Definition tail (x : R) : R := / (12 * x) - / (360 * x ^ 3) + / (1260 * x ^ 5).
Definition stirling (x : R) : R := (x - / 2) * ln x - x + / 2 * (18378770664093453 / 10 ^ 16) + tail x.
Definition tiny : R := / 10 ^ 16.

Lemma stirling_step x : 257 <= x -> Rabs (stirling (x + 1) - stirling x - ln x) <= tiny * (/ x - / (x + 1)).
Proof.
  intros Hx. set (w := / (2 * x + 1)).
  assert (Hw : 0 < w <= / 515). { unfold w. split; [apply Rinv_0_lt_compat; lra|apply Rinv_le_contravar; lra]. }
  assert (Ex : x = (1 - w) / (2 * w)) by (unfold w; field; lra).
  assert (Ex1 : x + 1 = (1 + w) / (2 * w)) by (unfold w; field; lra).
  assert (EL : ln (x + 1) - ln x = ln ((1 + w) / (1 - w))).
  { rewrite <- ln_div by lra. f_equal. rewrite Ex1, Ex. field. lra. }
  destruct (ln_ratio_bounds w ltac:(lra)) as [L1 L2]. rewrite <- EL in L1, L2.
  set (v := w * w) in *. assert (Hv : 0 < v <= / 265225) by (unfold v; split; nra).
  assert (Ed : stirling (x + 1) - stirling x - ln x = (ln (x + 1) - ln x) / (2 * w) - 1 + tail (x + 1) - tail x).
  { unfold stirling. replace ((ln (x + 1) - ln x) / (2 * w)) with ((ln (x + 1) - ln x) * (x + / 2)) by (unfold w; field; lra). set (cc := 18378770664093453 / 10 ^ 16). clearbody cc. field. }
  assert (Et : tail (x + 1) - tail x = - v / (3 * (1 - v)) + 2 * v ^ 2 * (3 + v) / (45 * (1 - v) ^ 3) - 16 * v ^ 3 * (5 + 10 * v + v ^ 2) / (315 * (1 - v) ^ 5)).
  { unfold tail. rewrite Ex1, Ex. unfold v. field. repeat split; nra. }
  set (p := - 53 / 45 + 34 / 45 * v - 16 / 21 * v ^ 2 + 18 / 35 * v ^ 3 - / 7 * v ^ 4).
  assert (Er : atanh_sum w / (2 * w) - 1 + tail (x + 1) - tail x = v ^ 4 * p / (1 - v) ^ 5).
  { replace (atanh_sum w / (2 * w) - 1 + tail (x + 1) - tail x) with (atanh_sum w / (2 * w) - 1 + (tail (x + 1) - tail x)) by ring. rewrite Et. replace (atanh_sum w / (2 * w)) with (1 + v / 3 + v ^ 2 / 5 + v ^ 3 / 7) by (unfold atanh_sum, v; field; lra). unfold p. field. lra. }
  assert (Hv4 : 0 < v ^ 4) by (apply pow_lt; lra). assert (Hv2 : 0 < v ^ 2 < / 1000) by (split; [apply pow_lt; lra|nra]).
  assert (Hv3 : 0 < v ^ 3 < / 1000) by (split; [apply pow_lt; lra|replace (v ^ 3) with (v ^ 2 * v) by ring; nra]).
  assert (Hv4' : v ^ 4 < / 1000) by (replace (v ^ 4) with (v ^ 3 * v) by ring; nra).
  assert (Hp : - (6 / 5) <= p <= 0) by (unfold p; lra).
  assert (Hq : 1 <= / (1 - v) ^ 5 <= 101 / 100).
  { assert (H : 100 / 101 <= (1 - v) ^ 5 <= 1) by (replace ((1 - v) ^ 5) with (1 - 5 * v + v ^ 2 * (10 - 10 * v + 5 * v ^ 2 - v ^ 3)) by ring; nra).
    split; [rewrite <- Rinv_1 at 1; apply Rinv_le_contravar; lra|]. replace (101 / 100) with (/ (100 / 101)) by field. apply Rinv_le_contravar; lra. }
  assert (Hl : 0 <= (ln (x + 1) - ln x) / (2 * w) - atanh_sum w / (2 * w) <= v ^ 4 / 2).
  { replace ((ln (x + 1) - ln x) / (2 * w) - atanh_sum w / (2 * w)) with ((ln (x + 1) - ln x - atanh_sum w) / (2 * w)) by (field; lra).
    split; [apply Rmult_le_pos; [lra|apply Rlt_le, Rinv_0_lt_compat; lra]|]. replace (v ^ 4 / 2) with (w ^ 9 / (2 * w)) by (unfold v; field; lra).
    apply Rmult_le_compat_r; [apply Rlt_le, Rinv_0_lt_compat; lra|lra]. }
  assert (Hr : - (2 * v ^ 4) <= v ^ 4 * p / (1 - v) ^ 5 <= 0).
  { unfold Rdiv. assert (- (2) <= p * / (1 - v) ^ 5 <= 0) by nra. replace (v ^ 4 * p * / (1 - v) ^ 5) with (v ^ 4 * (p * / (1 - v) ^ 5)) by ring. nra. }
  assert (Hs : 2 * v ^ 4 <= tiny * (/ x - / (x + 1))).
  { replace (/ x - / (x + 1)) with (4 * v / (1 - v)) by (rewrite Ex1, Ex; unfold v; field; repeat split; nra).
    assert (v ^ 3 <= 2 * tiny). { apply Rle_trans with ((/ 265225) ^ 3); [apply pow_incr; lra|]. unfold tiny. lra. }
    assert (4 * v <= 4 * v / (1 - v)). { unfold Rdiv. assert (1 <= / (1 - v)) by (rewrite <- Rinv_1 at 1; apply Rinv_le_contravar; lra). nra. }
    replace (2 * v ^ 4) with (2 * v * v ^ 3) by ring. assert (0 < tiny) by (unfold tiny; lra). nra. }
  apply Rabs_le. lra.
Qed.

(** ** The exponential of a large number, by repeated squaring of fixed-point numbers *)
Definition unit_z : Z := (2 ^ 220)%Z.
Definition sq_lo (n : Z) : Z := (n * n / unit_z)%Z.
Definition sq_up (n : Z) : Z := (n * n / unit_z + 1)%Z.
Lemma div_lo a b : (0 < b)%Z -> IZR (a / b) * IZR b <= IZR a.
Proof. intros Hb. rewrite <- mult_IZR. apply IZR_le. rewrite Z.mul_comm. apply Z.mul_div_le, Hb. Qed.
Lemma div_up a b : (0 < b)%Z -> IZR a <= IZR (a / b + 1) * IZR b.
Proof. intros Hb. rewrite <- mult_IZR. apply IZR_le. pose proof (Z.div_mod a b ltac:(lia)). pose proof (Z.mod_pos_bound a b Hb). nia. Qed.
Lemma unit_pos : 0 < IZR unit_z.
Proof. apply IZR_lt. reflexivity. Qed.
Lemma lo_iter k : forall n z, (0 <= n)%Z -> IZR n / IZR unit_z <= exp z -> IZR (Nat.iter k sq_lo n) / IZR unit_z <= exp (2 ^ k * z) /\ (0 <= Nat.iter k sq_lo n)%Z.
Proof.
  pose proof unit_pos as HU. induction k as [|k IH]; intros n z Hn Hz; [cbn [Nat.iter nat_rect pow]; rewrite Rmult_1_l; auto|].
  destruct (IH n z Hn Hz) as [H1 H2]. change (Nat.iter (S k) sq_lo n) with (sq_lo (Nat.iter k sq_lo n)). set (m := Nat.iter k sq_lo n) in *.
  split; [|unfold sq_lo; apply Z.div_pos; [nia|reflexivity]].
  replace (2 ^ S k * z) with (2 ^ k * z + 2 ^ k * z) by (cbn [pow]; ring). rewrite exp_plus. pose proof (exp_pos (2 ^ k * z)).
  assert (Hm : 0 <= IZR m / IZR unit_z) by (apply Rmult_le_pos; [apply IZR_le, H2|apply Rlt_le, Rinv_0_lt_compat, HU]).
  apply Rle_trans with ((IZR m / IZR unit_z) * (IZR m / IZR unit_z)); [|apply Rmult_le_compat; auto].
  pose proof (div_lo (m * m) unit_z ltac:(reflexivity)) as Hd. rewrite mult_IZR in Hd. unfold sq_lo.
  apply Rmult_le_reg_r with (IZR unit_z * IZR unit_z); [apply Rmult_lt_0_compat; auto|].
  replace (IZR (m * m / unit_z) / IZR unit_z * (IZR unit_z * IZR unit_z)) with (IZR (m * m / unit_z) * IZR unit_z) by (field; lra).
  replace (IZR m / IZR unit_z * (IZR m / IZR unit_z) * (IZR unit_z * IZR unit_z)) with (IZR m * IZR m) by (field; lra). exact Hd.
Qed.
Lemma up_iter k : forall n z, exp z <= IZR n / IZR unit_z -> exp (2 ^ k * z) <= IZR (Nat.iter k sq_up n) / IZR unit_z.
Proof.
  pose proof unit_pos as HU. induction k as [|k IH]; intros n z Hz; [cbn [Nat.iter nat_rect pow]; rewrite Rmult_1_l; auto|].
  pose proof (IH n z Hz) as H1. change (Nat.iter (S k) sq_up n) with (sq_up (Nat.iter k sq_up n)). set (m := Nat.iter k sq_up n) in *.
  replace (2 ^ S k * z) with (2 ^ k * z + 2 ^ k * z) by (cbn [pow]; ring). rewrite exp_plus. pose proof (exp_pos (2 ^ k * z)).
  apply Rle_trans with ((IZR m / IZR unit_z) * (IZR m / IZR unit_z)); [apply Rmult_le_compat; lra|].
  pose proof (div_up (m * m) unit_z ltac:(reflexivity)) as Hd. rewrite mult_IZR in Hd. unfold sq_up.
  apply Rmult_le_reg_r with (IZR unit_z * IZR unit_z); [apply Rmult_lt_0_compat; auto|].
  replace (IZR (m * m / unit_z + 1) / IZR unit_z * (IZR unit_z * IZR unit_z)) with (IZR (m * m / unit_z + 1) * IZR unit_z) by (field; lra).
  replace (IZR m / IZR unit_z * (IZR m / IZR unit_z) * (IZR unit_z * IZR unit_z)) with (IZR m * IZR m) by (field; lra). exact Hd.
Qed.

(** [exp (Y / scale_z)] from below and from above, in units of [1 / unit_z]. *)
Definition scale_z : Z := (10 ^ 30)%Z.
Definition small_lo (Y : Z) : Z := (Y * unit_z / (scale_z * 2 ^ 90))%Z.
Definition exp_lo (Y : Z) : Z := Nat.iter 90 sq_lo (unit_z + small_lo Y)%Z.
Definition small_up (Y : Z) : Z := (Y * unit_z / (scale_z * 2 ^ 90) + 1)%Z.
Definition exp_up (Y : Z) : Z := Nat.iter 90 sq_up (unit_z + small_up Y + (2 * (small_up Y * small_up Y) / unit_z + 1))%Z.
Lemma pow_2_90 : IZR (2 ^ 90) = 2 ^ 90.
Proof. exact (eq_sym (pow_IZR 2 90)). Qed.
Lemma exp_lo_ok Y : (0 <= Y)%Z -> IZR (exp_lo Y) / IZR unit_z <= exp (IZR Y / IZR scale_z).
Proof.
  intros HY. pose proof unit_pos as HU. assert (HS : 0 < IZR scale_z) by (apply IZR_lt; reflexivity). assert (HP : 0 < 2 ^ 90) by (apply pow_lt; lra).
  pose proof (div_lo (Y * unit_z) (scale_z * 2 ^ 90) ltac:(reflexivity)) as Hm. rewrite !mult_IZR, pow_2_90 in Hm. fold (small_lo Y) in Hm.
  assert (H0 : (0 <= small_lo Y)%Z) by (apply Z.div_pos; [apply Z.mul_nonneg_nonneg; [exact HY|discriminate]|reflexivity]).
  set (z := IZR Y / IZR scale_z / 2 ^ 90).
  assert (Hz : IZR (small_lo Y) / IZR unit_z <= z).
  { apply Rmult_le_reg_r with (IZR unit_z * (IZR scale_z * 2 ^ 90)); [apply Rmult_lt_0_compat; [auto|apply Rmult_lt_0_compat; auto]|].
    unfold z. replace (IZR Y / IZR scale_z / 2 ^ 90 * (IZR unit_z * (IZR scale_z * 2 ^ 90))) with (IZR Y * IZR unit_z) by (field; lra).
    replace (IZR (small_lo Y) / IZR unit_z * (IZR unit_z * (IZR scale_z * 2 ^ 90))) with (IZR (small_lo Y) * (IZR scale_z * 2 ^ 90)) by (field; lra). exact Hm. }
  replace (IZR Y / IZR scale_z) with (2 ^ 90 * z) by (unfold z; field; lra). unfold exp_lo. apply lo_iter; [apply Z.add_nonneg_nonneg; [discriminate|exact H0]|].
  rewrite plus_IZR. replace ((IZR unit_z + IZR (small_lo Y)) / IZR unit_z) with (1 + IZR (small_lo Y) / IZR unit_z) by (field; lra).
  pose proof (exp_ineq1_le z). lra.
Qed.
Lemma exp_small z : 0 <= z <= / 2 -> exp z <= 1 + z + 2 * (z * z).
Proof.
  intros Hz. pose proof (exp_ineq1_le (- z)) as H. pose proof (exp_pos z) as Hp. assert (E : exp z * exp (- z) = 1) by (rewrite <- exp_plus; replace (z + - z) with 0 by ring; apply exp_0).
  assert (H1 : exp z * (1 - z) <= 1) by nra. assert (H2 : 1 <= (1 - z) * (1 + z + 2 * (z * z))) by nra. nra.
Qed.
Lemma exp_up_ok Y : (0 <= Y)%Z -> (2 * small_up Y <= unit_z)%Z -> exp (IZR Y / IZR scale_z) <= IZR (exp_up Y) / IZR unit_z.
Proof.
  intros HY Hh. pose proof unit_pos as HU. assert (HS : 0 < IZR scale_z) by (apply IZR_lt; reflexivity). assert (HP : 0 < 2 ^ 90) by (apply pow_lt; lra).
  pose proof (div_up (Y * unit_z) (scale_z * 2 ^ 90) ltac:(reflexivity)) as Hm. rewrite !mult_IZR, pow_2_90 in Hm. fold (small_up Y) in Hm.
  set (z := IZR Y / IZR scale_z / 2 ^ 90). set (s := IZR (small_up Y) / IZR unit_z).
  assert (Hz : z <= s).
  { apply Rmult_le_reg_r with (IZR unit_z * (IZR scale_z * 2 ^ 90)); [apply Rmult_lt_0_compat; [auto|apply Rmult_lt_0_compat; auto]|].
    unfold z, s. replace (IZR Y / IZR scale_z / 2 ^ 90 * (IZR unit_z * (IZR scale_z * 2 ^ 90))) with (IZR Y * IZR unit_z) by (field; lra).
    replace (IZR (small_up Y) / IZR unit_z * (IZR unit_z * (IZR scale_z * 2 ^ 90))) with (IZR (small_up Y) * (IZR scale_z * 2 ^ 90)) by (field; lra). exact Hm. }
  assert (Hz0 : 0 <= z). { unfold z, Rdiv. repeat apply Rmult_le_pos; [apply IZR_le, HY| |]; apply Rlt_le, Rinv_0_lt_compat; auto. }
  assert (Hs : s <= / 2). { unfold s. apply IZR_le in Hh. rewrite mult_IZR in Hh. apply Rmult_le_reg_r with (IZR unit_z); [auto|]. unfold Rdiv. rewrite Rmult_assoc, Rinv_l by lra. lra. }
  replace (IZR Y / IZR scale_z) with (2 ^ 90 * z) by (unfold z; field; lra). unfold exp_up. apply up_iter. rewrite !plus_IZR.
  pose proof (div_up (2 * (small_up Y * small_up Y)) unit_z ltac:(reflexivity)) as Hq. rewrite plus_IZR, !mult_IZR in Hq.
  set (t := IZR (2 * (small_up Y * small_up Y) / unit_z)) in *.
  assert (Ht : 2 * (s * s) <= (t + 1) / IZR unit_z).
  { unfold s. apply Rmult_le_reg_r with (IZR unit_z * IZR unit_z); [apply Rmult_lt_0_compat; auto|].
    replace ((t + 1) / IZR unit_z * (IZR unit_z * IZR unit_z)) with ((t + 1) * IZR unit_z) by (field; lra).
    replace (2 * (IZR (small_up Y) / IZR unit_z * (IZR (small_up Y) / IZR unit_z)) * (IZR unit_z * IZR unit_z)) with (2 * (IZR (small_up Y) * IZR (small_up Y))) by (field; lra). exact Hq. }
  replace ((IZR unit_z + IZR (small_up Y) + (t + 1)) / IZR unit_z) with (1 + s + (t + 1) / IZR unit_z) by (unfold s; field; lra).
  pose proof (exp_small z ltac:(lra)). nra.
Qed.

(** ** The series at 257 *)
Fixpoint fact_z (n : nat) : Z := match n with O => 1%Z | S m => (Z.of_nat n * fact_z m)%Z end.
Lemma fact_z_ok n : INR (fact n) = IZR (fact_z n).
Proof. induction n as [|n IH]; [reflexivity|]. change (fact (S n)) with (S n * fact n)%nat. change (fact_z (S n)) with (Z.of_nat (S n) * fact_z n)%Z. rewrite mult_INR, mult_IZR, IH, INR_IZR_INZ. reflexivity. Qed.
Definition y_lo : Z := 512161474425487330021260088142427%Z.
Definition y_up : Z := 512161474425487330401260088142426%Z.
Lemma check_lo : (exp_up y_lo * (fact_z 256 * fact_z 256) <= 257 ^ 513 * unit_z)%Z.
Proof. apply Z.leb_le. vm_compute. reflexivity. Qed.
Lemma check_up : (257 ^ 513 * unit_z <= exp_lo y_up * (fact_z 256 * fact_z 256))%Z.
Proof. apply Z.leb_le. vm_compute. reflexivity. Qed.
Lemma start_gen (Fa A B Un G : R) : 0 < Fa -> 0 < Un -> G = 257 ^ 513 -> A * (Fa * Fa) <= G * Un -> G * Un <= B * (Fa * Fa) ->
  exp (IZR y_lo / IZR scale_z) <= A / Un -> B / Un <= exp (IZR y_up / IZR scale_z) -> Rabs (ln Fa - stirling 257) <= 95 / 10 ^ 18.
Proof.
  intros HF HU HE C1 C2 U L.
  assert (HG : 0 < G) by (rewrite HE; apply pow_lt; lra). assert (HFF : 0 < Fa * Fa) by (apply Rmult_lt_0_compat; auto).
  assert (EG : ln G = 513 * ln 257). { rewrite HE, ln_pow by lra. f_equal. rewrite INR_IZR_INZ. reflexivity. }
  assert (EQ : ln (G / (Fa * Fa)) = 513 * ln 257 - 2 * ln Fa) by (rewrite ln_div, ln_mult, EG by auto; ring).
  clear HE EG. set (q := G / (Fa * Fa)) in *. assert (Eq : q * (Fa * Fa) = G) by (unfold q; field; lra). assert (Hq : 0 < q) by (apply Rdiv_lt_0_compat; auto).
  rewrite <- Eq in C1, C2. clearbody q.
  assert (U' : exp (IZR y_lo / IZR scale_z) <= q).
  { apply Rle_trans with (A / Un); [exact U|]. apply Rmult_le_reg_r with (Un * (Fa * Fa)); [apply Rmult_lt_0_compat; auto|]. replace (A / Un * (Un * (Fa * Fa))) with (A * (Fa * Fa)) by (field; lra). lra. }
  assert (L' : q <= exp (IZR y_up / IZR scale_z)).
  { apply Rle_trans with (B / Un); [|exact L]. apply Rmult_le_reg_r with (Un * (Fa * Fa)); [apply Rmult_lt_0_compat; auto|]. replace (B / Un * (Un * (Fa * Fa))) with (B * (Fa * Fa)) by (field; lra). lra. }
  apply ln_le in U'; [|apply exp_pos]. apply ln_le in L'; [|exact Hq]. rewrite ln_exp in U', L'. rewrite EQ in U', L'. clear - U' L'.
  replace (IZR scale_z) with (10 ^ 30) in U', L' by exact (pow_IZR 10 30). unfold y_lo, y_up in U', L'. apply Rabs_le. unfold stirling, tail.
  set (l := ln 257) in *. set (f := ln Fa) in *. clearbody l f. lra.
Qed.
Lemma check_small : (2 * small_up y_lo <= unit_z)%Z.
Proof. apply Z.leb_le. vm_compute. reflexivity. Qed.
Lemma start_ok : forall k, k = 256%nat -> Rabs (ln (INR (fact k)) - stirling 257) <= 95 / 10 ^ 18.
Proof.
  intros k Hk. pose proof check_lo as C1. pose proof check_up as C2. rewrite <- Hk in C1, C2. apply IZR_le in C1, C2. rewrite !mult_IZR, <- fact_z_ok in C1, C2.
  apply (start_gen (INR (fact k)) (IZR (exp_up y_lo)) (IZR (exp_lo y_up)) (IZR unit_z) (IZR (257 ^ 513)) (INR_fact_lt_0 k) unit_pos); auto.
  - change (257 ^ 513)%Z with (257 ^ Z.of_nat 513)%Z. rewrite <- pow_IZR. reflexivity.
  - apply exp_up_ok; [discriminate|exact check_small].
  - apply exp_lo_ok. discriminate.
Qed.

Lemma drift b : INR b + 1 = 257 -> forall n, Rabs (ln (INR (fact (b + n))) - stirling (INR (b + n) + 1) - (ln (INR (fact b)) - stirling 257)) <= tiny * (/ 257 - / (INR (b + n) + 1)).
Proof.
  intros E. induction n as [|n IH].
  - rewrite Nat.add_0_r, E. replace (ln (INR (fact b)) - stirling 257 - (ln (INR (fact b)) - stirling 257)) with 0 by ring. rewrite Rabs_R0. lra.
  - replace (b + S n)%nat with (S (b + n)) by lia. assert (Hk : 256 <= INR (b + n)) by (rewrite plus_INR; pose proof (pos_INR n); lra).
    set (k := (b + n)%nat) in *. clearbody k.
    pose proof (stirling_step (INR k + 1) ltac:(lra)) as Hs. change (fact (S k)) with (S k * fact k)%nat. rewrite mult_INR, !S_INR, ln_mult; [|lra|apply INR_fact_lt_0].
    set (a := ln (INR (fact b)) - stirling 257) in *. clearbody a. set (f := ln (INR (fact k))) in *. clearbody f. set (c := INR k + 1) in *. clearbody c.
    replace (ln c + f - stirling (c + 1) - a) with ((f - stirling c - a) - (stirling (c + 1) - stirling c - ln c)) by ring.
    eapply Rle_trans; [apply Rabs_triang|]. rewrite Rabs_Ropp. lra.
Qed.

(** For every k, [log_factorial] is within 10^-16 of the logarithm of k!, in real arithmetic. *)
Theorem C59_log_factorial_close : forall k, Rabs (log_factorial rops rpoisson k - ln (INR (fact k))) <= / 10 ^ 16.
Proof.
  intros k. destruct (Nat.lt_ge_cases k 256) as [Hk|Hk].
  - rewrite (C59_log_factorial k Hk), Rminus_diag_eq, Rabs_R0 by reflexivity. lra.
  - assert (E : log_factorial rops rpoisson k = stirling (INR k + 1)).
    { unfold log_factorial. assert (E2 : (k <? 2)%nat = false) by (apply Nat.ltb_ge; lia). assert (E256 : (k <? 256)%nat = false) by (apply Nat.ltb_ge; exact Hk). rewrite E2, E256.
      cbv zeta. cbn [fadd fsub fmul fdiv fone rops po_dec po_nat po_ln rpoisson]. pose proof (pos_INR k). set (x := INR k + 1). assert (Hx : x <> 0) by (unfold x; intros H0; lra). clearbody x.
      unfold stirling, tail. set (l := ln x). clearbody l. field. exact Hx. }
    rewrite E. clear E. assert (H256 : exists b, b = 256%nat) by eauto. destruct H256 as [b Hb]. rewrite <- Hb in Hk. destruct (Nat.le_exists_sub b k Hk) as (n & Hn & _). rewrite Nat.add_comm in Hn.
    assert (Eb : INR b + 1 = 257) by (rewrite Hb, INR_IZR_INZ; cbn; ring). pose proof (drift b Eb n) as D. pose proof (start_ok b Hb) as S0. rewrite <- Hn in D. clear Hb Hk Hn.
    set (a := ln (INR (fact b)) - stirling 257) in *. clearbody a. set (s := stirling (INR k + 1)) in *. clearbody s. set (f := ln (INR (fact k))) in *. clearbody f.
    assert (H1 : tiny * (/ 257 - / (INR k + 1)) <= / 10 ^ 18).
    { assert (0 < / (INR k + 1)) by (apply Rinv_0_lt_compat; pose proof (pos_INR k); lra). unfold tiny. lra. }
    apply Rabs_le. unfold Rabs in D, S0. destruct (Rcase_abs (f - s - a)); destruct (Rcase_abs a); lra.
Qed.

Lemma exp_le' a b : a <= b -> exp a <= exp b.
Proof. intros [H|H]; [apply Rlt_le, exp_increasing, H|rewrite H; lra]. Qed.

(** The test of a round, for every number: up to a factor between exp (-10^-16) and exp (10^-16), the second draw is compared with the probability of k times the slope of the transformation. *)
Theorem C59_accepts_any : forall mean u v k, 30 <= mean -> 0 < v -> 0 < near_end u ->
  let slope := ptrs_a mean / (near_end u * near_end u) + ptrs_b mean in
  let prob := exp (- mean) * mean ^ k / INR (fact k) in
  let test := ln (v * ptrs_ia mean / slope) <= - mean + INR k * ln mean - log_factorial rops rpoisson k in
  (test -> v * ptrs_ia mean <= slope * prob * exp (/ 10 ^ 16)) /\ (v * ptrs_ia mean <= slope * prob * exp (- / 10 ^ 16) -> test).
Proof.
  intros mean u v k Hm Hv Hu slope prob test.
  assert (Hs5 : 5 <= sqrt mean) by (rewrite <- (sqrt_square 5) by lra; apply sqrt_le_1; lra).
  assert (Hb : 13 <= ptrs_b mean) by (unfold ptrs_b; lra). assert (Ha : 0 < ptrs_a mean) by (unfold ptrs_a; lra).
  assert (Hia : 0 < ptrs_ia mean).
  { unfold ptrs_ia. assert (0 < 11328 / 10000 / (ptrs_b mean - 34 / 10)); [|lra]. apply Rmult_lt_0_compat; [lra|apply Rinv_0_lt_compat; lra]. }
  assert (Hn2 : 0 < near_end u * near_end u) by (apply Rmult_lt_0_compat; auto). assert (Hsl : 0 < slope).
  { unfold slope. assert (0 < ptrs_a mean / (near_end u * near_end u)); [|lra]. apply Rmult_lt_0_compat; [auto|apply Rinv_0_lt_compat; auto]. }
  pose proof (INR_fact_lt_0 k) as Hf. assert (Hpow : 0 < mean ^ k) by (apply pow_lt; lra).
  assert (Hpr : 0 < prob) by (unfold prob; apply Rdiv_lt_0_compat; [apply Rmult_lt_0_compat; [apply exp_pos|auto]|auto]).
  assert (Er : - mean + INR k * ln mean - ln (INR (fact k)) = ln prob).
  { unfold prob. rewrite ln_div, ln_mult, ln_exp; auto; [|apply exp_pos|apply Rmult_lt_0_compat; [apply exp_pos|auto]]. rewrite ln_pow by lra. ring. }
  pose proof (C59_log_factorial_close k) as C. set (lf := log_factorial rops rpoisson k) in *. clearbody lf.
  assert (C' : ln (INR (fact k)) - / 10 ^ 16 <= lf <= ln (INR (fact k)) + / 10 ^ 16) by (unfold Rabs in C; destruct (Rcase_abs (lf - ln (INR (fact k)))); lra). clear C.
  set (d := / 10 ^ 16) in *. clearbody d. set (y := v * ptrs_ia mean) in *. assert (Hy : 0 < y) by (apply Rmult_lt_0_compat; auto). clearbody y slope prob.
  assert (Hyd : 0 < y / slope) by (apply Rdiv_lt_0_compat; auto). assert (Ey : exp (ln (y / slope)) = y / slope) by (apply exp_ln; auto). assert (Ep : exp (ln prob) = prob) by (apply exp_ln; auto).
  unfold test. split; intros H.
  - assert (H1 : ln (y / slope) <= ln prob + d) by lra. apply exp_le' in H1. rewrite exp_plus, Ey, Ep in H1. apply (Rmult_le_compat_r slope) in H1; [|lra].
    replace (y / slope * slope) with y in H1 by (field; lra). lra.
  - assert (H1 : y / slope <= prob * exp (- d)). { apply Rmult_le_reg_r with slope; [auto|]. replace (y / slope * slope) with y by (field; lra). lra. }
    apply ln_le in H1; auto. rewrite ln_mult, ln_exp in H1 by (auto; apply exp_pos). lra.
Qed.
(** A mean and draws that meet the premises, far from the table of exact logarithms. *)
Example C59_any_case : 30 <= 1000 /\ 0 < 1 / 2 /\ 0 < near_end (1 / 4).
Proof. unfold near_end. rewrite Rabs_left by lra. lra. Qed.
Example C59_far_case : Rabs (log_factorial rops rpoisson 1000 - ln (INR (fact 1000))) <= / 10 ^ 16.
Proof. apply C59_log_factorial_close. Qed.

Print Assumptions C59_log_factorial_close.
Print Assumptions C59_accepts_any.
