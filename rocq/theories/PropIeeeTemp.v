(** Property C56, continued: the temperatures in floating point. *)
From Coq Require Import QArith SpecFloat.
From Verif Require Import Base BaseLemmas Num Evolution PropAccept.
Local Open Scope nat_scope.
From Coq Require Import Reals Lra Lia.
From Flocq Require Import Core IEEE754.BinarySingleNaN.
From Verif Require Import Ieee PropIeee PropNonneg.
Local Open Scope R_scope.

Section Temp.
Context (prec emax : Z) (Hprec : Prec_gt_0 prec) (Hmax : Prec_lt_emax prec emax).
Local Notation bf := (binary_float prec emax).
Local Notation F := (bops prec emax Hprec Hmax).
Local Notation V := (@B2R prec emax).
Local Notation r := (rnd prec emax).
Local Notation ofn := (b_of_nat prec emax Hprec Hmax).

Lemma ofn_value n : is_finite (ofn n) = true -> V (ofn n) = r (INR n) /\ Rabs (r (INR n)) < top emax.
Proof.
  unfold b_of_nat. pose proof (binary_normalize_correct prec emax Hprec Hmax mode_NE (Z.of_nat n) 0 false) as H. cbv zeta in H.
  set (z := binary_normalize _ _ _ _ _ _ _ _) in *. assert (Ef : F2R (Float radix2 (Z.of_nat n) 0) = INR n) by (unfold F2R; cbn; rewrite <- INR_IZR_INZ; lra). rewrite Ef in H.
  change (round_mode mode_NE) with ZnearestE in H. fold (r (INR n)) in H. fold (top emax) in H.
  destruct (Rlt_bool_spec (Rabs (r (INR n))) (top emax)) as [Hl|Hl]; [destruct H as (H1 & _); auto|].
  intros Hz. apply overflow_inf in H. rewrite H in Hz. discriminate.
Qed.
Lemma ofn_finite n : Rabs (r (INR n)) < top emax -> is_finite (ofn n) = true.
Proof.
  intros Hl. unfold b_of_nat. pose proof (binary_normalize_correct prec emax Hprec Hmax mode_NE (Z.of_nat n) 0 false) as H. cbv zeta in H.
  set (z := binary_normalize _ _ _ _ _ _ _ _) in *. assert (Ef : F2R (Float radix2 (Z.of_nat n) 0) = INR n) by (unfold F2R; cbn; rewrite <- INR_IZR_INZ; lra). rewrite Ef in H.
  change (round_mode mode_NE) with ZnearestE in H. fold (r (INR n)) in H. fold (top emax) in H.
  rewrite Rlt_bool_true in H by exact Hl. tauto.
Qed.
Lemma ofn_below i n : (i <= n)%nat -> is_finite (ofn n) = true -> is_finite (ofn i) = true /\ 0 <= V (ofn i) <= V (ofn n).
Proof.
  intros Hi Hn. destruct (ofn_value n Hn) as [E B]. apply le_INR in Hi. pose proof (pos_INR i) as Hp.
  pose proof (rnd_le prec emax Hprec _ _ Hi) as Hr. pose proof (r_pos prec emax Hprec (INR i) Hp) as H0.
  assert (Hf : is_finite (ofn i) = true) by (apply ofn_finite; rewrite Rabs_pos_eq in * by lra; lra).
  split; auto. destruct (ofn_value i Hf) as [-> _]. rewrite E. lra.
Qed.
Lemma r_1 : r 1 = 1.
Proof. destruct (one_fin prec emax Hprec Hmax) as [_ V1]. rewrite <- V1. apply rnd_val. Qed.
Lemma one_top : 1 < top emax.
Proof. destruct (one_fin prec emax Hprec Hmax) as [_ V1]. pose proof (val_top prec emax (fone F)). lra. Qed.
Lemma r_unit x : 0 <= x <= 1 -> 0 <= r x <= 1 /\ Rabs (r x) < top emax.
Proof.
  intros H. assert (H1 : 0 <= r x) by (apply r_pos; [exact Hprec|lra]). assert (H2 : r x <= 1) by (rewrite <- r_1; apply rnd_le; [exact Hprec|lra]).
  pose proof one_top. rewrite Rabs_pos_eq by lra. lra.
Qed.

(** The value of the i-th temperature: the quotient rounded, subtracted from 1, rounded. *)
Definition quotient (i total : nat) : R := r (r (INR i) / r (INR (total - 1))).
Lemma temperature_value annealing i total : (i < total)%nat -> is_finite (ofn (total - 1)) = true ->
  is_finite (code_temperature F ofn annealing i total) = true
  /\ V (code_temperature F ofn annealing i total) = if annealing then (if Nat.leb total 1 then 1 else r (1 - quotient i total)) else 1.
Proof.
  intros Hi Hn. destruct (one_fin prec emax Hprec Hmax) as [F1 V1]. unfold code_temperature. destruct (Nat.leb_spec total 1) as [Ht|Ht]; [split; [exact F1|destruct annealing; exact V1]|].
  destruct (ofn_below i (total - 1) ltac:(lia) Hn) as [Fi Vi]. destruct (ofn_below 1 (total - 1) ltac:(lia) Hn) as [_ Vn1].
  destruct (ofn_value _ Hn) as [En _]. destruct (ofn_value _ Fi) as [Ei _]. assert (E1 : V (ofn 1) = 1). { destruct (ofn_value 1) as [-> _]; [apply (ofn_below 1 (total - 1)); [lia|exact Hn]|]. exact r_1. }
  assert (Hpos : 0 < V (ofn (total - 1))) by lra.
  assert (Hq : 0 <= V (ofn i) / V (ofn (total - 1)) <= 1).
  { split; [apply Rmult_le_pos; [lra|apply Rlt_le, Rinv_0_lt_compat; auto]|]. apply Rmult_le_reg_r with (V (ofn (total - 1))); auto. unfold Rdiv. rewrite Rmult_assoc, Rinv_l by lra. lra. }
  destruct (r_unit _ Hq) as [Hq1 Hq2]. destruct (div_fin prec emax Hprec Hmax (ofn i) (ofn (total - 1)) Fi Hn ltac:(lra)) as [(_ & Fd & Vd)|(Hd & _)]; [|lra].
  set (d := fdiv F (ofn i) (ofn (total - 1))) in *. assert (Eq : V d = quotient i total) by (rewrite Vd, Ei, En; reflexivity). clearbody d.
  set (mn := if annealing then fzero F else fone F).
  assert (Hm : is_finite (fsub F mn (fone F)) = true /\ V (fsub F mn (fone F)) = if annealing then - 1 else 0).
  { assert (Fm : is_finite mn = true /\ V mn = if annealing then 0 else 1) by (unfold mn; destruct annealing; [split; reflexivity|split; [exact F1|exact V1]]).
    destruct Fm as [Fm Vm]. assert (Hr : r (V mn - V (fone F)) = if annealing then - 1 else 0).
    { rewrite Vm, V1. destruct annealing; [|rewrite Rminus_diag_eq by reflexivity; apply rnd_0].
      replace (0 - 1) with (V (Bopp (fone F))) by (rewrite B2R_Bopp, V1; ring). rewrite rnd_val. rewrite B2R_Bopp, V1. reflexivity. }
    pose proof one_top. destruct (sub_fin prec emax Hprec Hmax mn (fone F) Fm F1) as [(_ & Fs & Vs)|(Hs & _)]; [rewrite Hr in Vs; auto|].
    exfalso. rewrite Hr in Hs. destruct annealing; [rewrite Rabs_left in Hs by lra|rewrite Rabs_R0 in Hs]; lra. }
  destruct Hm as [Fm Vm]. set (m := fsub F mn (fone F)) in *. clearbody m.
  assert (Hp : r (V d * V m) = if annealing then - V d else 0).
  { rewrite Vm. destruct annealing; [|rewrite Rmult_0_r; apply rnd_0]. replace (V d * - 1) with (V (Bopp d)) by (rewrite B2R_Bopp; ring). rewrite rnd_val. apply B2R_Bopp. }
  assert (Hdv : 0 <= V d <= 1) by (rewrite Vd; exact Hq1). pose proof one_top as H1t.
  destruct (mul_fin prec emax Hprec Hmax d m Fd Fm) as [(_ & Fp & Vp)|(Hs & _)].
  2:{ exfalso. rewrite Hp in Hs. destruct annealing; [rewrite Rabs_Ropp, Rabs_pos_eq in Hs by lra|rewrite Rabs_R0 in Hs]; lra. }
  rewrite Hp in Vp. set (p := fmul F d m) in *. clearbody p.
  assert (Hs : r (V (fone F) + V p) = if annealing then r (1 - quotient i total) else 1).
  { rewrite V1, Vp. destruct annealing; [rewrite Eq; f_equal|rewrite Rplus_0_r; exact r_1]. }
  destruct (add_fin prec emax Hprec Hmax (fone F) p F1 Fp) as [(_ & Fr & Vr)|(Ho & _)]; [split; [exact Fr|]; rewrite Vr, Hs; reflexivity|].
  exfalso. rewrite Hs in Ho. destruct annealing; [|rewrite Rabs_R1 in Ho; lra]. rewrite Eq in Hdv. destruct (r_unit (1 - quotient i total) ltac:(lra)) as [_ Hb]. lra.
Qed.
End Temp.

(** In every IEEE format the temperature starts at exactly 1, never leaves the interval from 0 to 1, never rises, and with annealing ends at exactly 0; without annealing it
    is always 1. The premise: the number of cycles is within the range of the format. *)
Theorem C56_temperature_ieee : forall prec emax (Hp : Prec_gt_0 prec) (Hm : Prec_lt_emax prec emax) annealing total,
  let temperature i := code_temperature (bops prec emax Hp Hm) (b_of_nat prec emax Hp Hm) annealing i total in
  is_finite (b_of_nat prec emax Hp Hm (total - 1)) = true ->
  (forall i, (i < total)%nat -> is_finite (temperature i) = true /\ 0 <= B2R (temperature i) <= 1)
  /\ ((1 <= total)%nat -> B2R (temperature 0%nat) = 1)
  /\ (annealing = true -> (2 <= total)%nat -> B2R (temperature (total - 1)%nat) = 0)
  /\ (annealing = false -> forall i, (i < total)%nat -> B2R (temperature i) = 1)
  /\ (forall i j, (i <= j)%nat -> (j < total)%nat -> B2R (temperature j) <= B2R (temperature i)).
Proof.
  intros prec emax Hp Hm an total temperature Hn.
  assert (TV : forall i, (i < total)%nat -> is_finite (temperature i) = true /\ B2R (temperature i) = if an then (if Nat.leb total 1 then 1 else rnd prec emax (1 - quotient prec emax i total)) else 1).
  { intros i Hi. exact (temperature_value prec emax Hp Hm an i total Hi Hn). }
  assert (Q : (2 <= total)%nat -> forall i j, (i <= j)%nat -> (j <= total - 1)%nat -> 0 <= quotient prec emax i total <= quotient prec emax j total /\ quotient prec emax j total <= 1).
  { intros Ht i j Hij Hj. destruct (ofn_below prec emax Hp Hm 1 (total - 1) ltac:(lia) Hn) as [F1 V1]. destruct (ofn_value prec emax Hp Hm 1 F1) as [E1 _]. destruct (ofn_value prec emax Hp Hm _ Hn) as [En _].
    rewrite E1, En in V1. change (INR 1) with 1 in V1. rewrite (r_1 prec emax Hp Hm) in V1. set (N := rnd prec emax (INR (total - 1))) in *.
    assert (Hi0 : 0 <= rnd prec emax (INR i)) by (apply r_pos; [exact Hp|apply pos_INR]).
    assert (Hij' : rnd prec emax (INR i) <= rnd prec emax (INR j)) by (apply rnd_le; [exact Hp|apply le_INR; exact Hij]).
    assert (Hj' : rnd prec emax (INR j) <= N) by (apply rnd_le; [exact Hp|apply le_INR; exact Hj]).
    assert (HN : 0 < / N) by (apply Rinv_0_lt_compat; lra). assert (EN : N * / N = 1) by (apply Rinv_r; lra).
    unfold quotient. fold N. split; [split|].
    - apply r_pos; [exact Hp|]. apply Rmult_le_pos; lra.
    - apply rnd_le; [exact Hp|]. apply Rmult_le_compat_r; lra.
    - rewrite <- (r_1 prec emax Hp Hm). apply rnd_le; [exact Hp|]. unfold Rdiv. rewrite <- EN. apply Rmult_le_compat_r; lra. }
  assert (Q0 : quotient prec emax 0 total = 0) by (unfold quotient; change (INR 0) with 0; rewrite rnd_0; unfold Rdiv; rewrite Rmult_0_l; apply rnd_0).
  split; [|split; [|split; [|split]]].
  - intros i Hi. destruct (TV i Hi) as [Hf ->]. split; auto. destruct an; [|lra]. destruct (Nat.leb_spec total 1) as [Ht|Ht]; [lra|].
    destruct (Q ltac:(lia) i i ltac:(lia) ltac:(lia)). apply (r_unit prec emax Hp Hm). lra.
  - intros Ht. destruct (TV 0%nat ltac:(lia)) as [_ ->]. destruct an; auto. destruct (Nat.leb total 1); auto. rewrite Q0, Rminus_0_r. apply (r_1 prec emax Hp Hm).
  - intros -> Ht. destruct (TV (total - 1)%nat ltac:(lia)) as [_ ->]. destruct (Nat.leb_spec total 1) as [H1|H1]; [lia|].
    assert (E : quotient prec emax (total - 1) total = 1); [|rewrite E, Rminus_diag_eq by reflexivity; apply rnd_0].
    unfold quotient. unfold Rdiv. rewrite Rinv_r; [apply (r_1 prec emax Hp Hm)|].
    destruct (ofn_below prec emax Hp Hm 1 (total - 1) ltac:(lia) Hn) as [F1 V1]. destruct (ofn_value prec emax Hp Hm 1 F1) as [E1 _]. destruct (ofn_value prec emax Hp Hm _ Hn) as [En _].
    rewrite E1, En in V1. change (INR 1) with 1 in V1. rewrite (r_1 prec emax Hp Hm) in V1. lra.
  - intros -> i Hi. apply (TV i Hi).
  - intros i j Hij Hj. destruct (TV i ltac:(lia)) as [_ ->]. destruct (TV j Hj) as [_ ->]. destruct an; [|lra]. destruct (Nat.leb_spec total 1) as [Ht|Ht]; [lra|].
    destruct (Q ltac:(lia) i j Hij ltac:(lia)) as [? _]. apply rnd_le; [exact Hp|lra].
Qed.

(** 300 cycles in binary64 and binary32. *)
Example C56_ieee_case : is_finite (b_of_nat 53 1024 prec64 max64 299) = true /\ is_finite (b_of_nat 24 128 prec32 max32 299) = true.
Proof. split; vm_compute; reflexivity. Qed.
Print Assumptions C56_temperature_ieee.
