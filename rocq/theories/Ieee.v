(** IEEE 754 binary floating point (round to nearest, ties to even), from Flocq: a carrier that holds exactly the floats of the format. Same operations as [sfops] of
    Instances.v, whose carrier also holds triples that are not floats of the format. *)
From Coq Require Import SpecFloat Reals Lra Lia ZArith Bool.
From Flocq Require Import Core IEEE754.BinarySingleNaN Relative.
From Verif Require Import Base Num Instances.

Section Ieee.
Variable prec emax : Z.
Context (Hprec : Prec_gt_0 prec) (Hmax : Prec_lt_emax prec emax).
Local Notation bf := (binary_float prec emax).

Definition b_zero : bf := B754_zero false.
Definition bops : FloatOps bf := {|
  fzero := b_zero;
  fone := Bone;
  fnan := B754_nan;
  finf := B754_infinity false;
  fadd := Bplus mode_NE; fsub := Bminus mode_NE; fmul := Bmult mode_NE; fdiv := Bdiv mode_NE;
  fneg := Bopp; ffinite := is_finite; fis_zero := fun x => match x with B754_zero _ => true | _ => false end;
  fltb := Bltb; feqb := Beqb |}.

(** ** The same operations as the standard library's executable specification *)
Lemma round_aux_same s m e l : SpecFloat.binary_round_aux prec emax s m e l = binary_round_aux prec emax mode_NE s m e l.
Proof.
  unfold SpecFloat.binary_round_aux, binary_round_aux. destruct (shr_fexp _ _ _) as [mrs e']. cbn.
  assert (E : forall x l', round_nearest_even x l' = choice_mode mode_NE s x l').
  { intros x [|c]; [reflexivity|]. destruct c; [|reflexivity..]. cbn. unfold Round.cond_incr. destruct (Z.even x); reflexivity. }
  rewrite E. reflexivity.
Qed.
Lemma round_same s m e : SpecFloat.binary_round prec emax s m e = binary_round prec emax mode_NE s m e.
Proof. unfold SpecFloat.binary_round, binary_round, shl_align_fexp. destruct (shl_align _ _ _) as [mz ez]. apply round_aux_same. Qed.
Lemma normalize_same m e z : SpecFloat.binary_normalize prec emax m e z = B2SF (binary_normalize prec emax Hprec Hmax mode_NE m e z).
Proof. destruct m as [|p|p]; [reflexivity| |]; cbn; rewrite B2SF_SF2B; apply round_same. Qed.

Lemma bops_mul x y : B2SF (fmul bops x y) = fmul (sfops prec emax) (B2SF x) (B2SF y).
Proof. destruct x, y; try reflexivity. cbn. rewrite B2SF_SF2B. symmetry. apply round_aux_same. Qed.
Lemma bops_div x y : B2SF (fdiv bops x y) = fdiv (sfops prec emax) (B2SF x) (B2SF y).
Proof.
  destruct x, y; try reflexivity. cbn. rewrite B2SF_SF2B. destruct (SFdiv_core_binary _ _ _ _ _ _) as [[mz ez] lz]. symmetry. apply round_aux_same.
Qed.
Lemma bops_add x y : B2SF (fadd bops x y) = fadd (sfops prec emax) (B2SF x) (B2SF y).
Proof. destruct x, y; try reflexivity; try (cbn; destruct (Bool.eqb _ _); reflexivity). cbn. symmetry. apply normalize_same. Qed.
Lemma bops_sub x y : B2SF (fsub bops x y) = fsub (sfops prec emax) (B2SF x) (B2SF y).
Proof.
  destruct x, y; try reflexivity; try (cbn; destruct (Bool.eqb _ _); reflexivity). cbn [bops fsub Bminus Bopp Bplus sfops]. symmetry. cbn [B2SF].
  unfold SFsub, Zminus. rewrite <- cond_Zopp_negb. apply normalize_same.
Qed.
Lemma bops_neg x : B2SF (fneg bops x) = fneg (sfops prec emax) (B2SF x).
Proof. destruct x; reflexivity. Qed.
Lemma bops_lt x y : fltb bops x y = fltb (sfops prec emax) (B2SF x) (B2SF y).
Proof. reflexivity. Qed.
Lemma bops_eq x y : feqb bops x y = feqb (sfops prec emax) (B2SF x) (B2SF y).
Proof. reflexivity. Qed.
Lemma bops_finite x : ffinite bops x = ffinite (sfops prec emax) (B2SF x).
Proof. destruct x; reflexivity. Qed.
Lemma bops_consts : B2SF (fzero bops) = fzero (sfops prec emax) /\ B2SF (fnan bops) = fnan (sfops prec emax)
  /\ B2SF (finf bops) = finf (sfops prec emax) /\ B2SF (fone bops) = fone (sfops prec emax).
Proof.
  split; [reflexivity|]. split; [reflexivity|]. split; [reflexivity|]. cbn [bops fone sfops]. rewrite normalize_same. f_equal.
Qed.

(** ** Order *)
Lemma b_order_laws : OrderLaws bops.
Proof.
  destruct (sf_order_laws prec emax) as [L1 L2 L3 L4 L5 L6 L7 L8 L9 L10 L11].
  split; unfold num in *; cbn [bops fltb feqb finf]; unfold Bltb, Beqb; intros.
  - eapply L1; eauto.
  - eapply L2; eauto.
  - eapply L3; eauto.
  - eapply L4; eauto.
  - eapply L5; eauto.
  - eapply L6; eauto.
  - eapply L7; eauto.
  - eapply L8; eauto.
  - eapply L9; eauto.
  - reflexivity.
  - apply (L11 (B2SF x)).
Qed.

Definition rnd (x : R) : R := round radix2 (SpecFloat.fexp prec emax) ZnearestE x.
Definition top : R := bpow radix2 emax.
Local Notation V := (@B2R prec emax).

Local Instance fexp_valid : Valid_exp (SpecFloat.fexp prec emax) := fexp_correct prec emax Hprec.
Lemma rnd_le x y : (x <= y)%R -> (rnd x <= rnd y)%R.
Proof. apply round_le; auto with typeclass_instances. Qed.
Lemma rnd_val (x : bf) : rnd (V x) = V x.
Proof. apply round_generic; [auto with typeclass_instances|]. apply generic_format_B2R. Qed.
Lemma rnd_0 : rnd 0 = 0%R.
Proof. apply round_0. auto with typeclass_instances. Qed.
Lemma val_top (x : bf) : (- top < V x < top)%R.
Proof. pose proof (abs_B2R_lt_emax prec emax x) as H. apply Rabs_def2 in H. unfold top. lra. Qed.

Lemma lt_fin (x y : bf) : is_finite x = true -> is_finite y = true -> fltb bops x y = true <-> (V x < V y)%R.
Proof.
  intros Hx Hy. cbn [bops fltb]. rewrite Bltb_correct by auto. destruct (Rlt_bool_spec (V x) (V y)); split; intros; auto; try discriminate; lra.
Qed.
Lemma eq_fin (x y : bf) : is_finite x = true -> is_finite y = true -> feqb bops x y = true <-> V x = V y.
Proof.
  intros Hx Hy. cbn [bops feqb]. rewrite Beqb_correct by auto. destruct (Req_bool_spec (V x) (V y)); split; intros; auto; try discriminate; contradiction.
Qed.
Lemma le_fin (x y : bf) : is_finite x = true -> is_finite y = true -> fleb bops x y = true <-> (V x <= V y)%R.
Proof.
  intros Hx Hy. unfold fleb. rewrite orb_true_iff, lt_fin, eq_fin by auto. split; [intros []; lra|intros [H|H]; auto].
Qed.
Lemma le_neg_inf (x : bf) : fltb bops (B754_infinity true) x = true \/ x = B754_infinity true \/ x = B754_nan.
Proof. destruct x as [s|[]| |s m e B]; auto; left; reflexivity. Qed.

Lemma overflow_inf (x : bf) s : B2SF x = binary_overflow prec emax mode_NE s -> x = B754_infinity s.
Proof. intros H. apply B2SF_inj. rewrite H. reflexivity. Qed.

(** Sign and value. *)
Lemma sign_pos (x : bf) : is_finite x = true -> (0 < V x)%R -> Bsign x = false.
Proof.
  destruct x as [s|s| |s m e B]; cbn; try discriminate; intros _ H; [lra|]. destruct s; auto.
  exfalso. assert (F2R (beta := radix2) {| Fnum := Z.neg m; Fexp := e |} < 0)%R by (apply F2R_lt_0; reflexivity). cbn in *. lra.
Qed.
Lemma sign_neg (x : bf) : is_finite x = true -> (V x < 0)%R -> Bsign x = true.
Proof.
  destruct x as [s|s| |s m e B]; cbn; try discriminate; intros _ H; [lra|]. destruct s; auto.
  exfalso. assert (0 < F2R (beta := radix2) {| Fnum := Z.pos m; Fexp := e |})%R by (apply F2R_gt_0; reflexivity). cbn in *. lra.
Qed.
Lemma sign_false (x : bf) : is_finite x = true -> Bsign x = false -> (0 <= V x)%R.
Proof. intros Hf Hs. destruct (Rle_lt_dec 0 (V x)); auto. rewrite sign_neg in Hs; [discriminate|auto..]. Qed.
Lemma sign_true (x : bf) : is_finite x = true -> Bsign x = true -> (V x <= 0)%R.
Proof. intros Hf Hs. destruct (Rle_lt_dec (V x) 0); auto. rewrite sign_pos in Hs; [discriminate|auto..]. Qed.

(** ** Operations on finite operands: the rounded result, or an infinity when it is out of range *)
Lemma mul_fin (x y : bf) : is_finite x = true -> is_finite y = true ->
  (Rabs (rnd (V x * V y)) < top)%R /\ is_finite (fmul bops x y) = true /\ V (fmul bops x y) = rnd (V x * V y)
  \/ (top <= Rabs (rnd (V x * V y)))%R /\ fmul bops x y = B754_infinity (xorb (Bsign x) (Bsign y)).
Proof.
  intros Hx Hy. pose proof (Bmult_correct prec emax Hprec Hmax mode_NE x y) as H. cbn [bops fmul]. unfold top, rnd. change (round_mode mode_NE) with ZnearestE in H.
  destruct (Rlt_bool_spec (Rabs (round radix2 (SpecFloat.fexp prec emax) ZnearestE (V x * V y))) (bpow radix2 emax)) as [Hl|Hl].
  - left. destruct H as (H1 & H2 & _). rewrite Hx, Hy in H2. auto.
  - right. split; auto. apply overflow_inf; auto.
Qed.
Lemma div_fin (x y : bf) : is_finite x = true -> is_finite y = true -> V y <> 0%R ->
  (Rabs (rnd (V x / V y)) < top)%R /\ is_finite (fdiv bops x y) = true /\ V (fdiv bops x y) = rnd (V x / V y)
  \/ (top <= Rabs (rnd (V x / V y)))%R /\ fdiv bops x y = B754_infinity (xorb (Bsign x) (Bsign y)).
Proof.
  intros Hx Hy Hn. pose proof (Bdiv_correct prec emax Hprec Hmax mode_NE x y Hn) as H. cbn [bops fdiv]. unfold top, rnd. change (round_mode mode_NE) with ZnearestE in H.
  destruct (Rlt_bool_spec (Rabs (round radix2 (SpecFloat.fexp prec emax) ZnearestE (V x / V y))) (bpow radix2 emax)) as [Hl|Hl].
  - left. destruct H as (H1 & H2 & _). rewrite Hx in H2. auto.
  - right. split; auto. apply overflow_inf; auto.
Qed.
Lemma add_fin (x y : bf) : is_finite x = true -> is_finite y = true ->
  (Rabs (rnd (V x + V y)) < top)%R /\ is_finite (fadd bops x y) = true /\ V (fadd bops x y) = rnd (V x + V y)
  \/ (top <= Rabs (rnd (V x + V y)))%R /\ fadd bops x y = B754_infinity (Bsign x) /\ Bsign x = Bsign y.
Proof.
  intros Hx Hy. pose proof (Bplus_correct prec emax Hprec Hmax mode_NE x y Hx Hy) as H. cbn [bops fadd]. unfold top, rnd. change (round_mode mode_NE) with ZnearestE in H.
  destruct (Rlt_bool_spec (Rabs (round radix2 (SpecFloat.fexp prec emax) ZnearestE (V x + V y))) (bpow radix2 emax)) as [Hl|Hl].
  - left. destruct H as (H1 & H2 & _). auto.
  - right. split; auto. destruct H as (H1 & H2). split; auto. apply overflow_inf; auto.
Qed.
Lemma sub_fin (x y : bf) : is_finite x = true -> is_finite y = true ->
  (Rabs (rnd (V x - V y)) < top)%R /\ is_finite (fsub bops x y) = true /\ V (fsub bops x y) = rnd (V x - V y)
  \/ (top <= Rabs (rnd (V x - V y)))%R /\ fsub bops x y = B754_infinity (Bsign x) /\ Bsign x = negb (Bsign y).
Proof.
  intros Hx Hy. pose proof (Bminus_correct prec emax Hprec Hmax mode_NE x y Hx Hy) as H. cbn [bops fsub]. unfold top, rnd. change (round_mode mode_NE) with ZnearestE in H.
  destruct (Rlt_bool_spec (Rabs (round radix2 (SpecFloat.fexp prec emax) ZnearestE (V x - V y))) (bpow radix2 emax)) as [Hl|Hl].
  - left. destruct H as (H1 & H2 & _). auto.
  - right. split; auto. destruct H as (H1 & H2). split; auto. apply overflow_inf; auto.
Qed.

(** A natural number of the code converted to a float ([as f32], [as f64]). *)
Definition b_of_nat (n : nat) : bf := binary_normalize prec emax Hprec Hmax mode_NE (Z.of_nat n) 0 false.
(** [.floor() as usize] of a float; 0 for a negative number or NaN. [u] is [usize::MAX]: the cast saturates. Truncation and floor differ only below 0. *)
Definition b_floor_nat (u : nat) (x : bf) : nat := match x with B754_infinity false => u | _ => Nat.min u (Z.to_nat (Btrunc x)) end.
Lemma b_floor_spec u (x : bf) : is_finite x = true -> b_floor_nat u x = Nat.min u (Z.to_nat (Zfloor (V x))).
Proof.
  intros Hf. assert (E : Z.to_nat (Btrunc x) = Z.to_nat (Zfloor (V x))).
  { pose proof (Btrunc_correct prec emax Hmax x) as H. unfold round, scaled_mantissa, F2R in H. cbn in H. rewrite !Rmult_1_r in H. apply eq_IZR in H. rewrite H.
    destruct (Rle_lt_dec 0 (V x)) as [Hp|Hp]; [rewrite Ztrunc_floor; auto|]. rewrite Ztrunc_ceil by lra.
    assert (Zceil (V x) <= 0)%Z by (apply Zceil_glb; apply Rlt_le; exact Hp). assert (Zfloor (V x) <= 0)%Z; [|lia].
    apply le_IZR. apply (Rle_trans _ (V x)); [apply Zfloor_lb|]. lra. }
  unfold b_floor_nat. destruct x; try discriminate; rewrite E; reflexivity.
Qed.
End Ieee.
