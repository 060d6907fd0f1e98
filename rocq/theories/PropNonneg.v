(** Property C75: losses and costs are never negative, in the IEEE formats. *)
From Coq Require Import SpecFloat Reals Lra Lia ZArith Bool.
From Flocq Require Import Core IEEE754.BinarySingleNaN.
From Verif Require Import Base BaseLemmas Num Instances Node Compile Eval Dataset Loss Ieee PropIeee.

(** ** Specification *)
(** Not below zero (NaN is not); a number that is at least zero, or +infinity. *)
Definition not_below {T} (F : FloatOps T) (x : T) : Prop := fltb F x (fzero F) = false.
Definition at_least_0 {T} (F : FloatOps T) (x : T) : Prop := fleb F (fzero F) x = true.

(** The losses that are never negative: with their usual parameters, and for two of them as far as the platform's functions allow. *)
Definition proper_loss {T} (F : FloatOps T) (LO : LossOps T) (k : loss_kind T) : Prop :=
  match k with
  | LMse | LMae | LRmse | LEps _ => True
  | LHuber delta => not_below F delta
  | LQuantile tau => not_below F tau /\ fltb F (fone F) tau = false
  | LLogCosh => forall x, not_below F (lo_ln LO (lo_cosh LO x))
  | LLp p => forall x, not_below F x -> not_below F (lo_powf LO x p)
  end.
Definition proper_weights {T} (F : FloatOps T) (w : option (list T)) : Prop := forall l, w = Some l -> Forall (not_below F) l.

(** What is used of the arithmetic. *)
Record NonnegLaws {T} (F : FloatOps T) (LO : LossOps T) : Prop := {
  nl_zero : not_below F (fzero F);
  nl_nat : forall n, not_below F (lo_of_nat LO n) /\ (1 <= n -> feqb F (lo_of_nat LO n) (fzero F) = false);
  nl_add : forall a b, not_below F a -> not_below F b -> not_below F (fadd F a b);
  nl_mul : forall a b, not_below F a -> not_below F b -> not_below F (fmul F a b);
  nl_div : forall a b, not_below F a -> not_below F b -> feqb F b (fzero F) = false -> not_below F (fdiv F a b);
  nl_sq : forall a, not_below F (fmul F a a);
  nl_half : forall a, not_below F (fmul F (fmul F (lo_half LO) a) a);
  nl_abs : forall a, not_below F (lo_abs LO a);
  nl_sqrt : forall a, not_below F a -> not_below F (lo_sqrt LO a);
  nl_huber : forall a d, not_below F a -> not_below F d -> fleb F a d = false -> not_below F (fsub F a (fmul F (lo_half LO) d));
  nl_tau : forall t u, not_below F t -> fltb F (fone F) t = false -> fgeb F u (fzero F) = false -> not_below F (fmul F (fsub F t (fone F)) u);
  nl_above : forall u, fgeb F u (fzero F) = true -> not_below F u;
  nl_number : forall a, ffinite F a = true -> not_below F a -> at_least_0 F a;
  nl_inf : at_least_0 F (finf F);
  nl_sum : forall a b, at_least_0 F a -> at_least_0 F b -> at_least_0 F (fadd F a b);
  nl_product : forall a b, ffinite F a = true -> ffinite F b = true -> at_least_0 F a -> at_least_0 F b -> at_least_0 F (fmul F a b);
  nl_ratio : forall a b, at_least_0 F a -> ffinite F b = true -> fltb F (fzero F) b = true -> at_least_0 F (fdiv F a b);
  nl_cent : ffinite F (lo_cent LO) = true /\ fltb F (fzero F) (lo_cent LO) = true;
  nl_floor : forall b, ffinite F b = true -> fgeb F b (lo_cent LO) = true -> fltb F (fzero F) b = true }.

(** ** Losses *)
Section Losses.
Context {T : Type} (F : FloatOps T) (LO : LossOps T) (L : NonnegLaws F LO).
Local Notation nb := (not_below F).

Lemma nb_sum_from l : forall acc, nb acc -> Forall nb l -> nb (fold_left (fadd F) l acc).
Proof. induction l as [|x l IH]; intros acc Ha Hl; cbn [fold_left]; auto. apply Forall_cons_iff in Hl as [Hx Hl]. apply IH; auto. apply (nl_add F LO L); auto. Qed.
Lemma nb_fsum l : Forall nb l -> nb (fsum F l).
Proof. intros H. unfold fsum. apply nb_sum_from; auto. apply (nl_zero F LO L). Qed.

Lemma zip_snd {A B} (a : list A) (b : list B) z : zip_eq a b = Ok z -> forall q, In q z -> In (snd q) b.
Proof.
  unfold zip_eq. destruct (_ =? _); [|discriminate]. intros [= <-] [u v] Hq. cbn. eapply in_combine_r; eauto.
Qed.
Lemma nb_mean p : (forall a b, nb (pl_loss p a b)) -> forall yhat y w l, proper_weights F w -> mean_loss F LO p yhat y w = Ok l -> nb l.
Proof.
  intros Hp yhat y w l Hw H. unfold mean_loss in H. apply bind_ok in H as (u & _ & H). destruct w as [w|].
  - apply bind_ok in H as (u2 & _ & H). cbv zeta in H. destruct (feqb F (fsum F w) (fzero F)) eqn:E; [injection H as <-; apply (nl_zero F LO L)|].
    apply bind_ok in H as (z & _ & H). apply bind_ok in H as (z2 & Hz & H). injection H as <-. specialize (Hw w eq_refl).
    apply (nl_div F LO L); auto; apply nb_fsum; auto. apply Forall_forall. intros v Hv. apply in_map_iff in Hv as (q & <- & Hq).
    apply (nl_mul F LO L); auto. rewrite Forall_forall in Hw. apply Hw. eapply zip_snd; eauto.
  - destruct y as [|y0 y]; [injection H as <-; apply (nl_zero F LO L)|]. apply bind_ok in H as (z & _ & H). injection H as <-.
    destruct (nl_nat F LO L (List.length (y0 :: y))) as [N1 N2]. apply (nl_div F LO L); auto; [|apply N2; cbn; lia].
    apply nb_fsum. apply Forall_forall. intros v Hv. apply in_map_iff in Hv as (q & <- & Hq). auto.
Qed.
Lemma nb_loss k : proper_loss F LO k -> forall yhat y w l, proper_weights F w -> lf_loss (make_loss F LO k) yhat y w = Ok l -> nb l.
Proof.
  intros Hk yhat y w l Hw H. destruct k as [| | |d| |p|t|e]; cbn [make_loss mean_of lf_loss proper_loss] in *.
  - eapply nb_mean; eauto. intros a b. apply (nl_sq F LO L).
  - eapply nb_mean; eauto. intros a b. apply (nl_abs F LO L).
  - unfold rmse_loss in H. cbn [lf_loss] in H. apply bind_ok in H as (m & Hm & H). injection H as <-. apply (nl_sqrt F LO L).
    eapply nb_mean; eauto. intros a b. apply (nl_sq F LO L).
  - eapply nb_mean; eauto. intros a b. cbn [huber_loss pl_loss]. cbv zeta. destruct (fleb F _ d) eqn:E; [apply (nl_half F LO L)|].
    apply (nl_mul F LO L); auto. apply (nl_huber F LO L); auto. apply (nl_abs F LO L).
  - eapply nb_mean; eauto. intros a b. apply Hk.
  - eapply nb_mean; eauto. intros a b. apply Hk. apply (nl_abs F LO L).
  - destruct Hk as [H0 H1]. eapply nb_mean; eauto. intros a b. cbn [quantile_loss pl_loss]. cbv zeta. destruct (fgeb F _ _) eqn:E.
    + apply (nl_mul F LO L); auto. apply (nl_above F LO L). exact E.
    + apply (nl_tau F LO L); auto.
  - eapply nb_mean; eauto. intros a b. cbn [eps_loss pl_loss]. cbv zeta. destruct (fgtb F _ _) eqn:E; [|apply (nl_zero F LO L)].
    apply (nl_above F LO L). unfold fgeb. unfold fgtb in E. rewrite E. reflexivity.
Qed.
End Losses.

(** ** IEEE formats *)
Section Formats.
Variables prec emax : Z.
Context (Hprec : Prec_gt_0 prec) (Hmax : Prec_lt_emax prec emax).
Local Notation bf := (binary_float prec emax).
Local Notation F := (bops prec emax Hprec Hmax).
Local Notation V := (@B2R prec emax).
Local Notation r := (rnd prec emax).
Local Notation nb := (not_below F).
Local Open Scope R_scope.

Definition sound_float (x : bf) : Prop := match x with B754_infinity true => False | B754_finite true _ _ _ => False | _ => True end.
Lemma nb_iff (x : bf) : nb x <-> sound_float x.
Proof. unfold not_below. destruct x as [[]|[]| |[] m e B]; cbn; split; intros; auto; try discriminate; contradiction. Qed.
Lemma nb_fin (x : bf) : is_finite x = true -> nb x <-> 0 <= V x.
Proof.
  intros Hx. unfold not_below. pose proof (lt_fin prec emax Hprec Hmax x (fzero F) Hx eq_refl) as H. change (V (fzero F)) with 0 in H.
  destruct (fltb F x (fzero F)) eqn:E; split; intros Ha; auto; try discriminate.
  - apply proj1 in H. specialize (H eq_refl). lra.
  - destruct (Rle_lt_dec 0 (V x)) as [|Hl]; auto. apply H in Hl. discriminate.
Qed.
Lemma nb_sign (x : bf) : nb x -> V x <> 0 -> Bsign x = false.
Proof. rewrite nb_iff. destruct x as [[]|[]| |[] m e B]; cbn; intros; auto; contradiction || lra. Qed.
Lemma top_pos : 0 < top emax. Proof. apply bpow_gt_0. Qed.
Lemma over x : top emax <= Rabs (r x) -> x <> 0.
Proof. intros H ->. rewrite rnd_0 in H. rewrite Rabs_R0 in H. pose proof top_pos. lra. Qed.
Lemma r_pos x : 0 <= x -> 0 <= r x.
Proof. intros H. rewrite <- (rnd_0 prec emax). apply rnd_le; auto. Qed.

Lemma nonzero (x : bf) : is_finite x = true -> V x <> 0 -> feqb F x (fzero F) = false.
Proof. intros Hf Hn. apply not_true_is_false. intros E. apply eq_fin in E; auto. Qed.

(** A product of finite numbers of the same sign. *)
Lemma nb_product (a b : bf) : is_finite a = true -> is_finite b = true -> 0 <= V a * V b -> nb (fmul F a b).
Proof.
  intros Ha Hb Hp. destruct (mul_fin prec emax Hprec Hmax a b Ha Hb) as [(_ & H1 & H2)|(H1 & H2)].
  - apply nb_fin; auto. rewrite H2. apply r_pos; auto.
  - apply over in H1. rewrite H2. assert (E : xorb (Bsign a) (Bsign b) = false); [|rewrite E; reflexivity].
    assert (Na : V a <> 0) by (intros E; rewrite E, Rmult_0_l in H1; lra). assert (Nb : V b <> 0) by (intros E; rewrite E, Rmult_0_r in H1; lra).
    destruct (Rtotal_order (V a) 0) as [Hl|[Hl|Hl]]; [|contradiction|].
    + assert (V b < 0) by nra. rewrite (sign_neg prec emax a), (sign_neg prec emax b) by auto. reflexivity.
    + assert (0 < V b) by nra. rewrite (sign_pos prec emax a), (sign_pos prec emax b) by auto. reflexivity.
Qed.
Lemma not_nan_iff (x : bf) : at_least_0 F x <-> nb x /\ x <> B754_nan.
Proof. unfold at_least_0, not_below. destruct x as [[]|[]| |[] m e B]; cbn; split; intros; auto; try discriminate; try (split; congruence); destruct H; congruence. Qed.

Definition ieee_loss_ops (LO : LossOps bf) : Prop :=
  lo_abs LO = Babs /\ lo_sqrt LO = Bsqrt mode_NE /\ lo_of_nat LO = b_of_nat prec emax Hprec Hmax
  /\ (is_finite (lo_half LO) = true /\ 0 <= V (lo_half LO) <= 1) /\ (is_finite (lo_cent LO) = true /\ 0 < V (lo_cent LO)).

Lemma half_times (h a : bf) : is_finite h = true -> 0 <= V h <= 1 -> is_finite a = true ->
  is_finite (fmul F h a) = true /\ V (fmul F h a) = r (V h * V a).
Proof.
  intros Fh Hh Fa. destruct (mul_fin prec emax Hprec Hmax h a Fh Fa) as [(_ & H1 & H2)|(H1 & _)]; [auto|]. exfalso.
  assert (Hb : Rabs (r (V h * V a)) <= Rabs (V a)).
  { destruct (Rle_lt_dec 0 (V a)) as [Ha|Ha].
    - rewrite (Rabs_pos_eq (V a)) by auto. rewrite Rabs_pos_eq by (apply r_pos; nra). rewrite <- (rnd_val prec emax a) at 2. apply rnd_le; auto. nra.
    - rewrite (Rabs_left1 (V a)) by lra. assert (r (V h * V a) <= 0) by (rewrite <- (rnd_0 prec emax); apply rnd_le; auto; nra).
      rewrite Rabs_left1 by auto. apply Ropp_le_contravar. rewrite <- (rnd_val prec emax a) at 1. apply rnd_le; auto. nra. }
  pose proof (abs_B2R_lt_emax prec emax a). unfold top in H1. lra.
Qed.

Lemma one_fin : is_finite (fone F) = true /\ V (fone F) = 1.
Proof. split; [apply is_finite_Bone|apply Bone_correct]. Qed.
Lemma nat_float n : nb (b_of_nat prec emax Hprec Hmax n) /\ (1 <= n -> feqb F (b_of_nat prec emax Hprec Hmax n) (fzero F) = false)%nat.
Proof.
  unfold b_of_nat. pose proof (binary_normalize_correct prec emax Hprec Hmax mode_NE (Z.of_nat n) 0 false) as H. cbv zeta in H.
  set (z := binary_normalize _ _ _ _ _ _ _ _) in *. assert (Ef : F2R (Float radix2 (Z.of_nat n) 0) = IZR (Z.of_nat n)) by (unfold F2R; cbn; lra). rewrite Ef in H.
  change (round_mode mode_NE) with ZnearestE in H. fold (r (IZR (Z.of_nat n))) in H. assert (P : 0 <= IZR (Z.of_nat n)) by (apply IZR_le; lia).
  destruct (Rlt_bool_spec (Rabs (r (IZR (Z.of_nat n)))) (bpow radix2 emax)) as [Hl|Hl].
  - destruct H as (H1 & H2 & _). split; [apply nb_fin; auto; rewrite H1; apply r_pos; auto|]. intros Hn. apply nonzero; auto. rewrite H1.
    assert (1 <= r (IZR (Z.of_nat n))); [|lra]. destruct one_fin as [_ V1]. rewrite <- V1 at 1. rewrite <- (rnd_val prec emax (fone F)). apply rnd_le; auto. rewrite V1. apply (IZR_le 1). lia.
  - assert (z = B754_infinity false) as ->; [|split; [reflexivity|intros _; reflexivity]]. apply overflow_inf. rewrite H. f_equal.
    apply Rlt_bool_false. exact P.
Qed.

Lemma ieee_laws LO : ieee_loss_ops LO -> NonnegLaws F LO.
Proof.
  intros (Ea & Es & En & (Fh & Vh) & Fc & Vc). destruct one_fin as [F1 V1].
  assert (Hadd : forall a b, nb a -> nb b -> nb (fadd F a b)).
  { intros a b Ha Hb. destruct (is_finite a) eqn:Fa; [destruct (is_finite b) eqn:Fb|].
    - destruct (add_fin prec emax Hprec Hmax a b Fa Fb) as [(_ & H1 & H2)|(H1 & H2 & H3)].
      + apply nb_fin; auto. rewrite H2. apply nb_fin in Ha, Hb; auto. apply r_pos. lra.
      + apply over in H1. rewrite H2. assert (E : Bsign a = false); [|rewrite E; reflexivity]. destruct (Req_dec (V a) 0) as [Ez|Ez].
        * rewrite H3. apply nb_sign; auto. lra.
        * apply nb_sign; auto.
    - apply nb_iff in Ha, Hb. destruct b as [|[]| |]; try discriminate; try contradiction; apply nb_iff; destruct a as [|[]| |]; try discriminate; reflexivity || exact I.
    - apply nb_iff in Ha, Hb. destruct a as [|[]| |]; try discriminate; try contradiction; apply nb_iff; destruct b as [|[]| |]; try contradiction; exact I. }
  assert (Hmul : forall a b, nb a -> nb b -> nb (fmul F a b)).
  { intros a b Ha Hb. destruct (is_finite a) eqn:Fa; [destruct (is_finite b) eqn:Fb|].
    - apply nb_product; auto. apply nb_fin in Ha, Hb; auto. nra.
    - apply nb_iff in Ha, Hb. destruct b as [|[]| |]; try discriminate; try contradiction; apply nb_iff; destruct a as [|[]| |[]]; try discriminate; try contradiction; exact I.
    - apply nb_iff in Ha, Hb. destruct a as [|[]| |]; try discriminate; try contradiction; apply nb_iff; destruct b as [|[]| |[]]; try contradiction; exact I. }
  assert (Hdiv : forall a b, nb a -> nb b -> feqb F b (fzero F) = false -> nb (fdiv F a b)).
  { intros a b Ha Hb Hz. destruct (is_finite b) eqn:Fb.
    - assert (Nb : V b <> 0) by (intros E; apply not_true_iff_false in Hz; apply Hz; apply eq_fin; auto).
      assert (Pb : 0 < V b) by (apply nb_fin in Hb; auto; lra). pose proof (sign_pos prec emax b Fb Pb) as Sb.
      destruct (is_finite a) eqn:Fa.
      + assert (Hq : 0 <= V a / V b) by (apply nb_fin in Ha; auto; apply Rmult_le_pos; auto; left; apply Rinv_0_lt_compat; auto).
        destruct (div_fin prec emax Hprec Hmax a b Fa Fb Nb) as [(_ & H1 & H2)|(H1 & H2)].
        * apply nb_fin; auto. rewrite H2. apply r_pos; auto.
        * apply over in H1. rewrite H2, Sb. rewrite (nb_sign a); [reflexivity|auto|]. intros E. rewrite E in H1. unfold Rdiv in H1. rewrite Rmult_0_l in H1. lra.
      + apply nb_iff in Ha. apply nb_iff. destruct a as [|[]| |]; try discriminate; try contradiction; destruct b as [|[]| |[]]; try discriminate; exact I.
    - apply nb_iff in Ha, Hb. apply nb_iff. destruct b as [|[]| |]; try discriminate; try contradiction; destruct a as [|[]| |]; try contradiction; exact I. }
  assert (Hnum : forall a b, at_least_0 F a -> at_least_0 F b -> at_least_0 F (fadd F a b)).
  { intros a b Ha Hb. apply not_nan_iff in Ha as [Ha Na], Hb as [Hb Nb]. apply not_nan_iff. split; auto.
    destruct (is_finite a) eqn:Fa; [destruct (is_finite b) eqn:Fb|].
    - destruct (add_fin prec emax Hprec Hmax a b Fa Fb) as [(_ & H1 & _)|(_ & -> & _)]; [|discriminate]. intros E. rewrite E in H1. discriminate.
    - apply nb_iff in Hb. destruct b as [|[]| |]; try discriminate; try contradiction; destruct a; discriminate.
    - apply nb_iff in Ha, Hb. destruct a as [|[]| |]; try discriminate; try contradiction; destruct b as [|[]| |]; try contradiction; discriminate. }
  split; rewrite ?Ea, ?Es, ?En; auto.
  - reflexivity.
  - apply nat_float.
  - intros a. destruct (is_finite a) eqn:Fa; [apply nb_product; auto; nra|]. destruct a as [|[]| |]; try discriminate; reflexivity.
  - intros a. destruct (is_finite a) eqn:Fa.
    + destruct (half_times _ a Fh Vh Fa) as [H1 H2]. apply nb_product; auto. rewrite H2. destruct (Rle_lt_dec 0 (V a)) as [Sa|Sa].
      * apply Rmult_le_pos; auto. apply r_pos. nra.
      * assert (r (V (lo_half LO) * V a) <= 0) by (rewrite <- (rnd_0 prec emax); apply rnd_le; auto; nra). nra.
    + destruct a as [|s| |]; try discriminate; [|apply nb_iff; destruct (lo_half LO); exact I].
      destruct (lo_half LO) as [|s'| |s' m e B] eqn:E; try discriminate; [reflexivity|]. destruct s'.
      * exfalso. assert (Hn : nb (B754_finite true m e B)) by (apply nb_fin; auto; lra). discriminate.
      * destruct s; reflexivity.
  - intros a. apply nb_iff. destruct a as [|[]| |[]]; exact I.
  - intros a Ha. apply nb_iff in Ha. destruct a as [s|[]| |[] m e B]; try contradiction; try reflexivity; try (apply nb_iff; exact I).
    pose proof (Bsqrt_correct prec emax Hprec Hmax mode_NE (B754_finite false m e B)) as (H1 & H2 & _). apply nb_fin; auto. rewrite H1.
    change (round_mode mode_NE) with ZnearestE. apply r_pos. apply sqrt_pos.
  - intros a d Ha Hd Hle. destruct (is_finite d) eqn:Fd.
    + destruct (half_times _ d Fh Vh Fd) as [H1 H2]. apply nb_fin in Hd; auto.
      assert (Hp : 0 <= r (V (lo_half LO) * V d) <= V d).
      { split; [apply r_pos; nra|]. rewrite <- (rnd_val prec emax d) at 2. apply rnd_le; auto. nra. }
      destruct (is_finite a) eqn:Fa.
      * assert (Hlt : V d < V a) by (destruct (Rle_lt_dec (V a) (V d)) as [Hl|]; auto; apply (le_fin prec emax Hprec Hmax) in Hl; auto; congruence).
        destruct (sub_fin prec emax Hprec Hmax a (fmul F (lo_half LO) d) Fa H1) as [(_ & H3 & H4)|(_ & H4 & _)].
        -- apply nb_fin; auto. rewrite H4, H2. apply r_pos. lra.
        -- rewrite H4. rewrite (nb_sign a); [reflexivity|auto|lra].
      * apply nb_iff in Ha. apply nb_iff. destruct a as [|[]| |]; try discriminate; try contradiction; destruct (fmul F (lo_half LO) d); try discriminate; exact I.
    + apply nb_iff in Hd. destruct d as [|[]| |]; try discriminate; try contradiction.
      * destruct a as [|[]| |[]]; try discriminate; apply nb_iff; destruct (fmul F (lo_half LO) (B754_infinity false)); exact I.
      * assert (E : fmul F (lo_half LO) B754_nan = B754_nan) by (destruct (lo_half LO); reflexivity). rewrite E. apply nb_iff. destruct a; exact I.
  - intros t u Ht Ht1 Hu. destruct (is_finite t) eqn:Ft.
    + assert (Vt : 0 <= V t <= 1).
      { split; [apply nb_fin in Ht; auto|]. destruct (Rle_lt_dec (V t) 1) as [|Hl]; auto. exfalso. assert (fltb F (fone F) t = true) by (apply lt_fin; auto; lra). congruence. }
      assert (Hs : is_finite (fsub F t (fone F)) = true /\ V (fsub F t (fone F)) <= 0).
      { assert (Hr : -1 <= r (V t - 1) <= 0).
        { split.
          - assert (E : r (-1) = -1); [|rewrite <- E; apply rnd_le; auto; lra]. pose proof (rnd_val prec emax (Bopp (fone F))) as E. rewrite B2R_Bopp, V1 in E. exact E.
          - rewrite <- (rnd_0 prec emax). apply rnd_le; auto. lra. }
        destruct (sub_fin prec emax Hprec Hmax t (fone F) Ft F1) as [(_ & H1 & H2)|(H1 & _)]; rewrite V1 in *; [split; auto; rewrite H2; lra|].
        exfalso. pose proof (val_top prec emax (fone F)) as Ht2. rewrite V1 in Ht2. rewrite Rabs_left1 in H1 by lra. lra. }
      destruct Hs as [Fs Vs]. set (s := fsub F t (fone F)) in *. destruct (is_finite u) eqn:Fu.
      * apply nb_product; auto. assert (V u < 0); [|nra]. destruct (Rle_lt_dec 0 (V u)) as [Hl|]; auto. exfalso.
        unfold fgeb in Hu. apply orb_false_iff in Hu as [Hu1 Hu2]. destruct Hl as [Hl|Hl].
        -- assert (fltb F (fzero F) u = true) by (apply lt_fin; auto). congruence.
        -- assert (feqb F u (fzero F) = true) by (apply eq_fin; auto). congruence.
      * destruct u as [|[]| |]; try discriminate; [|apply nb_iff; destruct s; exact I]. destruct s as [|[]| |[] m e B]; try discriminate; try reflexivity.
        exfalso. pose proof (sign_pos prec emax (B754_finite false m e B) eq_refl) as Hx. assert (0 < V (B754_finite false m e B)) by (apply F2R_gt_0; reflexivity). lra.
    + apply nb_iff in Ht. destruct t as [|[]| |]; try discriminate; try contradiction.
      * exfalso. assert (fltb F (fone F) (B754_infinity false) = true); [|congruence].
        destruct (fone F) as [|[]| |[]]; try discriminate; reflexivity.
      * apply nb_iff. destruct u; exact I.
  - intros u Hu. apply nb_iff. destruct u as [[]|[]| |[]]; try exact I; discriminate.
  - intros a Fa Ha. apply not_nan_iff. split; auto. destruct a; try discriminate.
  - reflexivity.
  - intros a b Fa Fb Ha Hb. apply not_nan_iff in Ha as [Ha _], Hb as [Hb _]. apply not_nan_iff. split; auto.
    destruct (mul_fin prec emax Hprec Hmax a b Fa Fb) as [(_ & H1 & _)|(_ & ->)]; [|discriminate]. intros E. rewrite E in H1. discriminate.
  - intros a b Ha Fb Hb. apply lt_fin in Hb; auto. change (V (fzero F)) with 0 in Hb. apply not_nan_iff in Ha as [Ha Na]. apply not_nan_iff. split.
    + apply Hdiv; auto; [apply nb_fin; auto; lra|apply nonzero; auto; lra].
    + destruct (is_finite a) eqn:Fa.
      * destruct (div_fin prec emax Hprec Hmax a b Fa Fb ltac:(lra)) as [(_ & H1 & _)|(_ & ->)]; [|discriminate]. intros E. rewrite E in H1. discriminate.
      * apply nb_iff in Ha. destruct a as [|[]| |]; try discriminate; try contradiction. destruct b as [|[]| |]; try discriminate.
  - split; auto. apply lt_fin; auto.
  - intros b Fb Hb. apply lt_fin; auto. change (V (fzero F)) with 0. unfold fgeb in Hb. apply orb_true_iff in Hb as [Hb|Hb]; [apply lt_fin in Hb; auto; lra|apply eq_fin in Hb; auto; lra].
Qed.
End Formats.
