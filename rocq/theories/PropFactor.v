(** Property C69: how far and in which direction a constant is mutated. *)
From Coq Require Import Reals Lra.
From Verif Require Import Base BaseLemmas Node Tree NodeProofs Utils UtilsProofs PropUtils Rng Registry Lit Mutation MutationProofs PropMutation Builtin RealOps Factor.
Local Open Scope R_scope.

(** ** Specification *)

(** The options over the real numbers: perturbation factor and negation probability. *)
Definition rfactor (perturbation negate : R) : factor_cfg R := mkFactor perturbation negate Rpower (11 / 10).
(** The widest change at a temperature. *)
Definition widest (perturbation temperature : R) : R := perturbation * Rmax temperature 0 + 11 / 10.
(** A draw of the generator. *)
Definition is_draw (u : R) : Prop := 0 <= u < 1.

(** ** Proofs *)
Lemma rmax_code p n t : max_change rops (rfactor p n) t = widest p t.
Proof.
  unfold max_change, widest, max0. cbn. f_equal. f_equal. unfold rltb. destruct (Rlt_dec 0 t); [rewrite Rmax_left; lra|rewrite Rmax_right; lra].
Qed.
Lemma widest_gt1 p t : 0 <= p -> 1 < widest p t.
Proof. intros Hp. unfold widest. pose proof (Rmax_r t 0). nra. Qed.
Lemma code_factor p n t ex bg dr :
  mutate_factor rops (rfactor p n) t ex bg dr = (if Rlt_dec n dr then -1 else 1) * (if bg then Rpower (widest p t) ex else / Rpower (widest p t) ex).
Proof.
  unfold mutate_factor. rewrite rmax_code. unfold fgtb. cbn. unfold rltb. destruct (Rlt_dec n dr), bg; unfold Rdiv; ring.
Qed.
Lemma power_pos m ex : 0 < Rpower m ex.
Proof. apply exp_pos. Qed.
Lemma code_abs p n t ex bg dr : Rabs (mutate_factor rops (rfactor p n) t ex bg dr) = if bg then Rpower (widest p t) ex else / Rpower (widest p t) ex.
Proof.
  rewrite code_factor, Rabs_mult. pose proof (power_pos (widest p t) ex) as H. pose proof (Rinv_0_lt_compat _ H).
  rewrite (Rabs_pos_eq (if bg then _ else _)) by (destruct bg; lra). destruct (Rlt_dec n dr); [rewrite Rabs_left by lra|rewrite Rabs_pos_eq by lra]; lra.
Qed.
Lemma power_le m a b : 1 < m -> (Rpower m a <= Rpower m b <-> a <= b).
Proof.
  intros Hm. split; intros H.
  - destruct (Rle_lt_dec a b); auto. apply (Rpower_lt m) in r; auto. lra.
  - destruct H as [H| ->]; [|lra]. left. now apply Rpower_lt.
Qed.
Lemma power_log m x : 1 < m -> 0 < x -> x = Rpower m (ln x / ln m).
Proof.
  intros Hm Hx. assert (0 < ln m) by (rewrite <- ln_1; apply ln_increasing; lra).
  unfold Rpower. replace (ln x / ln m * ln m) with (ln x) by (field; lra). now rewrite exp_ln.
Qed.

(** The magnitude of the factor lies between 1 and the widest change, or between its inverse and 1. *)
Theorem C69_range : forall perturbation negate temperature exponent bigger draw, 0 <= perturbation -> is_draw exponent ->
  let m := widest perturbation temperature in
  let f := mutate_factor rops (rfactor perturbation negate) temperature exponent bigger draw in
  11 / 10 <= m /\ if bigger then 1 <= Rabs f < m else / m < Rabs f <= 1.
Proof.
  intros p n t ex bg dr Hp [H0 H1] m f. pose proof (widest_gt1 p t Hp) as Hm. fold m in Hm. split; [unfold m, widest; pose proof (Rmax_r t 0); nra|].
  unfold f. rewrite code_abs. fold m. assert (A : 1 <= Rpower m ex < m).
  { split; [rewrite <- (Rpower_O m) by lra; now apply power_le|]. rewrite <- (Rpower_1 m) at 2 by lra. now apply Rpower_lt. }
  destruct bg; auto. split; [apply Rinv_lt_contravar; [apply Rmult_lt_0_compat; lra|lra]|]. rewrite <- Rinv_1. apply Rinv_le_contravar; lra.
Qed.

(** The magnitude is log-uniform: it is at most [x] exactly if the exponent is at most the share of [ln x] in [ln m] - and at least [/ x] when shrinking. *)
Theorem C69_log_uniform : forall perturbation negate temperature exponent draw x, 0 <= perturbation -> 0 < x ->
  let m := widest perturbation temperature in
  (Rabs (mutate_factor rops (rfactor perturbation negate) temperature exponent true draw) <= x <-> exponent <= ln x / ln m)
  /\ (/ x <= Rabs (mutate_factor rops (rfactor perturbation negate) temperature exponent false draw) <-> exponent <= ln x / ln m).
Proof.
  intros p n t ex dr x Hp Hx m. pose proof (widest_gt1 p t Hp) as Hm. rewrite !code_abs. subst m. remember (widest p t) as m eqn:Em. clear Em. pose proof (power_pos m ex). rewrite <- (power_le m ex (ln x / ln m) Hm), <- (power_log m x Hm Hx).
  split; [reflexivity|]. split; intros H1.
  - apply Rinv_le_contravar in H1; [|now apply Rinv_0_lt_compat]. now rewrite !Rinv_inv in H1.
  - now apply Rinv_le_contravar.
Qed.

(** Direction and sign are independent of the magnitude: the factor is negative exactly if the last draw is above the configured probability. *)
Theorem C69_sign : forall perturbation negate temperature exponent bigger draw,
  let f := mutate_factor rops (rfactor perturbation negate) temperature exponent bigger draw in
  f <> 0 /\ (f < 0 <-> negate < draw).
Proof.
  intros p n t ex bg dr f. unfold f. rewrite code_factor. pose proof (power_pos (widest p t) ex) as H. pose proof (Rinv_0_lt_compat _ H).
  assert (0 < if bg then Rpower (widest p t) ex else / Rpower (widest p t) ex) by (destruct bg; auto). destruct (Rlt_dec n dr); split; try split; intros; nra.
Qed.

(** How many of [N] equally likely draws k/N negate the constant. *)
Fixpoint negations (p : R) (N k : nat) : nat :=
  match k with
  | O => 0%nat
  | S k => Nat.add (if Rlt_dec (mutate_factor rops (rfactor 0 p) 0 0 true (INR k / INR N)) 0 then 1%nat else 0%nat) (negations p N k)
  end.
Lemma int_part_nat x : 0 <= x -> INR (Z.to_nat (Int_part x)) <= x < INR (Z.to_nat (Int_part x)) + 1.
Proof.
  intros Hx. destruct (base_Int_part x) as [B1 B2].
  assert (Hz : (0 <= Int_part x)%Z). { destruct (Z_lt_le_dec (Int_part x) 0) as [Hl|Hl]; auto. exfalso. assert (IZR (Int_part x) <= -1) by (apply IZR_le; lia). lra. }
  rewrite INR_IZR_INZ, Z2Nat.id; auto. lra.
Qed.
Lemma negations_count p N k : (0 < N)%nat -> 0 <= p -> (negations p N k + Nat.min k (1 + Z.to_nat (Int_part (p * INR N))) = k)%nat.
Proof.
  intros HN Hp. assert (HNr : 0 < INR N) by now apply lt_0_INR. destruct (int_part_nat (p * INR N)) as [B1 B2]; [nra|].
  remember (Z.to_nat (Int_part (p * INR N))) as c eqn:Ec. clear Ec. induction k as [|k IH]; [reflexivity|]. cbn [negations].
  destruct (C69_sign 0 p 0 0 true (INR k / INR N)) as [_ Hs]. destruct (Rlt_dec _ 0) as [Hl|Hl]; rewrite Hs in Hl.
  - apply (Rmult_lt_compat_r (INR N)) in Hl; auto. unfold Rdiv in Hl. rewrite Rmult_assoc, Rinv_l, Rmult_1_r in Hl by lra.
    assert (Hck : (c < k)%nat) by (apply INR_lt; lra). lia.
  - assert (Hc : INR k <= p * INR N). { apply Rnot_lt_le. intros Hc. apply Hl. apply (Rmult_lt_reg_r (INR N)); auto. unfold Rdiv. now rewrite Rmult_assoc, Rinv_l, Rmult_1_r by lra. }
    assert (Hck : (k <= c)%nat). { destruct (Nat.le_gt_cases k c) as [H|H]; auto. exfalso. apply (le_INR (S c) k) in H. rewrite S_INR in H. lra. }
    lia.
Qed.

(** What does not hold: that a constant is negated with the configured probability. Of [N] equally likely draws, all but [p N] (rounded, plus one) negate it: the
    probability is [1 - p]. With the default 0.00743 more than 99 of 100 mutations change the sign. *)
Theorem C69_negation_probability_refuted : forall p N, (0 < N)%nat -> 0 <= p < 1 ->
  Rabs (INR (negations p N N) - (1 - p) * INR N) <= 1.
Proof.
  intros p N HN [H0 H1]. assert (HNr : 0 < INR N) by now apply lt_0_INR. pose proof (negations_count p N N HN H0) as E. destruct (int_part_nat (p * INR N)) as [B1 B2]; [nra|].
  remember (Z.to_nat (Int_part (p * INR N))) as c eqn:Ec. clear Ec. assert (Hc : (c < N)%nat) by (apply INR_lt; nra). rewrite Nat.min_r in E by lia.
  apply (f_equal INR) in E. rewrite plus_INR, plus_INR in E. cbn [INR] in E. apply Rabs_le. lra.
Qed.
Theorem C69_default_negates_refuted : forall N, (1000 <= N)%nat -> 99 / 100 * INR N < INR (negations (743 / 100000) N N).
Proof.
  intros N HN. assert (1000 <= INR N) by (replace 1000 with (INR 1000) by (cbn; lra); now apply le_INR).
  pose proof (C69_negation_probability_refuted (743 / 100000) N ltac:(lia) ltac:(lra)) as H1. unfold Rabs in H1. destruct (Rcase_abs _) in H1; lra.
Qed.

(** The whole mutation: nothing changes but one constant, whose magnitude stays within the factor [m] of what it was; zero stays zero. *)
Theorem C69_mutation : forall perturbation negate temperature (g g' : rng R) (e e' : expr R), 0 <= perturbation -> (forall n, is_draw (rg_real g n)) ->
  mutate_constant rops (mutate_factor rops (rfactor perturbation negate) temperature) g e = Ok (true, e', g') ->
  nodes e' = nodes e /\ var_names e' = var_names e
  /\ exists ci v w, In (Const ci) (nodes e) /\ nth_error (consts e) ci = Some v /\ consts e' = upd (consts e) ci w
     /\ Rabs v / widest perturbation temperature <= Rabs w <= Rabs v * widest perturbation temperature
     /\ (v = 0 -> w = 0) /\ (v <> 0 -> (w / v < 0 <-> negate < rg_real g 1)).
Proof.
  intros p n t g g' e e' Hp Hg H. unfold mutate_constant in H. destruct (positions is_const (nodes e)) as [|i0 l0]; [discriminate|].
  apply bind_ok in H as ([i g1] & E1 & H). apply bind_ok in H as (nd & E2 & H). destruct nd as [f|ci|a o]; try discriminate.
  assert (Hr : rg_real g1 = rg_real g). { clear -E1. unfold pick in E1. apply bind_ok in E1 as ([k g2] & E & E1). apply bind_ok in E1 as (x & _ & E1). injection E1 as _ <-. unfold usize_range in E. destruct (_ <? _)%nat; [|discriminate]. injection E as _ <-. reflexivity. }
  cbn [rng_real rng_bool] in H. apply bind_ok in H as (c & E3 & H). apply bind_ok in H as (cs & E4 & H). injection H as <- _. cbn [nodes var_names consts]. split; auto. split; auto.
  unfold index in E2, E3. destruct (nth_error (nodes e) i) as [x|] eqn:En; [|discriminate]. injection E2 as ->. destruct (nth_error (consts e) ci) as [v|] eqn:Ev; [|discriminate]. injection E3 as ->.
  unfold set_index in E4. destruct (_ <? _)%nat; [|discriminate]. injection E4 as <-. cbn [rg_real rg_nat shift] in *. unfold shift in *. rewrite Hr in *.
  eexists ci, c, _. split; [eapply nth_error_In; eauto|]. split; auto. split; [reflexivity|]. cbn [rops fmul].
  remember (Nat.odd (rg_nat g1 0)) as bg. pose proof (C69_range p n t (rg_real g 0) bg (rg_real g 1) Hp (Hg 0%nat)) as [Hm Hf]. pose proof (C69_sign p n t (rg_real g 0) bg (rg_real g 1)) as [Hnz Hs].
  cbn zeta in Hm, Hf, Hnz, Hs. remember (mutate_factor rops (rfactor p n) t (rg_real g 0) bg (rg_real g 1)) as f. remember (widest p t) as m. pose proof (Rabs_pos c).
  assert (Hinv : 0 < / m <= 1). { split; [apply Rinv_0_lt_compat; lra|]. rewrite <- Rinv_1. apply Rinv_le_contravar; lra. }
  assert (Hf2 : / m <= Rabs f <= m) by (destruct bg; lra).
  split; [rewrite Rabs_mult; unfold Rdiv; split; nra|]. split; [intros ->; ring|]. intros Hv. rewrite <- Hs. replace (c * f / c) with f by (field; auto). reflexivity.
Qed.

(** Every value of that range can be reached: from a constant [v] other than zero, some draws give any [w] strictly between [v / m] and [v * m], of either sign. *)
Theorem C69_reachable : forall perturbation negate temperature (e : expr R) ci v w, 0 <= perturbation -> 0 <= negate < 1 ->
  In (Const ci) (nodes e) -> nth_error (consts e) ci = Some v -> v <> 0 ->
  Rabs v / widest perturbation temperature < Rabs w < Rabs v * widest perturbation temperature ->
  exists g g', (forall n, is_draw (rg_real g n)) /\ mutate_constant rops (mutate_factor rops (rfactor perturbation negate) temperature) g e = Ok (true, mkExpr (nodes e) (upd (consts e) ci w) (var_names e), g').
Proof.
  intros p n t e ci v w Hp Hn Hin Hc Hv Hw. pose proof (widest_gt1 p t Hp) as Hm. remember (widest p t) as m.
  apply In_nth_error in Hin as [i Hi]. assert (Hpos : In i (positions is_const (nodes e))) by (apply positions_in; eexists; split; [exact Hi|reflexivity]).
  apply In_nth_error in Hpos as [j Hj]. assert (Hjl : (j < List.length (positions is_const (nodes e)))%nat) by (apply nth_error_Some; congruence).
  assert (Hva : 0 < Rabs v) by now apply Rabs_pos_lt. set (r := Rabs w / Rabs v).
  assert (Hr : / m < r < m). { unfold r. split; apply (Rmult_lt_reg_r (Rabs v)); auto; unfold Rdiv in *; rewrite ?Rmult_assoc, ?Rinv_l, ?Rmult_1_r by lra; lra. }
  assert (Hi0 : 0 < / m) by (apply Rinv_0_lt_compat; lra). assert (Hlm : 0 < ln m) by (rewrite <- ln_1; apply ln_increasing; lra).
  set (bg := if Rle_dec 1 r then true else false). set (ex := if Rle_dec 1 r then ln r / ln m else ln (/ r) / ln m).
  set (dr := if Rlt_dec (w / v) 0 then (1 + n) / 2 else 0).
  assert (Hex : is_draw ex). { assert (G : forall x, 1 <= x < m -> is_draw (ln x / ln m)).
    { intros x Hx. split; [unfold Rdiv; apply Rmult_le_pos; [rewrite <- ln_1; destruct (proj1 Hx) as [Hlt| <-]; [left; apply ln_increasing; lra|right; reflexivity]|left; now apply Rinv_0_lt_compat]|].
      apply (Rmult_lt_reg_r (ln m)); auto. unfold Rdiv. rewrite Rmult_assoc, Rinv_l, Rmult_1_r, Rmult_1_l by lra. apply ln_increasing; lra. }
    unfold ex. destruct (Rle_dec 1 r); apply G; [lra|]. split; [rewrite <- Rinv_1; apply Rinv_le_contravar; lra|]. rewrite <- (Rinv_inv m). apply Rinv_lt_contravar; [apply Rmult_lt_0_compat; lra|lra]. }
  assert (Hdr : is_draw dr) by (unfold dr, is_draw; destruct (Rlt_dec (w / v) 0); lra).
  assert (Hrp : 0 < r) by lra.
  assert (Hwz : w <> 0). { intros ->. unfold r in Hrp. rewrite Rabs_R0 in Hrp. unfold Rdiv in Hrp. lra. }
  assert (Hf : mutate_factor rops (rfactor p n) t ex bg dr = w / v).
  { rewrite code_factor. rewrite <- Heqm. replace (if bg then Rpower m ex else / Rpower m ex) with r.
    2:{ unfold bg, ex. destruct (Rle_dec 1 r); [apply power_log; auto|]. rewrite <- (power_log m (/ r)); auto; [now rewrite Rinv_inv|now apply Rinv_0_lt_compat]. }
    assert (Hra : r = Rabs (w / v)) by (unfold r, Rdiv; rewrite Rabs_mult, Rabs_inv; reflexivity). rewrite Hra. unfold dr. destruct (Rlt_dec (w / v) 0) as [Hl|Hl].
    - destruct (Rlt_dec n ((1 + n) / 2)); [|lra]. rewrite Rabs_left by auto. ring.
    - destruct (Rlt_dec n 0); [lra|]. rewrite Rabs_pos_eq by lra. ring. }
  exists (mkRng (fun k => match k with 0%nat => j | _ => if bg then 1%nat else 0%nat end) (fun k => match k with 0%nat => ex | _ => dr end)). eexists. split; [intros [|k]; auto|].
  unfold mutate_constant. destruct (positions is_const (nodes e)) as [|i0 l0] eqn:Ep; [cbn in Hjl; lia|]. rewrite <- Ep in *.
  unfold pick, usize_range. destruct (Nat.ltb_spec 0 (List.length (positions is_const (nodes e)))); [|lia]. cbn [bind rg_nat]. rewrite Nat.sub_0_r, Nat.mod_small by auto. cbn [Nat.add].
  unfold index. rewrite Hj. cbn [expect bind]. rewrite Hi. cbn [expect bind rng_real rng_bool rg_nat rg_real shift]. rewrite Hc. cbn [expect bind].
  assert (Hcl : (ci < List.length (consts e))%nat) by (apply nth_error_Some; congruence). unfold set_index. destruct (Nat.ltb_spec ci (List.length (consts e))); [|lia]. cbn [bind].
  replace (Nat.odd (if bg then 1%nat else 0%nat)) with bg by (destruct bg; reflexivity). rewrite Hf. cbn [rops fmul]. replace (v * (w / v)) with w by (field; auto). reflexivity.
Qed.

(** ** Cases *)
(** The constant 3 at temperature 1 with the default options: some draws negate it. *)
Example C69_case : exists g g' e', (forall n, is_draw (rg_real g n))
  /\ mutate_constant rops (mutate_factor rops (rfactor (129 / 1000) (743 / 100000)) 1) g (mkExpr [Var 0; Const 0; Op 2 0] [3] []) = Ok (true, e', g') /\ consts e' = [-3].
Proof.
  destruct (C69_reachable (129 / 1000) (743 / 100000) 1 (mkExpr [Var 0; Const 0; Op 2 0] [3] []) 0 3 (-3)) as (g & g' & Hg & E); try lra.
  - cbn. auto.
  - reflexivity.
  - assert (Rabs (-3) = 3) as -> by (rewrite Rabs_left; lra). rewrite Rabs_pos_eq by lra. unfold widest. rewrite Rmax_left by lra. lra.
  - exists g, g'. eexists. split; [exact Hg|]. split; [exact E|]. reflexivity.
Qed.

Print Assumptions C69_range.
Print Assumptions C69_log_uniform.
Print Assumptions C69_sign.
Print Assumptions C69_negation_probability_refuted.
Print Assumptions C69_default_negates_refuted.
Print Assumptions C69_mutation.
Print Assumptions C69_reachable.
