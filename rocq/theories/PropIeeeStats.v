(** The adaptive-parsimony statistics (C30) in binary64, the arithmetic of the code. *)
From Coq Require Import SpecFloat Reals Lra Lia ZArith Bool.
From Flocq Require Import Core IEEE754.BinarySingleNaN.
From Verif Require Import Base BaseLemmas Num Instances Selection PropStats Ieee PropIeee.
Local Open Scope R_scope.
Local Notation V := (@B2R 53 1024).
Local Notation r := (rnd 53 1024).
Local Notation ofn := (b_of_nat 53 1024 prec64 max64).

Lemma format64 x : FLT_format radix2 (-1074) 53 x -> r x = x.
Proof. intros H. unfold rnd. apply round_generic; [auto with typeclass_instances|]. exact (generic_format_FLT radix2 (-1074) 53 x H). Qed.
Lemma rmono x y : x <= y -> r x <= r y.
Proof. apply rnd_le. exact prec64. Qed.
Lemma r64_1 : r 1 = 1.
Proof. apply format64. exists (Float radix2 1 0); [unfold F2R; cbn; lra|reflexivity|cbn; lia]. Qed.
Lemma r64_bpow e : (-1074 <= e)%Z -> r (bpow radix2 e) = bpow radix2 e.
Proof. intros H. apply format64. exists (Float radix2 1 e); [unfold F2R; cbn; lra|reflexivity|exact H]. Qed.
Lemma r64_scaled k : (Z.abs k < 2 ^ 53)%Z -> r (IZR k * bpow radix2 53) = IZR k * bpow radix2 53.
Proof. intros H. apply format64. exists (Float radix2 k 53); [reflexivity|exact H|cbn; lia]. Qed.

Definition big : R := bpow radix2 53.
Lemma big_val : big = 9007199254740992. Proof. reflexivity. Qed.
(** One less than a float between 1 and 2^53 is a float. *)
Lemma r64_pred (z : f64) : 1 <= V z <= big -> r (V z - 1) = V z - 1.
Proof.
  intros Hz. pose proof (generic_format_B2R 53 1024 z) as HG. change (SpecFloat.fexp 53 1024) with (FLT_exp (-1074) 53) in HG.
  apply FLT_format_generic in HG; [|exact prec64]. destruct HG as [[m e] E Hm He]. cbn [Fnum Fexp] in Hm, He. rewrite E in *. apply format64.
  change (radix2 ^ 53)%Z with (2 ^ 53)%Z in Hm. unfold F2R in *. cbn [Fnum Fexp] in *.
  assert (Pm : (0 < m)%Z).
  { apply lt_IZR. pose proof (bpow_gt_0 radix2 e). apply (Rmult_lt_reg_r (bpow radix2 e)); auto. rewrite Rmult_0_l. lra. }
  destruct (Z_le_gt_dec e 0) as [Ne|Pe].
  - exists (Float radix2 (m - 2 ^ (- e)) e); [|cbn [Fnum]|exact He].
    + unfold F2R. cbn [Fnum Fexp]. rewrite minus_IZR, Rmult_minus_distr_r. f_equal. change 2%Z with (radix_val radix2). rewrite IZR_Zpower by lia.
      rewrite <- bpow_plus. replace (- e + e)%Z with 0%Z by lia. reflexivity.
    + change (radix2 ^ 53)%Z with (2 ^ 53)%Z. assert (2 ^ (- e) <= m)%Z; [|pose proof (Z.pow_pos_nonneg 2 (- e)); lia].
      apply le_IZR. change 2%Z with (radix_val radix2). rewrite IZR_Zpower by lia. apply (Rmult_le_reg_r (bpow radix2 e)); [apply bpow_gt_0|].
      rewrite <- bpow_plus. replace (- e + e)%Z with 0%Z by lia. cbn [bpow]. lra.
  - assert (E2 : IZR m * bpow radix2 e = IZR (m * 2 ^ e)).
    { rewrite mult_IZR. f_equal. change 2%Z with (radix_val radix2). rewrite IZR_Zpower by lia. reflexivity. }
    rewrite E2 in *. exists (Float radix2 (m * 2 ^ e - 1) 0); [unfold F2R; cbn [Fnum Fexp bpow]; rewrite minus_IZR; lra| |cbn; lia].
    cbn [Fnum]. change (radix2 ^ 53)%Z with (2 ^ 53)%Z. assert (m * 2 ^ e <= 2 ^ 53)%Z; [|pose proof (Z.pow_pos_nonneg 2 e); nia].
    apply le_IZR. rewrite big_val in Hz. change (IZR (2 ^ 53)) with 9007199254740992. lra.
Qed.

(** A counter: at least 1, at most 2^53. A normalised frequency: positive, at most 1. *)
Definition counter (v : f64) : Prop := is_finite v = true /\ 1 <= V v <= big.
Definition share64 (v : f64) : Prop := is_finite v = true /\ 0 < V v <= 1.
Definition stats64 (n : nat) (s : stats f64) : Prop :=
  List.length (st_freq s) = n /\ List.length (st_norm s) = n /\ Forall counter (st_freq s) /\ Forall share64 (st_norm s).

(** The correctly rounded operations, at binary64. *)
Lemma add64 (x y : f64) : is_finite x = true -> is_finite y = true ->
  Rabs (r (V x + V y)) < top 1024 /\ is_finite (fadd F64 x y) = true /\ V (fadd F64 x y) = r (V x + V y)
  \/ top 1024 <= Rabs (r (V x + V y)) /\ fadd F64 x y = B754_infinity (Bsign x) /\ Bsign x = Bsign y.
Proof. exact (add_fin 53 1024 prec64 max64 x y). Qed.
Lemma sub64 (x y : f64) : is_finite x = true -> is_finite y = true ->
  Rabs (r (V x - V y)) < top 1024 /\ is_finite (fsub F64 x y) = true /\ V (fsub F64 x y) = r (V x - V y)
  \/ top 1024 <= Rabs (r (V x - V y)) /\ fsub F64 x y = B754_infinity (Bsign x) /\ Bsign x = negb (Bsign y).
Proof. exact (sub_fin 53 1024 prec64 max64 x y). Qed.

Lemma div64 (x y : f64) : is_finite x = true -> is_finite y = true -> V y <> 0 ->
  Rabs (r (V x / V y)) < top 1024 /\ is_finite (fdiv F64 x y) = true /\ V (fdiv F64 x y) = r (V x / V y)
  \/ top 1024 <= Rabs (r (V x / V y)) /\ fdiv F64 x y = B754_infinity (xorb (Bsign x) (Bsign y)).
Proof. exact (div_fin 53 1024 prec64 max64 x y). Qed.

Lemma V_one : is_finite (fone F64) = true /\ V (fone F64) = 1.
Proof. split; [apply is_finite_Bone|apply Bone_correct]. Qed.
Lemma top_big : top 1024 = bpow radix2 1024. Proof. reflexivity. Qed.
Lemma big_top : big < top 1024. Proof. apply bpow_lt. lia. Qed.
Lemma in_range x : 0 <= x <= big -> Rabs x < top 1024.
Proof. intros H. pose proof big_top. rewrite Rabs_pos_eq; lra. Qed.

Lemma counter_add v : counter v -> counter (fadd F64 v (fone F64)).
Proof.
  intros [Hf Hv]. destruct V_one as [F1 V1].
  assert (H1 : 1 <= r (V v + V (fone F64))) by (rewrite <- r64_1 at 1; apply rmono; lra).
  assert (H2 : r (V v + V (fone F64)) <= big).
  { (* 2^53 + 1 rounds to 2^53 *)
    rewrite V1. destruct (Rle_lt_dec (V v + 1) big) as [Hl|Hg].
    - unfold big at 1. rewrite <- (r64_bpow 53) by lia. apply rmono. exact Hl.
    - assert (Hn : r (V v + 1) <= r (big + 1)) by (apply rmono; lra). apply (Rle_trans _ _ _ Hn).
      assert (E : r (big + 1) = big); [|lra]. clear.
      assert (HB : is_finite (lit64 1 53) = true /\ V (lit64 1 53) = big).
      { assert (Ex : B2SF (lit64 1 53) = S754_finite false 4503599627370496 1) by (vm_compute; reflexivity).
        destruct (lit64 1 53) as [| | |s m e B]; cbn in Ex; try discriminate. injection Ex as -> -> ->. split; [reflexivity|].
        change (F2R (Float radix2 4503599627370496 1) = big). unfold F2R, big. cbn. lra. }
      destruct HB as [FB VB]. destruct V_one as [F1 V1].
      destruct (add64 (lit64 1 53) (fone F64) FB F1) as [(_ & _ & H)|(_ & H & _)].
      + change (bops 53 1024 prec64 max64) with F64 in H. rewrite VB, V1 in H. 
        assert (Es : B2SF (fadd F64 (lit64 1 53) (fone F64)) = B2SF (lit64 1 53)) by (vm_compute; reflexivity). apply B2SF_inj in Es.
        apply (f_equal V) in Es. etransitivity; [symmetry; exact H|]. etransitivity; [exact Es|exact VB].
      + exfalso. assert (Es : B2SF (fadd F64 (lit64 1 53) (fone F64)) = B2SF (lit64 1 53)) by (vm_compute; reflexivity). apply B2SF_inj in Es.
        change (bops 53 1024 prec64 max64) with F64 in H. pose proof (eq_trans (eq_sym Es) H) as E9. apply (f_equal is_finite) in E9. rewrite FB in E9. discriminate. }
  destruct (add64 v (fone F64) Hf F1) as [(_ & H & E)|(H & _)].
  - split; [exact H|]. change (bops 53 1024 prec64 max64) with F64 in E. rewrite E. auto.
  - exfalso. pose proof (in_range (r (V v + V (fone F64)))). lra.
Qed.

(** The amount taken off: positive, and at most the second argument. *)
Lemma wmin_pos (a b : f64) : is_finite b = true -> fltb F64 (fzero F64) (wmin F64 a b) = true ->
  is_finite (wmin F64 a b) = true /\ 0 < V (wmin F64 a b) <= V b.
Proof.
  intros Fb. assert (Eb : feqb F64 b b = true) by (apply eq_fin; auto). unfold wmin. rewrite Eb. cbn [negb].
  assert (Hb : fltb F64 (fzero F64) b = true -> is_finite b = true /\ 0 < V b <= V b).
  { intros H. apply lt_fin in H; auto. change (V (fzero F64)) with 0 in H. split; auto. lra. }
  destruct (feqb F64 a a) eqn:Ea; cbn [negb]; auto. destruct (fltb F64 b a) eqn:El; auto.
  intros Hp. destruct (is_finite a) eqn:Fa.
  - apply lt_fin in Hp; auto. change (V (fzero F64)) with 0 in Hp. split; auto. split; auto.
    destruct (Rle_lt_dec (V a) (V b)); auto. exfalso. assert (fltb F64 b a = true) by (apply lt_fin; auto). congruence.
  - exfalso. destruct a as [s|[]| |s m e B]; try discriminate. destruct b as [s|s| |s m e B]; try discriminate; destruct s; discriminate.
Qed.

(** The smallest of a non-empty list of finite numbers. *)
Lemma wmin_fin (a b : f64) : is_finite a = true -> is_finite b = true ->
  is_finite (wmin F64 a b) = true /\ V (wmin F64 a b) <= V a /\ V (wmin F64 a b) <= V b /\ (wmin F64 a b = a \/ wmin F64 a b = b).
Proof.
  intros Fa Fb. assert (Ea : feqb F64 a a = true) by (apply eq_fin; auto). assert (Eb : feqb F64 b b = true) by (apply eq_fin; auto).
  unfold wmin. rewrite Ea, Eb. cbn [negb]. destruct (fltb F64 b a) eqn:El.
  - apply lt_fin in El; auto. repeat split; auto; lra.
  - split; auto. split; [lra|]. split; auto. destruct (Rle_lt_dec (V a) (V b)); auto. exfalso. assert (fltb F64 b a = true) by (apply lt_fin; auto). congruence.
Qed.
Lemma fold_wmin64 l : forall m, is_finite m = true -> Forall (fun v => is_finite v = true) l ->
  let z := fold_left (wmin F64) l m in is_finite z = true /\ V z <= V m /\ Forall (fun v => V z <= V v) l /\ (z = m \/ In z l).
Proof.
  induction l as [|x l IH]; intros m Fm Hl; cbn [fold_left].
  - cbn zeta. repeat split; auto. lra.
  - apply Forall_cons_iff in Hl as [Fx Hl]. destruct (wmin_fin m x Fm Fx) as (H1 & H2 & H3 & H4).
    destruct (IH _ H1 Hl) as (I1 & I2 & I3 & I4). cbn zeta. repeat split; auto; [lra| |].
    + constructor; [lra|exact I3].
    + destruct I4 as [->|I4]; [|right; right; exact I4]. destruct H4 as [->| ->]; [left; reflexivity|right; left; reflexivity].
Qed.
Lemma fold_wmin_inf x l : Forall (fun v => is_finite v = true) (x :: l) ->
  let z := fold_left (wmin F64) (x :: l) (finf F64) in is_finite z = true /\ Forall (fun v => V z <= V v) (x :: l) /\ In z (x :: l).
Proof.
  intros H. apply Forall_cons_iff in H as [Fx Hl].
  assert (E : wmin F64 (finf F64) x = x).
  { unfold wmin. assert (Eb : feqb F64 x x = true) by (apply eq_fin; auto). rewrite Eb. destruct x as [s|s| |s m e B]; try discriminate; destruct s; reflexivity. }
  cbn [fold_left]. rewrite E. destruct (fold_wmin64 l x Fx Hl) as (H1 & H2 & H3 & H4). cbn zeta. split; auto. split.
  - constructor; auto.
  - destruct H4 as [->|H4]; [left; reflexivity|right; exact H4].
Qed.

(** The loop that shrinks the window keeps counters counters, whatever it is asked to remove. *)
Lemma window_loop64 on eps turns : forall freqs remaining, Forall counter freqs ->
  Forall counter (move_window_loop F64 on eps turns freqs remaining) /\ List.length (move_window_loop F64 on eps turns freqs remaining) = List.length freqs.
Proof.
  induction turns as [|turns IH]; intros freqs remaining HF; cbn [move_window_loop]; auto.
  destruct (negb (fltb F64 (fzero F64) remaining)); auto.
  destruct (filter (fun v => fltb F64 (fone F64) v) freqs) as [|x l] eqn:EF; auto. cbv zeta.
  assert (HA : forall v, In v (x :: l) -> counter v /\ fltb F64 (fone F64) v = true).
  { intros v Hv. rewrite <- EF in Hv. apply filter_In in Hv as [H1 H2]. split; auto. rewrite Forall_forall in HF. auto. }
  set (num := on (List.length (x :: l))). set (z := fold_left (wmin F64) (x :: l) (finf F64)).
  destruct (fold_wmin_inf x l) as (Z1 & Z2 & Z3).
  { apply Forall_forall. intros v Hv. apply HA in Hv as [[Hv _] _]. exact Hv. }
  fold z in Z1, Z2, Z3. destruct (HA z Z3) as [[_ Zc] _]. destruct V_one as [F1 V1].
  assert (HS : is_finite (fsub F64 z (fone F64)) = true /\ V (fsub F64 z (fone F64)) = V z - 1).
  { destruct (sub64 z (fone F64) Z1 F1) as [(_ & H & E)|(H & _)]; change (bops 53 1024 prec64 max64) with F64 in *; rewrite V1, r64_pred in * by auto.
    - split; [exact H|exact E].
    - exfalso. pose proof (in_range (V z - 1)). lra. }
  destruct HS as [FS VS]. set (amount := wmin F64 (fdiv F64 remaining num) (fsub F64 z (fone F64))).
  destruct (fltb F64 (fzero F64) amount) eqn:Ep; cbn [negb]; auto.
  destruct (wmin_pos _ _ FS Ep) as (A1 & A2). fold amount in A1, A2. rewrite VS in A2.
  set (freqs' := map (fun v => if fltb F64 (fone F64) v then fsub F64 v amount else v) freqs).
  assert (HF' : Forall counter freqs').
  { unfold freqs'. apply Forall_forall. intros v' Hv'. apply in_map_iff in Hv' as (v & <- & Hv). rewrite Forall_forall in HF. pose proof (HF v Hv) as [Fv Cv].
    destruct (fltb F64 (fone F64) v) eqn:E1; [|split; auto].
    assert (Hz : V z <= V v) by (rewrite Forall_forall in Z2; apply Z2; refine (eq_ind _ (In v) _ _ EF); apply filter_In; split; [exact Hv|exact E1]).
    assert (R1 : 1 <= r (V v - V amount)) by (rewrite <- r64_1 at 1; apply rmono; lra).
    assert (R2 : r (V v - V amount) <= V v) by (rewrite <- (rnd_val 53 1024 v) at 2; apply rmono; lra).
    destruct (sub64 v amount Fv A1) as [(_ & H & E)|(H & _)]; change (bops 53 1024 prec64 max64) with F64 in *.
    - split; [exact H|]. rewrite E. lra.
    - exfalso. pose proof (in_range (r (V v - V amount))). lra. }
  assert (HL : List.length freqs' = List.length freqs) by apply map_length.
  destruct (fltb F64 (fmul F64 amount num) eps); auto. rewrite <- HL. apply IH. exact HF'.
Qed.

(** Sums of counters. *)
Lemma sum64 l : forall acc k, is_finite acc = true -> 0 <= V acc <= IZR (Z.of_nat k) * big -> Forall counter l -> (Z.of_nat (k + List.length l) < 2 ^ 53)%Z ->
  let z := fold_left (fadd F64) l acc in
  is_finite z = true /\ V acc <= V z <= IZR (Z.of_nat (k + List.length l)) * big /\ Forall (fun v => V v <= V z) l.
Proof.
  induction l as [|v l IH]; intros acc k Fa Ha Hl Hk; cbn [fold_left List.length] in *.
  - cbn zeta. rewrite Nat.add_0_r. repeat split; auto; lra.
  - apply Forall_cons_iff in Hl as [[Fv Cv] Hl].
    assert (R0 : V acc <= r (V acc + V v)) by (rewrite <- (rnd_val 53 1024 acc) at 1; apply rmono; lra).
    assert (R1 : V v <= r (V acc + V v)) by (rewrite <- (rnd_val 53 1024 v) at 1; apply rmono; lra).
    assert (R2 : r (V acc + V v) <= IZR (Z.of_nat (S k)) * big).
    { unfold big. rewrite <- (r64_scaled (Z.of_nat (S k))) by lia. apply rmono. fold big. rewrite Nat2Z.inj_succ, succ_IZR. lra. }
    assert (HB : IZR (Z.of_nat (S k)) * big < top 1024).
    { apply (Rle_lt_trans _ (bpow radix2 53 * bpow radix2 53)).
      - apply Rmult_le_compat_r; [apply bpow_ge_0|]. change (bpow radix2 53) with (IZR (2 ^ 53)). apply IZR_le. lia.
      - rewrite <- bpow_plus. apply bpow_lt. lia. }
    destruct (add64 acc v Fa Fv) as [(_ & H & E)|(H & _)]; change (bops 53 1024 prec64 max64) with F64 in *.
    + destruct (IH (fadd F64 acc v) (S k)) as (I1 & I2 & I3); auto; [rewrite E; lra|lia|].
      cbn zeta. rewrite E in I2. replace (k + S (List.length l))%nat with (S k + List.length l)%nat by lia. split; [exact I1|]. split; [lra|].
      constructor; [lra|exact I3].
    + exfalso. rewrite Rabs_pos_eq in H by lra. lra.
Qed.

Lemma shares64 n freqs : List.length freqs = n -> (Z.of_nat n < 2 ^ 53)%Z -> Forall counter freqs ->
  Forall share64 (map (fun v => fdiv F64 v (wsum F64 freqs)) freqs) /\ (1 <= n -> feqb F64 (wsum F64 freqs) (fzero F64) = false)%nat.
Proof.
  intros Hl Hn HF. destruct (sum64 freqs (fzero F64) 0 eq_refl) as (S1 & S2 & S3); auto.
  { change (V (fzero F64)) with 0. cbn. lra. } { rewrite Hl. exact Hn. }
  fold (wsum F64 freqs) in S1, S2, S3. cbn [Nat.add] in S2. rewrite Hl in S2. rewrite Forall_forall in S3.
  assert (HB : V (wsum F64 freqs) <= bpow radix2 106).
  { apply (Rle_trans _ (IZR (2 ^ 53) * big)); [|right; unfold big; change (IZR (2 ^ 53)) with (bpow radix2 53); rewrite <- bpow_plus; reflexivity].
    apply (Rle_trans _ _ _ (proj2 S2)). apply Rmult_le_compat_r; [apply bpow_ge_0|]. apply IZR_le. lia. }
  split.
  - apply Forall_forall. intros p Hp. apply in_map_iff in Hp as (v & <- & Hv). pose proof (S3 v Hv) as Hvs. rewrite Forall_forall in HF. destruct (HF v Hv) as [Fv Cv].
    set (s := wsum F64 freqs) in *. assert (Ps : 0 < V s) by lra.
    assert (Q1 : V v / V s <= 1) by (apply (Rmult_le_reg_r (V s)); auto; unfold Rdiv; rewrite Rmult_assoc, Rinv_l by lra; lra).
    assert (Q0 : bpow radix2 (-106) <= V v / V s).
    { apply (Rmult_le_reg_r (V s)); auto. unfold Rdiv. rewrite Rmult_assoc, Rinv_l, Rmult_1_r by lra.
      apply (Rle_trans _ (bpow radix2 (-106) * bpow radix2 106)); [apply Rmult_le_compat_l; [apply bpow_ge_0|exact HB]|]. rewrite <- bpow_plus. change (bpow radix2 (-106 + 106)) with 1. lra. }
    assert (R1 : r (V v / V s) <= 1) by (rewrite <- r64_1; apply rmono; exact Q1).
    assert (R0 : bpow radix2 (-106) <= r (V v / V s)) by (rewrite <- (r64_bpow (-106)) by lia; apply rmono; exact Q0).
    pose proof (bpow_gt_0 radix2 (-106)).
    destruct (div64 v s Fv S1 ltac:(lra)) as [(_ & H1 & E)|(H1 & _)]; change (bops 53 1024 prec64 max64) with F64 in *.
    + split; [exact H1|]. rewrite E. lra.
    + exfalso. pose proof (in_range (r (V v / V s))). rewrite big_val in *. lra.
  - intros H1. destruct freqs as [|v freqs]; [cbn in Hl; lia|]. rewrite Forall_forall in HF. destruct (HF v (or_introl eq_refl)) as [Fv Cv].
    pose proof (S3 v (or_introl eq_refl)). apply not_true_is_false. intros E. apply eq_fin in E; auto. change (V (fzero F64)) with 0 in E. lra.
Qed.

(** After any history of calls, with fewer than 2^53 complexities: every counter is a finite number from 1 to 2^53 and every normalised frequency is finite, positive
    and at most 1; nothing is ever infinite, NaN, zero or negative. No law of exact arithmetic is assumed. *)
Theorem C30_binary64 : forall (n window : nat) (eps : f64) (ops : list stat_op), (Z.of_nat n < 2 ^ 53)%Z ->
  let s := stat_run F64 ofn eps ops (stats_new F64 ofn n window) in
  List.length (st_freq s) = n /\ List.length (st_norm s) = n
  /\ Forall (fun v => is_finite v = true /\ 1 <= B2R v <= 2 ^ 53) (st_freq s)
  /\ Forall (fun v => is_finite v = true /\ 0 < B2R v <= 1) (st_norm s)
  /\ (is_finite eps = true -> 0 < B2R eps <= 1 -> forall size, exists v, freq F64 eps s size = Ok v /\ is_finite v = true /\ B2R eps <= B2R v <= 1).
Proof.
  intros n window eps ops Hn. cbv zeta.
  assert (Hnew : stats64 n (stats_new F64 ofn n window)).
  { unfold stats_new. cbv zeta. destruct V_one as [F1 V1].
    assert (HC : Forall counter (fill n (fone F64))).
    { apply Forall_forall. intros v Hv. unfold fill in Hv. apply repeat_spec in Hv as ->. split; auto. rewrite V1, big_val. lra. }
    assert (HL : List.length (fill n (fone F64)) = n) by apply repeat_length.
    split; [exact HL|]. split; [cbn [st_norm]; rewrite map_length; exact HL|]. split; [exact HC|]. cbn [st_norm]. apply (shares64 n); auto. }
  assert (Hobs : forall s z, stats64 n s -> stats64 n (update_frequencies F64 s z)).
  { intros s z (H1 & H2 & H3 & H4). unfold update_frequencies. destruct ((0 <? z)%nat && (z <=? List.length (st_freq s))%nat); [|split; auto].
    destruct (nth_error (st_freq s) (z - 1)) as [v|] eqn:E; [|split; auto]. split; [cbn [st_freq]; rewrite upd_length; auto|]. split; auto. split; auto.
    cbn [st_freq]. apply Forall_forall. intros x Hx. apply In_nth_error in Hx as (i & Hi). rewrite Forall_forall in H3.
    destruct (Nat.eq_dec i (z - 1)) as [->|Ne].
    - rewrite nth_error_upd_same in Hi by (apply nth_error_Some; congruence). injection Hi as <-. apply counter_add. apply H3. eapply nth_error_In; eauto.
    - rewrite nth_error_upd_other in Hi by auto. apply H3. eapply nth_error_In; eauto. }
  assert (Hrun : stats64 n (stat_run F64 ofn eps ops (stats_new F64 ofn n window))).
  { revert Hnew. generalize (stats_new F64 ofn n window) as s. unfold stat_run. induction ops as [|op ops IH]; intros s Hs; cbn [fold_left]; auto. apply IH. clear IH.
    destruct op as [size|sizes| |]; cbn [stat_step].
    - apply Hobs; auto.
    - unfold update_from_population. revert s Hs. induction sizes as [|z sizes IHs]; intros s Hs; cbn [fold_left]; auto.
    - destruct Hs as (H1 & H2 & H3 & H4). unfold move_window. cbv zeta. destruct (fleb F64 (wsum F64 (st_freq s)) (st_window s)); [split; auto|].
      destruct (window_loop64 ofn eps max_turns (st_freq s) (fsub F64 (wsum F64 (st_freq s)) (st_window s)) H3) as [W1 W2].
      split; [cbn [st_freq]; congruence|]. split; auto.
    - destruct Hs as (H1 & H2 & H3 & H4). destruct (shares64 n (st_freq s)) as [N1 N2]; auto. unfold normalize. cbv zeta.
      destruct (feqb F64 (wsum F64 (st_freq s)) (fzero F64)) eqn:E.
      + destruct n as [|n']; [|exfalso; assert (E0 := N2 ltac:(lia)); exact (Bool.diff_true_false E0)]. destruct (st_norm s) as [|v0 l0]; [|exfalso; inversion H2]. split; [exact H1|]. split; [exact H2|]. split; [exact H3|constructor].
      + split; [exact H1|]. split; [cbn [st_norm]; rewrite map_length; exact H1|]. split; [exact H3|exact N1]. }
  destruct Hrun as (H1 & H2 & H3 & H4). split; [exact H1|]. split; [exact H2|]. split.
  { apply (Forall_impl _ (P := counter)); auto. intros v [Hf Hv]. rewrite big_val in Hv. split; auto. lra. }
  split; [exact H4|]. intros Fe He size. set (s := stat_run _ _ _ _ _) in *. unfold freq.
  destruct ((size =? 0)%nat || (List.length (st_norm s) <? size)%nat) eqn:E.
  { exists eps. repeat split; auto; lra. }
  apply orb_false_iff in E as [E1 E2]. apply Nat.eqb_neq in E1. apply Nat.ltb_ge in E2.
  destruct (nth_error (st_norm s) (size - 1)) as [p|] eqn:Ep; [|apply nth_error_None in Ep; lia].
  rewrite Forall_forall in H4. destruct (H4 p (nth_error_In _ _ Ep)) as [Fp Vp]. unfold index. rewrite Ep. cbn [expect bind].
  eexists. split; [reflexivity|]. assert (Np : feqb F64 p p = true) by (apply eq_fin; auto). assert (Ne : feqb F64 eps eps = true) by (apply eq_fin; auto).
  unfold wmax. rewrite Np, Ne. cbn [negb]. destruct (fltb F64 p eps) eqn:El.
  - split; auto. lra.
  - split; auto. split; [|lra]. destruct (Rle_lt_dec (V eps) (V p)); auto. exfalso. assert (fltb F64 p eps = true) by (apply lt_fin; auto). congruence.
Qed.

(** The theorem has content: ten calls of three complexities, with a window of seven, end in frequencies that are not exact. *)
Definition stats64_case : stats f64 :=
  stat_run F64 ofn (lit64 1 (-20)) [ObserveAll [1; 1; 2; 3; 3; 3; 2]; Observe 1; Observe 9; MoveWindow; Normalize; Observe 1]%nat (stats_new F64 ofn 3 7).
Example C30_binary64_case :
  map (@B2SF 53 1024) (st_freq stats64_case)
  = [S754_finite false 8256599316845910 (-51); S754_finite false 7505999378950827 (-52); S754_finite false 6004799503160662 (-51)]
  /\ map (@B2SF 53 1024) (st_norm stats64_case)
  = [S754_finite false 6862628003612184 (-54); S754_finite false 8578285004515230 (-55); S754_finite false 6862628003612184 (-54)].
Proof. split; vm_compute; reflexivity. Qed.
Print Assumptions C30_binary64.
