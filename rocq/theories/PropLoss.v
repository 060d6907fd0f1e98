(** Property C34: what loss and cost are, and what evaluating a member does. *)
From Coq Require Import QArith Qabs Lqa.
From Verif Require Import Base BaseLemmas Node Tree NodeProofs Compile CompileProofs Eval EvalProofs EvalTop Rng Registry Complexity ComplexitySpec ComplexityProofs PropComplexity
  Num Instances Member Dataset PropDataset Loss PropSelection.
Local Open Scope nat_scope.

(** The extra operations are exact on finite values. *)
Record ExactLoss {T} (F : FloatOps T) (val : T -> Q) (LO : LossOps T) : Prop := {
  el_abs : forall a, ffinite F a = true -> ffinite F (lo_abs LO a) = true /\ (val (lo_abs LO a) == Qabs (val a))%Q;
  el_nat : forall n, ffinite F (lo_of_nat LO n) = true /\ (val (lo_of_nat LO n) == inject_Z (Z.of_nat n))%Q;
  el_two : ffinite F (lo_two LO) = true /\ (val (lo_two LO) == 2)%Q;
  el_half : ffinite F (lo_half LO) = true /\ (val (lo_half LO) == 1 # 2)%Q;
  el_cent : ffinite F (lo_cent LO) = true /\ (val (lo_cent LO) == 1 # 100)%Q }.

(** ** Specification: the losses as functions of rationals *)
Definition sq_err (a b : Q) : Q := ((a - b) * (a - b))%Q.
Definition abs_err (a b : Q) : Q := Qabs (a - b).
Definition huber_err (delta a b : Q) : Q :=
  if Qle_bool (Qabs (a - b)) delta then ((1 # 2) * ((a - b) * (a - b)))%Q
  else (delta * (Qabs (a - b) - (1 # 2) * delta))%Q.
(** Pinball loss: tau per unit of under-prediction, 1 - tau per unit of over-prediction. *)
Definition pinball_err (tau a b : Q) : Q := if Qle_bool a b then (tau * (b - a))%Q else ((1 - tau) * (a - b))%Q.
Definition eps_err (eps a b : Q) : Q := if Qle_bool (Qabs (a - b)) eps then 0%Q else (Qabs (a - b) - eps)%Q.

(** Sum over the rows, plain and weighted. *)
Fixpoint row_sum (err : Q -> Q -> Q) (yhat y : list Q) : Q :=
  match yhat, y with
  | a :: yhat, b :: y => (err a b + row_sum err yhat y)%Q
  | _, _ => 0%Q
  end.
Fixpoint weighted_row_sum (err : Q -> Q -> Q) (yhat y w : list Q) : Q :=
  match yhat, y, w with
  | a :: yhat, b :: y, c :: w => (c * err a b + weighted_row_sum err yhat y w)%Q
  | _, _, _ => 0%Q
  end.

(** The pointwise error a loss kind stands for, where it is rational. *)
Definition kind_err {T} (val : T -> Q) (k : loss_kind T) : option (Q -> Q -> Q) :=
  match k with
  | LMse => Some sq_err
  | LMae => Some abs_err
  | LHuber d => Some (huber_err (val d))
  | LQuantile t => Some (pinball_err (val t))
  | LEps e => Some (eps_err (val e))
  | LRmse | LLogCosh | LLp _ => None
  end.
Definition params_finite {T} (F : FloatOps T) (k : loss_kind T) : Prop :=
  match k with LHuber d | LQuantile d | LEps d | LLp d => ffinite F d = true | _ => True end.

Definition finite_list {T} (F : FloatOps T) (l : list T) : Prop := Forall (fun x => ffinite F x = true) l.

Section C34.
Context {T : Type} (F : FloatOps T) (val : T -> Q) (LO : LossOps T) (X : ExactLaws F val) (XL : ExactLoss F val LO).

Lemma fold_add_exact l : finite_list F l -> forall a, ffinite F a = true ->
  ffinite F (fold_left (fadd F) l a) = true /\ (val (fold_left (fadd F) l a) == val a + Qsum (map val l))%Q.
Proof.
  induction 1 as [|x l Hx Hl IH]; intros a Ha; cbn [fold_left map Qsum].
  - split; auto. lra.
  - destruct (ex_add F val X a x Ha Hx) as [H1 H2]. destruct (IH _ H1) as [H3 H4]. split; auto. rewrite H4, H2. lra.
Qed.
Lemma fsum_exact l : finite_list F l -> ffinite F (fsum F l) = true /\ (val (fsum F l) == Qsum (map val l))%Q.
Proof.
  intros H. destruct (ex_zero F val X) as [Z1 Z2]. destruct (fold_add_exact l H _ Z1) as [H1 H2]. split; auto.
  unfold fsum. rewrite H2, Z2. lra.
Qed.

Lemma fle_exact a b : ffinite F a = true -> ffinite F b = true -> fleb F a b = true <-> (val a <= val b)%Q.
Proof.
  intros Ha Hb. unfold fleb. rewrite orb_true_iff, (ex_lt F val X), (ex_eq F val X) by auto. rewrite Qle_lteq. tauto.
Qed.
Lemma fge_exact a b : ffinite F a = true -> ffinite F b = true -> fgeb F a b = true <-> (val b <= val a)%Q.
Proof.
  intros Ha Hb. unfold fgeb. rewrite orb_true_iff, (ex_lt F val X), (ex_eq F val X) by auto. rewrite Qle_lteq.
  split; intros [H|H]; auto; right; symmetry; auto.
Qed.
Lemma fle_bool a b : ffinite F a = true -> ffinite F b = true -> fleb F a b = Qle_bool (val a) (val b).
Proof. intros Ha Hb. apply bool_ext. rewrite fle_exact, Qle_bool_iff by auto. tauto. Qed.
Lemma fge_bool a b : ffinite F a = true -> ffinite F b = true -> fgeb F a b = Qle_bool (val b) (val a).
Proof. intros Ha Hb. apply bool_ext. rewrite fge_exact, Qle_bool_iff by auto. tauto. Qed.
Lemma fgt_bool a b : ffinite F a = true -> ffinite F b = true -> fgtb F a b = negb (Qle_bool (val a) (val b)).
Proof.
  intros Ha Hb. apply bool_ext. unfold fgtb. rewrite (ex_lt F val X), negb_true_iff by auto. split.
  - intros H. apply not_true_is_false. rewrite Qle_bool_iff. apply Qlt_not_le. auto.
  - intros H. apply Qnot_le_lt. rewrite <- Qle_bool_iff. congruence.
Qed.

Instance Qle_bool_compat : Proper (Qeq ==> Qeq ==> eq) Qle_bool.
Proof. intros a b H c d H'. apply bool_ext. rewrite !Qle_bool_iff. rewrite H, H'. tauto. Qed.

(** A pointwise loss computes [err] on finite values. *)
Definition computes (p : pointloss T) (err : Q -> Q -> Q) : Prop :=
  forall a b, ffinite F a = true -> ffinite F b = true ->
    ffinite F (pl_loss p a b) = true /\ (val (pl_loss p a b) == err (val a) (val b))%Q.

Ltac exact1 H E := let H' := fresh in pose proof H as H'; destruct H' as [? E].

Lemma squared_computes : computes (squared_loss F LO) sq_err.
Proof.
  intros a b Ha Hb. cbn. destruct (ex_sub F val X a b Ha Hb) as [H1 E1]. destruct (ex_mul F val X _ _ H1 H1) as [H2 E2].
  split; auto. rewrite E2, E1. reflexivity.
Qed.
Lemma abs_computes : computes (abs_loss F LO) abs_err.
Proof.
  intros a b Ha Hb. cbn. destruct (ex_sub F val X a b Ha Hb) as [H1 E1]. destruct (el_abs F val LO XL _ H1) as [H2 E2].
  split; auto. rewrite E2, E1. reflexivity.
Qed.
Lemma huber_computes d : ffinite F d = true -> computes (huber_loss F LO d) (huber_err (val d)).
Proof.
  intros Hd a b Ha Hb. cbn [huber_loss pl_loss]. destruct (ex_sub F val X a b Ha Hb) as [H1 E1]. destruct (el_abs F val LO XL _ H1) as [H2 E2].
  unfold huber_err. rewrite (fle_bool _ _ H2 Hd). rewrite E2, E1. destruct (el_half F val LO XL) as [Hh Eh].
  destruct (Qle_bool (Qabs (val a - val b)) (val d)).
  - destruct (ex_mul F val X _ _ Hh H1) as [H3 E3]. destruct (ex_mul F val X _ _ H3 H1) as [H4 E4].
    split; auto. rewrite E4, E3, E1, Eh. ring.
  - destruct (ex_mul F val X _ _ Hh Hd) as [H3 E3]. destruct (ex_sub F val X _ _ H2 H3) as [H4 E4].
    destruct (ex_mul F val X _ _ Hd H4) as [H5 E5]. split; auto. rewrite E5, E4, E3, E2, E1, Eh. reflexivity.
Qed.
Lemma quantile_computes t : ffinite F t = true -> computes (quantile_loss F LO t) (pinball_err (val t)).
Proof.
  intros Ht a b Ha Hb. cbn [quantile_loss pl_loss]. destruct (ex_sub F val X b a Hb Ha) as [H1 E1].
  destruct (ex_zero F val X) as [Hz Ez]. destruct (ex_one F val X) as [Ho Eo]. unfold pinball_err. rewrite (fge_bool _ _ H1 Hz).
  assert (Eb : Qle_bool (val (fzero F)) (val (fsub F b a)) = Qle_bool (val a) (val b)).
  { apply bool_ext. rewrite !Qle_bool_iff, E1, Ez. split; intros; lra. }
  rewrite Eb. destruct (Qle_bool (val a) (val b)).
  - destruct (ex_mul F val X _ _ Ht H1) as [H2 E2]. split; auto. rewrite E2, E1. reflexivity.
  - destruct (ex_sub F val X _ _ Ht Ho) as [H2 E2]. destruct (ex_mul F val X _ _ H2 H1) as [H3 E3]. split; auto.
    rewrite E3, E2, E1, Eo. ring.
Qed.
Lemma eps_computes e : ffinite F e = true -> computes (eps_loss F LO e) (eps_err (val e)).
Proof.
  intros He a b Ha Hb. cbn [eps_loss pl_loss]. destruct (ex_sub F val X a b Ha Hb) as [H1 E1].
  destruct (el_abs F val LO XL _ H1) as [H2 E2]. destruct (ex_sub F val X _ _ H2 He) as [H3 E3].
  destruct (ex_zero F val X) as [Hz Ez]. unfold eps_err. rewrite (fgt_bool _ _ H3 Hz).
  assert (Eb : Qle_bool (val (fsub F (lo_abs LO (fsub F a b)) e)) (val (fzero F)) = Qle_bool (Qabs (val a - val b)) (val e)).
  { apply bool_ext. rewrite !Qle_bool_iff, E3, E2, E1, Ez. split; intros; lra. }
  rewrite Eb. destruct (Qle_bool (Qabs (val a - val b)) (val e)); cbn [negb]; split; auto. rewrite E3, E2, E1. reflexivity.
Qed.

Lemma plain_sum p err yhat : computes p err -> finite_list F yhat -> forall y, finite_list F y -> List.length yhat = List.length y ->
  let l := map (fun q => pl_loss p (fst q) (snd q)) (combine yhat y) in
  finite_list F l /\ (Qsum (map val l) == row_sum err (map val yhat) (map val y))%Q.
Proof.
  intros Hc. induction 1 as [|a yhat Ha Hyh IH]; intros [|b y] Hy Hl; try discriminate.
  - split; [constructor|reflexivity].
  - apply Forall_cons_iff in Hy as [Hb0 Hy]. injection Hl as Hl. destruct (IH y) as [H1 H4]; auto. destruct (Hc a b) as [H5 H6]; auto.
    cbn [combine map fst snd]. split; [constructor; auto|]. cbn [map Qsum row_sum]. rewrite H4, H6. reflexivity.
Qed.

Lemma weighted_sum p err yhat : computes p err -> finite_list F yhat -> forall y w, finite_list F y -> finite_list F w ->
  List.length yhat = List.length y -> List.length w = List.length y ->
  let l := map (fun q => fmul F (snd q) (pl_loss p (fst (fst q)) (snd (fst q)))) (combine (combine yhat y) w) in
  finite_list F l /\ (Qsum (map val l) == weighted_row_sum err (map val yhat) (map val y) (map val w))%Q.
Proof.
  intros Hc. induction 1 as [|a yhat Ha Hyh IH]; intros [|b y] [|c w] Hy Hw Hl Hl2; try discriminate.
  - split; [constructor|reflexivity].
  - apply Forall_cons_iff in Hy as [Hb0 Hy]. apply Forall_cons_iff in Hw as [Hc0 Hw]. injection Hl as Hl. injection Hl2 as Hl2. destruct (IH y w) as [H1 H6]; auto.
    destruct (Hc a b) as [H7 H8]; auto. destruct (ex_mul F val X c (pl_loss p a b)) as [H9 H10]; auto.
    cbn [combine map fst snd]. split; [constructor; auto|]. cbn [map Qsum weighted_row_sum]. rewrite H6, H10, H8. reflexivity.
Qed.

Lemma mean_plain p err yhat y : computes p err -> finite_list F yhat -> finite_list F y -> List.length yhat = List.length y -> y <> [] ->
  exists v, mean_loss F LO p yhat y None = Ok v /\ ffinite F v = true
    /\ (val v == row_sum err (map val yhat) (map val y) / inject_Z (Z.of_nat (List.length y)))%Q.
Proof.
  intros Hc Hyh Hy Hl Hne. unfold mean_loss. rewrite Hl, Nat.eqb_refl. cbn [assert_ bind].
  destruct y as [|b y0] eqn:Ey; [congruence|]. rewrite <- Ey in *. unfold zip_eq. rewrite Hl, Nat.eqb_refl. cbn [bind].
  destruct (plain_sum p err yhat Hc Hyh y Hy Hl) as [H1 H2]. destruct (fsum_exact _ H1) as [H3 H4].
  destruct (el_nat F val LO XL (List.length y)) as [Hn En].
  destruct (ex_div F val X (fsum F (map (fun q => pl_loss p (fst q) (snd q)) (combine yhat y))) (lo_of_nat LO (List.length y)) H3 Hn) as [H5 H6].
  { rewrite En. rewrite Ey. cbn. unfold Qeq. cbn. lia. }
  exists (fdiv F (fsum F (map (fun q => pl_loss p (fst q) (snd q)) (combine yhat y))) (lo_of_nat LO (List.length y))).
  split; [reflexivity|]. split; auto. rewrite H6, H4, H2, En. reflexivity.
Qed.

Lemma mean_weighted p err yhat y w : computes p err -> finite_list F yhat -> finite_list F y -> finite_list F w ->
  List.length yhat = List.length y -> List.length w = List.length y ->
  exists v, mean_loss F LO p yhat y (Some w) = Ok v /\ ffinite F v = true
    /\ ((Qsum (map val w) == 0)%Q -> (val v == 0)%Q)
    /\ (~ (Qsum (map val w) == 0)%Q ->
        (val v == weighted_row_sum err (map val yhat) (map val y) (map val w) / Qsum (map val w))%Q).
Proof.
  intros Hc Hyh Hy Hw Hl Hl2. unfold mean_loss. rewrite Hl, Hl2, Nat.eqb_refl. cbn [assert_ bind].
  destruct (fsum_exact w Hw) as [Hs Es]. destruct (ex_zero F val X) as [Hz Ez].
  destruct (feqb F (fsum F w) (fzero F)) eqn:E0.
  - apply (ex_eq F val X) in E0; auto. rewrite Es, Ez in E0. exists (fzero F). repeat split; auto. contradiction.
  - assert (Hn0 : ~ (Qsum (map val w) == 0)%Q).
    { intros H. assert (feqb F (fsum F w) (fzero F) = true); [|congruence]. apply (ex_eq F val X); auto. rewrite Es, Ez. auto. }
    unfold zip_eq. rewrite Hl, Nat.eqb_refl. cbn [bind]. rewrite combine_length, Hl, Nat.min_id, Hl2, Nat.eqb_refl. cbn [bind].
    destruct (weighted_sum p err yhat Hc Hyh y w Hy Hw Hl Hl2) as [H1 H2]. destruct (fsum_exact _ H1) as [H3 H4].
    destruct (ex_div F val X _ _ H3 Hs) as [H5 H6]; [rewrite Es; auto|].
    eexists. split; [reflexivity|]. split; [exact H5|]. split; [contradiction|]. intros _. rewrite H6, H4, H2, Es. reflexivity.
Qed.

Lemma kind_computes k err : params_finite F k -> kind_err val k = Some err ->
  exists p, make_loss F LO k = mean_of F LO p /\ computes p err.
Proof.
  destruct k; cbn [params_finite kind_err make_loss]; intros Hp [= <-]; eexists; (split; [reflexivity|]).
  - apply squared_computes.
  - apply abs_computes.
  - apply huber_computes; auto.
  - apply quantile_computes; auto.
  - apply eps_computes; auto.
Qed.
End C34.

(** The loss of a kind is the mean over the rows of its pointwise error, in exact arithmetic. *)
Theorem C34_plain_mean : forall (T : Type) (F : FloatOps T) (val : T -> Q) (LO : LossOps T) (k : loss_kind T) err yhat y,
  ExactLaws F val -> ExactLoss F val LO -> params_finite F k -> kind_err val k = Some err ->
  finite_list F yhat -> finite_list F y -> List.length yhat = List.length y -> y <> [] ->
  exists v, lf_loss (make_loss F LO k) yhat y None = Ok v /\ ffinite F v = true
    /\ (val v == row_sum err (map val yhat) (map val y) / inject_Z (Z.of_nat (List.length y)))%Q.
Proof.
  intros T F val LO k err yhat y X XL Hp Hk Hyh Hy Hl Hne. destruct (kind_computes F val LO X XL k err Hp Hk) as (p & -> & Hc).
  cbn [lf_loss mean_of]. apply mean_plain; auto.
Qed.

(** With weights it is the weighted mean; weights summing to zero give loss zero. *)
Theorem C34_weighted_mean : forall (T : Type) (F : FloatOps T) (val : T -> Q) (LO : LossOps T) (k : loss_kind T) err yhat y w,
  ExactLaws F val -> ExactLoss F val LO -> params_finite F k -> kind_err val k = Some err ->
  finite_list F yhat -> finite_list F y -> finite_list F w -> List.length yhat = List.length y -> List.length w = List.length y ->
  exists v, lf_loss (make_loss F LO k) yhat y (Some w) = Ok v /\ ffinite F v = true
    /\ ((Qsum (map val w) == 0)%Q -> (val v == 0)%Q)
    /\ (~ (Qsum (map val w) == 0)%Q ->
        (val v == weighted_row_sum err (map val yhat) (map val y) (map val w) / Qsum (map val w))%Q).
Proof.
  intros T F val LO k err yhat y w X XL Hp Hk Hyh Hy Hw Hl Hl2. destruct (kind_computes F val LO X XL k err Hp Hk) as (p & -> & Hc).
  cbn [lf_loss mean_of]. apply mean_weighted; auto.
Qed.

(** RMSE is the square root of the MSE, whatever the arithmetic. *)
Theorem C34_rmse_is_root : forall (T : Type) (F : FloatOps T) (LO : LossOps T) yhat y w,
  lf_loss (make_loss F LO LRmse) yhat y w
  = match lf_loss (make_loss F LO LMse) yhat y w with Ok m => Ok (lo_sqrt LO m) | Panic => Panic | OutOfFuel => OutOfFuel end.
Proof. intros. cbn. unfold bind. reflexivity. Qed.

(** Weighting every row by the same positive number changes nothing. *)
Theorem C34_uniform_weights : forall (T : Type) (F : FloatOps T) (val : T -> Q) (LO : LossOps T) (k : loss_kind T) err yhat y c w,
  ExactLaws F val -> ExactLoss F val LO -> params_finite F k -> kind_err val k = Some err ->
  finite_list F yhat -> finite_list F y -> ffinite F c = true -> (0 < val c)%Q -> List.length yhat = List.length y -> y <> [] ->
  w = map (fun _ => c) y ->
  exists u v, lf_loss (make_loss F LO k) yhat y None = Ok u /\ lf_loss (make_loss F LO k) yhat y (Some w) = Ok v /\ (val u == val v)%Q.
Proof.
  intros T F val LO k err yhat y c w X XL Hp Hk Hyh Hy Hc Hpos Hl Hne ->.
  destruct (C34_plain_mean T F val LO k err yhat y X XL Hp Hk Hyh Hy Hl Hne) as (u & Eu & _ & Hu).
  destruct (C34_weighted_mean T F val LO k err yhat y (map (fun _ => c) y) X XL Hp Hk Hyh Hy) as (v & Ev & _ & _ & Hv); auto.
  { apply Forall_forall. intros x Hx. apply in_map_iff in Hx as (? & <- & _). auto. }
  { apply map_length. }
  exists u, v. split; auto. split; auto.
  assert (Hs : forall y' : list T, (Qsum (map val (map (fun _ => c) y')) == inject_Z (Z.of_nat (List.length y')) * val c)%Q).
  { induction y' as [|b y' IH]; cbn [map Qsum List.length]; [change (inject_Z (Z.of_nat 0)) with 0%Q; ring|]. rewrite IH, Nat2Z.inj_succ, <- Z.add_1_r, inject_Z_plus. change (inject_Z 1) with 1%Q. ring. }
  assert (Hr : forall y' yh', List.length yh' = List.length y' ->
     (weighted_row_sum err (map val yh') (map val y') (map val (map (fun _ => c) y')) == val c * row_sum err (map val yh') (map val y'))%Q).
  { induction y' as [|b y' IH]; intros [|a yh'] Hlen; try discriminate; cbn [map weighted_row_sum row_sum]; [lra|]. injection Hlen as Hlen. rewrite IH by auto. lra. }
  assert (Hn : (0 < inject_Z (Z.of_nat (List.length y)))%Q).
  { change 0%Q with (inject_Z 0). rewrite <- Zlt_Qlt. destruct y; [congruence|]. cbn. lia. }
  assert (Hnz : ~ (Qsum (map val (map (fun _ => c) y)) == 0)%Q).
  { rewrite Hs. intros H0. apply Qmult_integral in H0 as [H0|H0]; [rewrite H0 in Hn; apply (Qlt_irrefl _ Hn)|rewrite H0 in Hpos; apply (Qlt_irrefl _ Hpos)]. }
  rewrite Hu, (Hv Hnz), Hr by auto. rewrite Hs. field. split; intros H0; [rewrite H0 in Hpos; apply (Qlt_irrefl _ Hpos)|rewrite H0 in Hn; apply (Qlt_irrefl _ Hn)].
Qed.

(** Cost: loss over the baseline loss if that is used, known and at least 0.01, else over 0.01; plus the parsimony
    coefficient times the complexity. *)
Definition norm_denominator {T} (val : T -> Q) (use_baseline : bool) (baseline : option T) : Q :=
  match use_baseline, baseline with
  | true, Some b => if Qle_bool (1 # 100) (val b) then val b else (1 # 100)
  | _, _ => 1 # 100
  end%Q.
Theorem C34_cost : forall (T : Type) (F : FloatOps T) (val : T -> Q) (LO : LossOps T) loss complexity parsimony use_baseline baseline,
  ExactLaws F val -> ExactLoss F val LO -> ffinite F loss = true -> ffinite F parsimony = true ->
  (forall b, baseline = Some b -> ffinite F b = true) ->
  let c := loss_to_cost F LO loss complexity parsimony use_baseline baseline in
  ffinite F c = true
  /\ (val c == val loss / norm_denominator val use_baseline baseline + val parsimony * inject_Z (Z.of_nat complexity))%Q.
Proof.
  intros T F val LO loss cx par ub base X XL Hl Hp Hb. cbn zeta. unfold loss_to_cost.
  destruct (el_cent F val LO XL) as [Hc Ec]. destruct (el_nat F val LO XL cx) as [Hn En].
  destruct (ex_mul F val X _ _ Hp Hn) as [Hm Em].
  set (den := if ub then _ else _).
  assert (Hd : ffinite F den = true /\ (val den == norm_denominator val ub base)%Q /\ ~ (val den == 0)%Q).
  { subst den. unfold norm_denominator. destruct ub; [|rewrite Ec; repeat split; auto; discriminate].
    destruct base as [b|]; [|rewrite Ec; repeat split; auto; discriminate].
    specialize (Hb b eq_refl). rewrite Hb. cbn [andb]. rewrite (fge_bool F val X b _ Hb Hc).
    assert (Eb : Qle_bool (val (lo_cent LO)) (val b) = Qle_bool (1 # 100) (val b)).
    { apply bool_ext. rewrite !Qle_bool_iff, Ec. tauto. }
    rewrite Eb. destruct (Qle_bool (1 # 100) (val b)) eqn:El.
    - apply Qle_bool_iff in El. repeat split; auto; try reflexivity. lra.
    - rewrite Ec. repeat split; auto; discriminate. }
  destruct Hd as (Hd & Ed & Hd0). destruct (ex_div F val X _ _ Hl Hd Hd0) as [Hq Eq].
  destruct (ex_add F val X _ _ Hq Hm) as [Ha Ea]. split; auto. rewrite Ea, Eq, Em, En, Ed. reflexivity.
Qed.

(** So for a given dataset the cost orders members of equal complexity by loss, and among members of equal loss the
    simpler one is cheaper. *)
Theorem C34_cost_monotone : forall (T : Type) (F : FloatOps T) (val : T -> Q) (LO : LossOps T) l1 l2 c1 c2 parsimony use_baseline baseline,
  ExactLaws F val -> ExactLoss F val LO -> ffinite F l1 = true -> ffinite F l2 = true -> ffinite F parsimony = true ->
  (forall b, baseline = Some b -> ffinite F b = true) -> (0 <= val parsimony)%Q ->
  let cost l c := val (loss_to_cost F LO l c parsimony use_baseline baseline) in
  ((val l1 < val l2)%Q -> (cost l1 c1 < cost l2 c1)%Q)
  /\ (c1 <= c2 -> (cost l1 c1 <= cost l1 c2)%Q)
  /\ ((val l1 <= val l2)%Q -> c1 <= c2 -> (cost l1 c1 <= cost l2 c2)%Q).
Proof.
  intros T F val LO l1 l2 c1 c2 par ub base X XL H1 H2 Hp Hb Hpos. cbn zeta.
  assert (Hden : (0 < norm_denominator val ub base)%Q).
  { unfold norm_denominator. destruct ub, base as [b|]; try reflexivity. destruct (Qle_bool (1 # 100) (val b)) eqn:E; [|reflexivity].
    apply Qle_bool_iff in E. lra. }
  assert (E : forall l c, ffinite F l = true ->
    (val (loss_to_cost F LO l c par ub base) == val l / norm_denominator val ub base + val par * inject_Z (Z.of_nat c))%Q).
  { intros l c Hl. apply (C34_cost T F val LO l c par ub base X XL Hl Hp Hb). }
  assert (Hcc : c1 <= c2 -> (val par * inject_Z (Z.of_nat c1) <= val par * inject_Z (Z.of_nat c2))%Q).
  { intros Hc. rewrite (Qmult_comm (val par) (inject_Z (Z.of_nat c1))), (Qmult_comm (val par) (inject_Z (Z.of_nat c2))).
    apply Qmult_le_compat_r; auto. rewrite <- Zle_Qle. lia. }
  assert (Hinv : (0 < / norm_denominator val ub base)%Q) by (apply Qinv_lt_0_compat; auto).
  split; [|split].
  - intros Hlt. rewrite !E by auto. apply Qplus_lt_le_compat; [|lra]. unfold Qdiv. apply Qmult_lt_compat_r; auto.
  - intros Hc. rewrite !E by auto. specialize (Hcc Hc). lra.
  - intros Hle Hc. rewrite !E by auto. specialize (Hcc Hc). apply Qplus_le_compat; auto.
    unfold Qdiv. apply Qmult_le_compat_r; auto. lra.
Qed.

(** ** Evaluating a member *)
(** The member's plan was compiled from its expression for this many features. *)
Definition plan_fresh {T} (C : eval_cfg T) (n_features : nat) (m : member T) : Prop :=
  compile_plan (ec_hash C) (ec_D C) (nodes (m_expr m)) n_features (List.length (consts (m_expr m))) = Ok (m_plan m).

Definition ev_ready {T} (d : dataset T) (ev : evaluator T) : Prop :=
  List.length (ev_yhat ev) = ds_n_rows d /\ mat_ok (ev_scratch ev).

(** Every operator application is finite on every row, and so is a lone constant. *)
Definition completes {T} (C : eval_cfg T) (d : dataset T) (e : expr T) (t : tree) : Prop :=
  (forall r, r < ds_n_rows d -> finite_at (ec_F C) (ec_O C) e (ds_x d) t r = true)
  /\ (forall i, t = TConst i -> ffinite (ec_F C) (const_at (ec_F C) e i) = true).
(** The predictions: the value of the expression at each row. *)
Definition predictions {T} (C : eval_cfg T) (d : dataset T) (e : expr T) (t : tree) : list T :=
  map (value_at (ec_F C) (ec_O C) e (ds_x d) t) (seq 0 (ds_n_rows d)).

Section Evaluate.
Context {T : Type} (C : eval_cfg T).
Let F := ec_F C.

Lemma plan_eval (e : expr T) (p : plan) (d : dataset T) (t : tree) out sc :
  dataset_ok d -> ok_tree (ec_O C) (ec_D C) e (ds_x d) t -> fits_u16 e (ds_x d) t -> 1 <= ds_n_rows d ->
  compile_plan (ec_hash C) (ec_D C) (nodes e) (ds_n_features d) (List.length (consts e)) = Ok p ->
  List.length out = ds_n_rows d -> mat_ok sc ->
  exists sc' out' b, eval_plan_array_into F (ec_O C) out p e (ds_x d) sc ev_opts = Ok (sc', out', b)
    /\ mat_ok sc' /\ List.length out' = ds_n_rows d
    /\ (b = true <-> completes C d e t) /\ (b = true -> out' = predictions C d e t).
Proof.
  intros (D1 & D2 & D3 & D4 & D5) Hok Hf Hn Hp Ho Hs. pose proof Hok as [Hr Htok]. pose proof Hf as (Hf1 & Hf2 & Hf3).
  pose proof (need_le_ops t) as Hneed. unfold represents in Hr.
  destruct (compile_plan_spec (ec_D C) (m_nrows (ds_x d)) (List.length (consts e)) (oknown (ec_O C)) (ec_hash C) t Htok Hf1 Hf2 ltac:(lia)) as (is & s & E & HC).
  rewrite Hr, <- D1, E in Hp. injection Hp as <-.
  destruct (eval_plan_spec F (ec_O C) (ec_D C) out e (ds_x d) t ev_opts is s (ec_hash C (flatten t)) sc Hok D3) as (sc' & Ev & _ & _ & Hsc); auto; try congruence.
  exists sc', (fst (expected F (ec_O C) out e (ds_x d) t ev_opts)), (snd (expected F (ec_O C) out e (ds_x d) t ev_opts)).
  split; [exact Ev|]. split; auto.
  assert (Hfin : all_fin F (ec_O C) e (ds_x d) t = true <-> completes C d e t).
  { unfold all_fin, completes. rewrite andb_true_iff, (colfin_rows F (ec_O C) e (ds_x d) t) by (rewrite D2; auto). rewrite D2.
    assert (Hroot : root_fin F e t = true <-> forall i, t = TConst i -> ffinite (ec_F C) (const_at (ec_F C) e i) = true).
    { unfold root_fin. destruct t as [f|i|op ts]; split; auto; try discriminate.
      intros H j [= <-]. exact H. }
    rewrite Hroot. tauto. }
  unfold expected, kstop, kflag. cbn [ev_opts check_finite early_exit].
  destruct (all_fin F (ec_O C) e (ds_x d) t) eqn:Ea; cbn [andb negb fst snd orb].
  - split; [rewrite tab_length; auto|]. split; [tauto|]. intros _. unfold tab, predictions. rewrite D2. reflexivity.
  - split; auto. split; [|discriminate]. rewrite <- Hfin. tauto.
Qed.

Lemma evaluate_spec (m : member T) (d : dataset T) baseline ev t nf known :
  dataset_ok d -> ok_tree (ec_O C) (ec_D C) (m_expr m) (ds_x d) t -> fits_u16 (m_expr m) (ds_x d) t -> 1 <= ds_n_rows d ->
  plan_fresh C (ds_n_features d) m -> ev_ready d ev ->
  widths (ec_umax C) (ec_D C) (ec_size C) -> expr_ok (ec_D C) nf known (m_expr m) -> tsize t <= ec_umax C ->
  let c := Nat.min (ec_umax C) (cost (ec_size C) t) in
  let failed := set_eval m c (finf F) (finf F) in
  (exists ev', ev_ready d ev' /\
    ((~ completes C d (m_expr m) t /\ evaluate C m d baseline ev = Ok (failed, ev', false))
     \/ (completes C d (m_expr m) t /\
         match lf_loss (ec_loss C) (predictions C d (m_expr m) t) (ds_y d) (ds_weights d) with
         | Ok loss =>
             if ffinite F loss
             then evaluate C m d baseline ev
                  = Ok (set_eval m c loss (loss_to_cost F (ec_LO C) loss c (ec_parsimony C) (ec_use_baseline C) baseline), ev', true)
             else evaluate C m d baseline ev = Ok (failed, ev', false)
         | Panic => evaluate C m d baseline ev = Panic
         | OutOfFuel => evaluate C m d baseline ev = OutOfFuel
         end))).
Proof.
  intros Hd Hok Hf Hn Hp [Hev Hsc] Hw Hex Hsz. cbn zeta.
  destruct (plan_eval (m_expr m) (m_plan m) d t (ev_yhat ev) (ev_scratch ev) Hd Hok Hf Hn Hp Hev Hsc) as (sc' & out' & b & E & Hsc' & Hl & Hb & Hout).
  pose proof Hok as [Hr _]. unfold represents in Hr.
  assert (Ec : compute_complexity (ec_umax C) (ec_D C) (ec_size C) (nodes (m_expr m)) = Ok (Nat.min (ec_umax C) (cost (ec_size C) t))).
  { rewrite (C22_complexity_is_node_cost_sum T (ec_umax C) (ec_D C) nf known (ec_size C) (m_expr m) Hw Hex) by (rewrite Hr, flatten_length; auto).
    rewrite Hr, cost_nodes. reflexivity. }
  exists (mkEvalr out' sc'). split; [split; auto|]. unfold evaluate. fold F. rewrite E. cbn [bind]. rewrite Ec. cbn [bind].
  destruct b; cbn [negb].
  - right. split; [tauto|]. rewrite (Hout eq_refl).
    destruct (lf_loss (ec_loss C) (predictions C d (m_expr m) t) (ds_y d) (ds_weights d)) as [loss| |]; cbn [bind]; auto.
    destruct (ffinite F loss); reflexivity.
  - left. split; [|reflexivity]. intros H. apply Hb in H. discriminate.
Qed.
End Evaluate.

(** Evaluation succeeds exactly when every operation is finite on every row and so is the loss of the predictions.
    It then stores that loss, the node-cost complexity and the cost of both; otherwise loss and cost are infinite. Nothing
    else of the member changes, and no stale content of the evaluator matters. *)
Theorem C34_evaluate : forall (T : Type) (C : eval_cfg T) (m : member T) (d : dataset T) baseline ev t loss,
  dataset_ok d -> ok_tree (ec_O C) (ec_D C) (m_expr m) (ds_x d) t -> fits_u16 (m_expr m) (ds_x d) t -> 1 <= ds_n_rows d ->
  plan_fresh C (ds_n_features d) m -> ev_ready d ev -> widths (ec_umax C) (ec_D C) (ec_size C) -> tsize t <= ec_umax C ->
  lf_loss (ec_loss C) (predictions C d (m_expr m) t) (ds_y d) (ds_weights d) = Ok loss ->
  exists m' ev' success, evaluate C m d baseline ev = Ok (m', ev', success)
    /\ (success = true <-> completes C d (m_expr m) t /\ ffinite (ec_F C) loss = true)
    /\ m_id m' = m_id m /\ m_parent m' = m_parent m /\ m_birth m' = m_birth m /\ m_expr m' = m_expr m /\ m_plan m' = m_plan m
    /\ m_complexity m' = Nat.min (ec_umax C) (cost (ec_size C) t)
    /\ (success = true -> m_loss m' = loss
          /\ m_cost m' = loss_to_cost (ec_F C) (ec_LO C) loss (m_complexity m') (ec_parsimony C) (ec_use_baseline C) baseline)
    /\ (success = false -> m_loss m' = finf (ec_F C) /\ m_cost m' = finf (ec_F C))
    /\ ev_ready d ev'.
Proof.
  intros T C m d baseline ev t loss Hd Hok Hf Hn Hp Hev Hw Hsz El.
  pose proof Hok as [Hr Htok].
  assert (Hex : expr_ok (ec_D C) (m_nrows (ds_x d)) (oknown (ec_O C)) (m_expr m)) by (exists t; auto).
  destruct (evaluate_spec C m d baseline ev t _ _ Hd Hok Hf Hn Hp Hev Hw Hex Hsz) as (ev' & Hev' & [[Hc E]|[Hc E]]).
  - do 3 eexists. split; [exact E|]. cbn. split; [split; [discriminate|tauto]|]. do 6 (split; [reflexivity|]). split; [discriminate|]. auto.
  - rewrite El in E. destruct (ffinite (ec_F C) loss) eqn:Ef.
    + do 3 eexists. split; [exact E|]. cbn. split; [tauto|]. do 6 (split; [reflexivity|]). split; [auto|]. split; [discriminate|auto].
    + do 3 eexists. split; [exact E|]. cbn. split; [split; [discriminate|intros [_ H]; discriminate]|]. do 6 (split; [reflexivity|]). split; [discriminate|]. auto.
Qed.

(** The baseline is the loss of predicting zero everywhere, if finite. *)
Theorem C34_baseline : forall (T : Type) (C : eval_cfg T) (d : dataset T) loss,
  dataset_ok d -> 1 <= ds_n_rows d -> ds_n_features d <= u16_max -> 1 <= ec_D C -> ffinite (ec_F C) (fzero (ec_F C)) = true ->
  lf_loss (ec_loss C) (map (fun _ => fzero (ec_F C)) (seq 0 (ds_n_rows d))) (ds_y d) (ds_weights d) = Ok loss ->
  baseline_loss C d = Ok (if ffinite (ec_F C) loss then Some loss else None).
Proof.
  intros T C d loss Hd Hn Hnf HD Hz El. unfold baseline_loss.
  assert (Hok : ok_tree (ec_O C) (ec_D C) (zero_expr (ec_F C)) (ds_x d) (TConst 0)).
  { split; [reflexivity|]. cbn. lia. }
  pose proof Hd as (D1 & D2 & D3 & D4 & D5). assert (u16_max >= 1) by (unfold u16_max; lia).
  assert (Hf : fits_u16 (zero_expr (ec_F C)) (ds_x d) (TConst 0)) by (unfold fits_u16; rewrite D1; cbn; lia).
  destruct (compile_plan_spec (ec_D C) (ds_n_features d) 1 (oknown (ec_O C)) (ec_hash C) (TConst 0)) as (is & s & E & HC); auto; try (cbn; lia).
  change (flatten (TConst 0)) with (nodes (zero_expr (ec_F C))) in E.
  change 1 with (List.length (consts (zero_expr (ec_F C)))) in E. rewrite E. cbn [bind].
  destruct (plan_eval C (zero_expr (ec_F C)) _ d (TConst 0) (fill (ds_n_rows d) (fzero (ec_F C))) (zeros (ec_F C) 0 0) Hd Hok Hf Hn E) as (sc' & out' & b & Ev & _ & _ & Hb & Ho).
  { apply fill_length. } { reflexivity. }
  unfold ev_opts in Ev. rewrite Ev. cbn [bind].
  assert (Hb1 : b = true).
  { apply Hb. split; [reflexivity|]. intros i [= <-]. exact Hz. }
  rewrite Hb1. cbn [negb]. rewrite (Ho Hb1). unfold predictions, value_at. cbn [teval]. unfold const_at. cbn [zero_expr consts nth].
  rewrite El. reflexivity.
Qed.

(** The stored average of the target is its weighted mean (its mean without weights), and 0 without rows. With weights that sum to 0 it is a division by zero. *)
Theorem C34_average : forall (T : Type) (F : FloatOps T) (val : T -> Q) (LO : LossOps T) (x : matrix T) y w d,
  ExactLaws F val -> ExactLoss F val LO -> finite_list F y -> (forall v, w = Some v -> finite_list F v /\ ~ (Qsum (map val v) == 0)%Q) ->
  build_dataset F (lo_of_nat LO) x y w None = Ok d ->
  ds_y d = y /\ ds_weights d = w /\ ffinite F (ds_avg_y d) = true
  /\ (y = [] -> (val (ds_avg_y d) == 0)%Q)
  /\ (y <> [] -> w = None -> (val (ds_avg_y d) == Qsum (map val y) / inject_Z (Z.of_nat (List.length y)))%Q)
  /\ (forall v, y <> [] -> w = Some v -> (val (ds_avg_y d) == Qsum (map (fun q => val (snd q) * val (fst q)) (combine y v)) / Qsum (map val v))%Q).
Proof.
  intros T F val LO x y w d X XL Hy Hw H. unfold build_dataset in H. apply bind_ok in H as (u1 & _ & H). apply bind_ok in H as (u2 & _ & H). apply bind_ok in H as (a & Ha & H).
  injection H as <-. cbn [ds_y ds_weights ds_avg_y]. split; [reflexivity|]. split; [reflexivity|]. unfold compute_avg_y in Ha. destruct (ex_zero F val X) as [Hz Ez].
  destruct y as [|y0 y1] eqn:Ey; [injection Ha as <-; split; [exact Hz|]; split; [intros _; exact Ez|]; split; [congruence|]; intros; congruence|]. rewrite <- Ey in *. assert (Hne : y <> []) by (rewrite Ey; discriminate).
  destruct w as [v|].
  - destruct (Hw v eq_refl) as [Hv Hn]. apply bind_ok in Ha as (z & Ez1 & Ha). unfold zip_eq in Ez1. destruct (Nat.eqb_spec (List.length y) (List.length v)) as [El|]; [|discriminate]. injection Ez1 as <-. injection Ha as <-.
    destruct (fsum_exact F val X v Hv) as [Hs Es].
    assert (G : forall y v, finite_list F y -> finite_list F v -> finite_list F (map (fun p => fmul F (fst p) (snd p)) (combine y v))
                /\ (Qsum (map val (map (fun p => fmul F (fst p) (snd p)) (combine y v))) == Qsum (map (fun q => val (snd q) * val (fst q)) (combine y v)))%Q).
    { clear - X. induction y as [|b y IH]; intros [|c v] H1 H2; try (split; [constructor|reflexivity]). apply Forall_cons_iff in H1 as [Hb H1]. apply Forall_cons_iff in H2 as [Hc H2].
      destruct (IH v H1 H2) as [I1 I2]. destruct (ex_mul F val X b c Hb Hc) as [M1 M2]. cbn [combine map fst snd Qsum]. split; [constructor; auto|]. rewrite I2, M2. ring. }
    destruct (G y v Hy Hv) as [G1 G2]. destruct (fsum_exact F val X _ G1) as [H1 H2].
    assert (Hn' : ~ (val (fsum F v) == 0)%Q) by (rewrite Es; exact Hn). destruct (ex_div F val X _ _ H1 Hs Hn') as [D1 D2].
    split; [exact D1|]. split; [congruence|]. split; [congruence|]. intros v' _ [= <-]. rewrite D2, H2, G2, Es. reflexivity.
  - injection Ha as <-. destruct (fsum_exact F val X y Hy) as [H1 H2]. destruct (el_nat F val LO XL (List.length y)) as [Hl El].
    assert (Hn' : ~ (val (lo_of_nat LO (List.length y)) == 0)%Q) by (rewrite El, Ey; cbn; unfold Qeq; cbn; lia). destruct (ex_div F val X _ _ H1 Hl Hn') as [D1 D2].
    split; [exact D1|]. split; [congruence|]. split; [|congruence]. intros _ _. rewrite D2, H2, El. reflexivity.
Qed.

(** ** A case: exact rationals, weighted squared error, and one evaluation *)
Definition xq_loss_ops : LossOps xq :=
  mkLossOps (fun x => if xlt x (XF 0) then xneg x else x) (fun x => x) (fun x => x) (fun x => x) (fun x => x) (fun x _ => x)
    (fun n => XF (inject_Z (Z.of_nat n))) (XF 2) (XF (1 # 2)) (XF (1 # 100)).
Lemma xq_exact_loss : ExactLoss xqops xval xq_loss_ops.
Proof.
  split; cbn [lo_abs lo_of_nat lo_two lo_half lo_cent xq_loss_ops xqops ffinite].
  - intros [a| |] H; try discriminate. cbn [xlt]. destruct (Qle_bool 0 a) eqn:E; cbn [negb xneg xfin xval]; split; auto.
    + apply Qle_bool_iff in E. rewrite Qabs_pos; auto. reflexivity.
    + rewrite Qabs_neg; [reflexivity|]. apply Qlt_le_weak, Qnot_le_lt. rewrite <- Qle_bool_iff. congruence.
  - intros n. split; reflexivity.
  - split; reflexivity.
  - split; reflexivity.
  - split; reflexivity.
Qed.

Definition demo_cfg (k : loss_kind xq) : eval_cfg xq :=
  mkEvalCfg xqops xq_loss_ops (rational_ops xqops) hash0 (u16_max + 1) 2
    (mkSizeOpts 1 1 None [] 10 [] []) (make_loss xqops xq_loss_ops k) (XF (1 # 10)) true.
(** One feature with rows 1, 2, 3; targets 2, 4, 7; weights 1, 1, 2. *)
Definition demo_data : dataset xq :=
  mkData (mkMat [XF 1; XF 2; XF 3] 1 3) [XF 2; XF 4; XF 7] 1 3 (Some [XF 1; XF 1; XF 2]) (XF 0).
(** x0 + x0 *)
Definition demo_double : tree := TOp 0 [TVar 0; TVar 0].
Definition demo_expr : expr xq := mkExpr [Var 0; Var 0; Op 2 0] [] [].
Example C34_case :
  exists p, let m := mkMember 0 None 0 demo_expr p 0 (XInf false) (XInf false) in
  dataset_ok demo_data /\ ok_tree (rational_ops xqops) 2 demo_expr (ds_x demo_data) demo_double
  /\ fits_u16 demo_expr (ds_x demo_data) demo_double
  /\ plan_fresh (demo_cfg LMse) 1 m /\ ev_ready demo_data (evaluator_new xqops 3)
  /\ widths (u16_max + 1) 2 (ec_size (demo_cfg LMse))
  /\ (exists l, lf_loss (make_loss xqops xq_loss_ops LMse) (predictions (demo_cfg LMse) demo_data demo_expr demo_double) (ds_y demo_data) (ds_weights demo_data) = Ok l /\ (xval l == 1 # 2)%Q)
  /\ (exists l, baseline_loss (demo_cfg LMse) demo_data = Ok (Some l) /\ (xval l == 59 # 2)%Q)
  /\ exists ev' l c, evaluate (demo_cfg LMse) m demo_data (Some (XF (59 # 2))) (evaluator_new xqops 3)
       = Ok (mkMember 0 None 0 demo_expr p 3 l c, ev', true)
       /\ (xval l == 1 # 2)%Q /\ (xval c == (1 # 2) / (59 # 2) + (1 # 10) * 3)%Q.
Proof.
  eexists. cbn zeta.
  split; [split; [|split; [|split; [|split]]]; try reflexivity; intros w [= <-]; reflexivity|].
  split; [split; [reflexivity|cbn; auto with arith]|].
  split; [unfold fits_u16; cbn; unfold u16_max; lia|].
  split; [vm_compute; reflexivity|].
  split; [split; reflexivity|].
  split; [constructor; cbn; try (unfold u16_max; lia); try discriminate|].
  split; [eexists; split; [vm_compute; reflexivity|reflexivity]|].
  split; [eexists; split; [vm_compute; reflexivity|reflexivity]|].
  do 3 eexists. split; [vm_compute; reflexivity|]. split; reflexivity.
Qed.

Example C34_average_case : exists d, build_dataset xqops (lo_of_nat xq_loss_ops) (mkMat [XF 1; XF 2; XF 3] 1 3) [XF 2; XF 4; XF 7] (Some [XF 1; XF 1; XF 2]) None = Ok d /\ (xval (ds_avg_y d) == 5)%Q.
Proof. eexists. split; [vm_compute; reflexivity|reflexivity]. Qed.

Print Assumptions C34_average.
Print Assumptions C34_evaluate.
Print Assumptions C34_weighted_mean.
Print Assumptions C34_cost_monotone.
