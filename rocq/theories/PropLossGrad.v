(** Property C53: over the real numbers, the gradient of a loss is its gradient; C54: and so is the gradient the constant optimizer works with. *)
From Coq Require Import Reals Lra.
From Coquelicot Require Import Coquelicot.
From Verif Require Import Base BaseLemmas Node Tree NodeProofs Compile Eval EvalTop Deriv DerivSpec DerivTop DerivReach PropEval Member Dataset Loss Builtin RealOps PropReal PropGradient Instances Optim ConstOpt PropDataset PropLoss PropConstOpt.
Local Open Scope R_scope.

(** ** Specification *)

(** Where a loss is differentiable, for one prediction [a] of the target [b]. *)
Definition smooth_point (k : loss_kind R) (a b : R) : Prop :=
  match k with
  | LMse | LRmse | LLogCosh => True
  | LMae | LQuantile _ => a <> b
  | LHuber delta => 0 < delta \/ a <> b
  | LLp p => a <> b \/ 1 < p
  | LEps eps => Rabs (a - b) <> eps /\ (0 < eps \/ a <> b)
  end.
(** The loss of a list of predictions as a number. *)
Definition loss_value (k : loss_kind R) (y : list R) (w : option (list R)) (yhat : list R) : R :=
  match lf_loss (make_loss rops rloss k) yhat y w with Ok l => l | _ => 0 end.
(** The root of the mean square has no gradient at 0. *)
Definition smooth_loss (k : loss_kind R) (y : list R) (w : option (list R)) (yhat : list R) : Prop :=
  (forall i a b, nth_error yhat i = Some a -> nth_error y i = Some b -> smooth_point k a b)
  /\ (k = LRmse -> 0 < loss_value LMse y w yhat).
Fixpoint inner (a b : list R) : R := match a, b with x :: a, y :: b => x * y + inner a b | _, _ => 0 end.
(** The point on a bundle of curves at time [u]. *)
Definition at_time (cs : list (R -> R)) (u : R) : list R := map (fun c => c u) cs.

(** ** Points *)
Definition point_of (k : loss_kind R) : pointloss R :=
  match k with
  | LMse | LRmse => squared_loss rops rloss | LMae => abs_loss rops rloss | LHuber d => huber_loss rops rloss d | LLogCosh => log_cosh_loss rops rloss
  | LLp p => lp_loss rops rloss p | LQuantile t => quantile_loss rops rloss t | LEps e => eps_loss rops rloss e
  end.
Lemma lim_to (f : R -> R) s l l' : derivable_pt_lim f s l -> l = l' -> derivable_pt_lim f s l'.
Proof. intros H <-. exact H. Qed.
(** A function within a parabola of a differentiable one. *)
Lemma lim_close (f g : R -> R) s l C : derivable_pt_lim g s l -> f s = g s -> 0 <= C -> (forall u, Rabs (f u - g u) <= C * ((u - s) * (u - s))) -> derivable_pt_lim f s l.
Proof.
  intros Hg Hs HC Hc eps He. destruct (Hg (eps / 2)) as (d & Hd); [lra|]. assert (Hm : 0 < Rmin d (eps / (2 * (C + 1)))).
  { apply Rmin_glb_lt; [apply cond_pos|]. apply Rdiv_lt_0_compat; lra. }
  exists (mkposreal _ Hm). cbn. intros h Hh0 Hh. pose proof (Rmin_l d (eps / (2 * (C + 1)))). pose proof (Rmin_r d (eps / (2 * (C + 1)))).
  specialize (Hd h Hh0 ltac:(lra)). rewrite Hs. replace ((f (s + h) - g s) / h - l) with (((g (s + h) - g s) / h - l) + (f (s + h) - g (s + h)) / h) by (field; auto).
  eapply Rle_lt_trans; [apply Rabs_triang|]. assert (Hq : Rabs ((f (s + h) - g (s + h)) / h) < eps / 2); [|lra].
  unfold Rdiv. rewrite Rabs_mult, Rabs_inv. specialize (Hc (s + h)). replace (s + h - s) with h in Hc by ring. assert (Ha : 0 < Rabs h) by (apply Rabs_pos_lt; auto).
  assert (Hsq : h * h = Rabs h * Rabs h) by (rewrite <- Rabs_mult; symmetry; apply Rabs_pos_eq; nra). rewrite Hsq in Hc.
  apply Rle_lt_trans with (C * Rabs h).
  - apply Rmult_le_reg_r with (Rabs h); auto. rewrite Rmult_assoc, Rinv_l by lra. lra.
  - apply Rle_lt_trans with (C * (eps / (2 * (C + 1)))); [apply Rmult_le_compat_l; lra|]. apply Rmult_lt_reg_r with (2 * (C + 1)); [lra|]. field_simplify; [|lra]. nra.
Qed.

Lemma abs_shift a b : a <> b -> derivable_pt_lim (fun x => Rabs (x - b)) a (if rltb 0 (a - b) then 1 else if rltb (a - b) 0 then - 1 else 0).
Proof.
  intros H. eapply lim_to; [apply (derivable_pt_lim_comp (fun x => x - b) Rabs a 1); [apply is_derive_Reals; auto_derive; auto; ring|apply (abs_lim (a - b)); lra]|].
  unfold fgtb. cbn [fltb rops]. ring.
Qed.
Lemma abs_diff a b c : Rabs (Rabs (a - c) - Rabs (b - c)) <= Rabs (a - b).
Proof. replace (a - b) with ((a - c) - (b - c)) by ring. apply Rabs_triang_inv2. Qed.
Lemma sq_abs x : Rabs x * Rabs x = x * x.
Proof. rewrite <- Rabs_mult. apply Rabs_pos_eq. nra. Qed.
Ltac rdec := repeat match goal with
  | |- context [rltb ?a ?b] => let E := fresh "E" in destruct (rltb a b) eqn:E; [apply rltb_iff in E|apply rltb_false in E]
  | |- context [reqb ?a ?b] => let E := fresh "E" in destruct (reqb a b) eqn:E; [apply reqb_iff in E|assert (a <> b) by (intros ?; assert (reqb a b = true) by (apply reqb_iff; auto); congruence)]
  end.
(** Near [a], the distance to [b] stays on its side of [c]. *)
Lemma dist_lim a b : a <> b -> exists l, derivable_pt_lim (fun x => Rabs (x - b)) a l.
Proof. intros H. eexists. apply abs_shift. auto. Qed.
Lemma dist_near a b (P : R -> Prop) : (exists d : posreal, forall v, Rabs (v - Rabs (a - b)) < d -> P v) -> exists d : posreal, forall u, Rabs (u - a) < d -> P (Rabs (u - b)).
Proof. intros (d & Hd). exists d. intros u Hu. apply Hd. eapply Rle_lt_trans; [apply abs_diff|exact Hu]. Qed.
Lemma id_near a (P : R -> Prop) : (exists d : posreal, forall v, Rabs (v - a) < d -> P v) -> exists d : posreal, forall u, Rabs (u - a) < d -> P u.
Proof. auto. Qed.

Lemma huber_lim delta a b : 0 < delta \/ a <> b -> derivable_pt_lim (fun x => pl_loss (huber_loss rops rloss delta) x b) a (pl_dloss (huber_loss rops rloss delta) a b).
Proof.
  intros H. cbn [huber_loss pl_loss pl_dloss]. unfold fgtb, fleb. cbn [rops rloss fsub fmul fneg fzero fltb feqb lo_abs lo_half].
  destruct (Rle_dec (Rabs (a - b)) delta) as [Hle|Hgt].
  - assert (Hb : rltb (Rabs (a - b)) delta || reqb (Rabs (a - b)) delta = true) by (apply orb_true_iff; rewrite rltb_iff, reqb_iff; lra). rewrite Hb.
    apply (lim_close _ (fun x => 1 / 2 * (x - b) * (x - b)) a (a - b) (1 / 2)); [apply is_derive_Reals; auto_derive; auto; field|rewrite Hb; reflexivity|lra|].
    intros u. destruct (rltb (Rabs (u - b)) delta || reqb (Rabs (u - b)) delta) eqn:E; [unfold Rminus at 1; rewrite Rplus_opp_r, Rabs_R0; pose proof (Rle_0_sqr (u - a)) as Hsq; unfold Rsqr in Hsq; lra|]. apply orb_false_iff in E as [E _]. apply rltb_false in E.
    pose proof (abs_diff u a b) as Hd. pose proof (sq_abs (u - b)) as Hq. pose proof (sq_abs (u - a)) as Hq2. pose proof (Rabs_pos (u - a)) as Hp.
    replace (delta * (Rabs (u - b) - 1 / 2 * delta) - 1 / 2 * (u - b) * (u - b)) with (- (1 / 2 * ((Rabs (u - b) - delta) * (Rabs (u - b) - delta)))) by (replace (1 / 2 * (u - b) * (u - b)) with (1 / 2 * (Rabs (u - b) * Rabs (u - b))) by (rewrite sq_abs; ring); field).
    rewrite Rabs_Ropp, Rabs_pos_eq by nra. apply Rabs_le_between in Hd. nra.
  - assert (Hgt' : delta < Rabs (a - b)) by lra. assert (Hne : a <> b) by (destruct H; auto; intros ->; rewrite Rminus_diag_eq, Rabs_R0 in Hgt' by reflexivity; lra).
    apply (near_ext (fun x => delta < Rabs (x - b)) (fun x => delta * (Rabs (x - b) - 1 / 2 * delta))).
    + apply (dist_near a b (fun v => delta < v)). apply above; auto.
    + intros u Hu. destruct (rltb (Rabs (u - b)) delta || reqb (Rabs (u - b)) delta) eqn:E; auto. apply orb_true_iff in E. rewrite rltb_iff, reqb_iff in E. lra.
    + assert (Hb : rltb (Rabs (a - b)) delta || reqb (Rabs (a - b)) delta = false) by (destruct (rltb (Rabs (a - b)) delta || reqb (Rabs (a - b)) delta) eqn:E; auto; apply orb_true_iff in E; rewrite rltb_iff, reqb_iff in E; lra). rewrite Hb.
      eapply lim_to; [apply (derivable_pt_lim_mult (fun _ => delta) (fun x => Rabs (x - b) - 1 / 2 * delta)); [apply derivable_pt_lim_const|
        apply (derivable_pt_lim_minus (fun x => Rabs (x - b)) (fun _ => 1 / 2 * delta)); [apply abs_shift; auto|apply derivable_pt_lim_const]]|].
      cbv beta. rdec; ring.
Qed.
Lemma power_lim (f : R -> R) s l p : derivable_pt_lim f s l -> 0 < f s -> derivable_pt_lim (fun u => Rpower (f u) p) s (p * Rpower (f s) (p - 1) * l).
Proof. intros Hf Hp. apply (derivable_pt_lim_comp f (fun x => Rpower x p)); auto. apply derivable_pt_lim_power. auto. Qed.
Lemma lp_lim p a b : a <> b \/ 1 < p -> derivable_pt_lim (fun x => pl_loss (lp_loss rops rloss p) x b) a (pl_dloss (lp_loss rops rloss p) a b).
Proof.
  intros H. cbn [lp_loss pl_loss pl_dloss]. unfold fgtb. cbn [rops rloss fsub fmul fneg fzero fone fltb feqb lo_abs lo_powf]. destruct (Req_dec a b) as [->|Hne].
  - assert (Hp : 1 < p) by (destruct H; [contradiction|auto]). rewrite (proj2 (reqb_iff (b - b) 0)) by ring. intros eps He.
    assert (Hd : 0 < Rpower eps (/ (p - 1))) by apply exp_pos. exists (mkposreal _ Hd). cbn. intros h Hh0 Hh. replace (b - b) with 0 by ring. rewrite Rabs_R0. destruct (Rlt_dec 0 0); [lra|].
    replace (b + h - b) with h by ring. assert (Ha : 0 < Rabs h) by (apply Rabs_pos_lt; auto). destruct (Rlt_dec 0 (Rabs h)); [|lra].
    rewrite Rminus_0_r. replace ((Rpower (Rabs h) p - 0) / h) with (Rpower (Rabs h) p / h) by (field; auto). unfold Rdiv. rewrite Rabs_mult, Rabs_inv.
    rewrite (Rabs_pos_eq (Rpower (Rabs h) p)) by (left; apply exp_pos). replace p with ((p - 1) + 1) by ring. rewrite Rpower_plus, Rpower_1 by auto.
    rewrite Rmult_assoc, Rinv_r, Rmult_1_r by lra. apply Rlt_le_trans with (Rpower (Rpower eps (/ (p - 1))) (p - 1)); [apply Rlt_Rpower_l; lra|].
    rewrite Rpower_mult, Rinv_l, Rpower_1 by lra. lra.
  - assert (Ha : 0 < Rabs (a - b)) by (apply Rabs_pos_lt; lra). apply (near_ext (fun x => 0 < Rabs (x - b)) (fun x => Rpower (Rabs (x - b)) p)).
    + apply (dist_near a b (fun v => 0 < v)). apply above; auto.
    + intros u Hu. destruct (Rlt_dec 0 (Rabs (u - b))); [auto|lra].
    + eapply lim_to; [apply (power_lim (fun x => Rabs (x - b))); [apply abs_shift; auto|auto]|]. destruct (Rlt_dec 0 (Rabs (a - b))); [|lra]. rdec; try lra; ring.
Qed.
Lemma quantile_lim tau a b : a <> b -> derivable_pt_lim (fun x => pl_loss (quantile_loss rops rloss tau) x b) a (pl_dloss (quantile_loss rops rloss tau) a b).
Proof.
  intros H. cbn [quantile_loss pl_loss pl_dloss]. unfold fgtb, fgeb. cbn [rops rloss fsub fmul fneg fzero fone fltb feqb]. destruct (Rlt_dec a b) as [Hl|Hl].
  - apply (near_ext (fun x => x < b) (fun x => tau * (b - x))); [apply below; auto| |].
    + intros u Hu. rdec; cbn [orb]; auto; lra.
    + apply is_derive_Reals. auto_derive; auto. rdec; lra.
  - apply (near_ext (fun x => b < x) (fun x => (tau - 1) * (b - x))); [apply above; lra| |].
    + intros u Hu. rdec; cbn [orb]; auto; lra.
    + apply is_derive_Reals. auto_derive; auto. rdec; lra.
Qed.
Lemma eps_lim eps a b : Rabs (a - b) <> eps /\ (0 < eps \/ a <> b) -> derivable_pt_lim (fun x => pl_loss (eps_loss rops rloss eps) x b) a (pl_dloss (eps_loss rops rloss eps) a b).
Proof.
  intros [H Hs]. cbn [eps_loss pl_loss pl_dloss]. unfold fgtb. cbn [rops rloss fsub fmul fneg fzero fone fltb feqb lo_abs]. destruct (Rlt_dec eps (Rabs (a - b))) as [Hl|Hl].
  - assert (Hne : a <> b) by (destruct Hs; auto; intros ->; rewrite Rminus_diag_eq, Rabs_R0 in Hl by reflexivity; lra).
    apply (near_ext (fun x => eps < Rabs (x - b)) (fun x => Rabs (x - b) - eps)).
    + apply (dist_near a b (fun v => eps < v)). apply above; auto.
    + intros u Hu. rdec; lra.
    + eapply lim_to; [apply (derivable_pt_lim_minus (fun x => Rabs (x - b)) (fun _ => eps)); [apply abs_shift; auto|apply derivable_pt_lim_const]|]. rdec; try lra.
  - apply (near_ext (fun x => Rabs (x - b) < eps) (fun x => 0)).
    + apply (dist_near a b (fun v => v < eps)). apply below; lra.
    + intros u Hu. rdec; lra.
    + eapply lim_to; [apply derivable_pt_lim_const|]. rdec; lra.
Qed.

Lemma point_lim k a b : smooth_point k a b -> derivable_pt_lim (fun x => pl_loss (point_of k) x b) a (pl_dloss (point_of k) a b).
Proof.
  destruct k as [| | |delta| |p|tau|eps]; cbn [smooth_point point_of]; intros H; [..|apply eps_lim; auto].
  - cbn. apply is_derive_Reals. auto_derive; auto. ring.
  - apply abs_shift; auto.
  - cbn. apply is_derive_Reals. auto_derive; auto. ring.
  - apply huber_lim; auto.
  - cbn. pose proof (cosh_pos (a - b)) as Hc. eapply lim_to; [apply (derivable_pt_lim_comp (fun x => cosh (x - b)) ln); [|apply derivable_pt_lim_ln; auto]|].
    + apply (derivable_pt_lim_comp (fun x => x - b) cosh a 1); [apply is_derive_Reals; auto_derive; auto; ring|apply derivable_pt_lim_cosh].
    + unfold tanh. field. lra.
  - apply lp_lim; auto.
  - apply quantile_lim; auto.
Qed.

(** ** Lists *)
Definition ones (y : list R) (w : option (list R)) : list R := match w with Some w => w | None => map (fun _ => 1) y end.
Fixpoint rsum (l : list R) : R := match l with [] => 0 | x :: l => x + rsum l end.
Fixpoint wsum (f : R -> R -> R) (yhat y w : list R) : R :=
  match yhat, y, w with a :: yhat, b :: y, c :: w => c * f a b + wsum f yhat y w | _, _, _ => 0 end.
Fixpoint wmap (f : R -> R -> R) (S : R) (yhat y w : list R) : list R :=
  match yhat, y, w with a :: yhat, b :: y, c :: w => c / S * f a b :: wmap f S yhat y w | _, _, _ => [] end.
Lemma fsum_rsum l : fsum rops l = rsum l.
Proof.
  unfold fsum. assert (G : forall l a, fold_left (fadd rops) l a = a + rsum l).
  { clear l. induction l as [|x l IH]; intros a; cbn [fold_left rsum]; [lra|]. rewrite IH. cbn. lra. }
  rewrite G. cbn. lra.
Qed.
Lemma zip_ok {A B} (a : list A) : forall b : list B, List.length a = List.length b -> zip_eq a b = Ok (combine a b).
Proof. intros b H. unfold zip_eq. rewrite H, Nat.eqb_refl. reflexivity. Qed.
Lemma rsum_ones {A} (y : list A) : rsum (map (fun _ => 1) y) = INR (List.length y).
Proof. induction y as [|b y IH]; [reflexivity|]. cbn [map rsum List.length]. rewrite IH, S_INR. lra. Qed.
Lemma rsum_map {A} (f : A -> R) (l : list A) : fsum rops (map f l) = rsum (map f l).
Proof. apply fsum_rsum. Qed.
Lemma wsum_ones f : forall yhat y, List.length yhat = List.length y -> rsum (map (fun q => f (fst q) (snd q)) (combine yhat y)) = wsum f yhat y (map (fun _ => 1) y).
Proof. induction yhat as [|a yhat IH]; intros [|b y] H; cbn in *; try discriminate; auto. injection H as H. rewrite <- IH by auto. lra. Qed.
Lemma wsum_some f : forall yhat y w, List.length yhat = List.length y -> List.length w = List.length y ->
  rsum (map (fun q => snd q * f (fst (fst q)) (snd (fst q))) (combine (combine yhat y) w)) = wsum f yhat y w.
Proof. induction yhat as [|a yhat IH]; intros [|b y] [|c w] H Hw; cbn in *; try discriminate; auto. injection H as H. injection Hw as Hw. rewrite <- IH by auto. lra. Qed.
Lemma combine_len {A B} (a : list A) (b : list B) : List.length a = List.length b -> List.length (combine a b) = List.length b.
Proof. intros H. rewrite combine_length, H. apply Nat.min_id. Qed.

Definition mean_value (p : pointloss R) (yhat y : list R) (w : option (list R)) : R :=
  if reqb (rsum (ones y w)) 0 then 0 else wsum (pl_loss p) yhat y (ones y w) / rsum (ones y w).
Lemma mean_closed p yhat y w : List.length yhat = List.length y -> List.length (ones y w) = List.length y ->
  mean_loss rops rloss p yhat y w = Ok (mean_value p yhat y w).
Proof.
  intros H Hw. unfold mean_loss, mean_value. rewrite H, Nat.eqb_refl. cbn [assert_ bind]. destruct w as [w|]; cbn [ones] in *.
  - rewrite Hw, Nat.eqb_refl. cbn [assert_ bind]. rewrite fsum_rsum. cbn [feqb fzero rops]. destruct (reqb (rsum w) 0); auto.
    rewrite zip_ok by auto. cbn [bind]. rewrite zip_ok by (rewrite combine_len; auto). cbn [bind]. rewrite fsum_rsum. cbn [fmul fdiv rops]. now rewrite wsum_some.
  - rewrite rsum_ones. destruct y as [|b y]; [cbn; now rewrite (proj2 (reqb_iff 0 0)) by reflexivity|]. set (l := b :: y) in *.
    assert (Hn : INR (List.length l) <> 0) by (unfold l; cbn [List.length]; rewrite S_INR; pose proof (pos_INR (List.length y)); lra).
    destruct (reqb (INR (List.length l)) 0) eqn:E; [apply reqb_iff in E; contradiction|].
    rewrite zip_ok by auto. cbn [bind]. rewrite fsum_rsum, wsum_ones by auto. reflexivity.
Qed.
Definition mean_grad (p : pointloss R) (yhat y : list R) (w : option (list R)) : list R :=
  if reqb (rsum (ones y w)) 0 then map (fun _ => 0) y else wmap (pl_dloss p) (rsum (ones y w)) yhat y (ones y w).
Lemma fill_map {A B} (l : list A) (x : B) : fill (List.length l) x = map (fun _ => x) l.
Proof. induction l as [|a l IH]; cbn; [reflexivity|]. now rewrite <- IH. Qed.
Lemma wmap_ones f S : forall yhat y, List.length yhat = List.length y -> map (fun q => 1 / S * f (fst q) (snd q)) (combine yhat y) = wmap f S yhat y (map (fun _ => 1) y).
Proof. induction yhat as [|a yhat IH]; intros [|b y] H; cbn in *; try discriminate; auto. injection H as H. now rewrite <- IH. Qed.
Lemma wmap_some f S : forall yhat y w, List.length yhat = List.length y -> List.length w = List.length y ->
  map (fun q => snd q * (1 / S) * f (fst (fst q)) (snd (fst q))) (combine (combine yhat y) w) = wmap f S yhat y w.
Proof.
  induction yhat as [|a yhat IH]; intros [|b y] [|c w] H Hw; cbn in *; try discriminate; auto. injection H as H. injection Hw as Hw. rewrite <- IH by auto. f_equal.
  unfold Rdiv. ring.
Qed.
Lemma mean_dclosed p yhat y w out : List.length yhat = List.length y -> List.length out = List.length y -> List.length (ones y w) = List.length y ->
  mean_dloss rops rloss p yhat y w out = Ok (mean_grad p yhat y w).
Proof.
  intros H Ho Hw. unfold mean_dloss, mean_grad. rewrite H, Ho, Nat.eqb_refl. cbn [assert_ bind]. destruct w as [w|]; cbn [ones] in *.
  - rewrite Hw, Nat.eqb_refl. cbn [assert_ bind]. rewrite fsum_rsum. cbn [feqb fzero rops]. destruct (reqb (rsum w) 0); [now rewrite fill_map|].
    rewrite zip_ok by auto. cbn [bind]. rewrite zip_ok by (rewrite combine_len; auto). cbn [bind]. unfold recip. cbn [fmul fdiv fone rops]. now rewrite wmap_some.
  - rewrite rsum_ones. destruct y as [|b y]; [cbn; now rewrite (proj2 (reqb_iff 0 0)) by reflexivity|]. set (l := b :: y) in *.
    assert (Hn : INR (List.length l) <> 0) by (unfold l; cbn [List.length]; rewrite S_INR; pose proof (pos_INR (List.length y)); lra).
    destruct (reqb (INR (List.length l)) 0) eqn:E; [apply reqb_iff in E; contradiction|].
    rewrite zip_ok by auto. cbn [bind]. unfold recip. cbn [fmul fdiv fone rops lo_of_nat rloss]. now rewrite wmap_ones.
Qed.
Lemma wmap_len f S : forall yhat y w, List.length yhat = List.length y -> List.length w = List.length y -> List.length (wmap f S yhat y w) = List.length y.
Proof. induction yhat as [|a yhat IH]; intros [|b y] [|c w] H Hw; cbn in *; try discriminate; auto. Qed.

Definition moves (cs : list (R -> R)) (v : list R) (s : R) : Prop := Forall2 (fun c d => derivable_pt_lim c s d) cs v.
Lemma wsum_curve k s : forall cs v y w, moves cs v s -> List.length cs = List.length y -> List.length w = List.length y ->
  (forall i a b, nth_error (at_time cs s) i = Some a -> nth_error y i = Some b -> smooth_point k a b) ->
  exists D, derivable_pt_lim (fun u => wsum (pl_loss (point_of k)) (at_time cs u) y w) s D
  /\ forall S, S <> 0 -> inner (wmap (pl_dloss (point_of k)) S (at_time cs s) y w) v = D / S.
Proof.
  intros cs v y w H. revert y w. induction H as [|c d cs v Hc H IH]; intros [|b y] [|e w] Hl Hw Hs; cbn [at_time map wsum wmap inner] in *; try discriminate.
  - exists 0. split; [apply derivable_pt_lim_const|]. intros S HS. field. auto.
  - injection Hl as Hl. injection Hw as Hw. destruct (IH y w Hl Hw) as (D & HD & HE); [intros i a b' Ha Hb; apply (Hs (S i) a b' Ha Hb)|].
    exists (e * (pl_dloss (point_of k) (c s) b * d) + D). split.
    + apply (derivable_pt_lim_plus (fun u => e * pl_loss (point_of k) (c u) b) (fun u => wsum (pl_loss (point_of k)) (at_time cs u) y w)); [|exact HD].
      apply (derivable_pt_lim_scal (fun u => pl_loss (point_of k) (c u) b)). apply (derivable_pt_lim_comp c (fun x => pl_loss (point_of k) x b)); [exact Hc|].
      apply point_lim. apply (Hs 0%nat); reflexivity.
    + intros S HS. fold (at_time cs s). rewrite HE by auto. field. auto.
Qed.
Lemma inner_zero {A} (l : list A) : forall v, inner (map (fun _ => 0) l) v = 0.
Proof. induction l as [|x l IH]; intros [|d v]; cbn; auto. rewrite IH. lra. Qed.
Lemma mean_curve k s cs v y w : moves cs v s -> List.length cs = List.length y -> List.length (ones y w) = List.length y ->
  (forall i a b, nth_error (at_time cs s) i = Some a -> nth_error y i = Some b -> smooth_point k a b) ->
  derivable_pt_lim (fun u => mean_value (point_of k) (at_time cs u) y w) s (inner (mean_grad (point_of k) (at_time cs s) y w) v).
Proof.
  intros H Hl Hw Hs. unfold mean_value, mean_grad. destruct (reqb (rsum (ones y w)) 0) eqn:E.
  - rewrite inner_zero. apply derivable_pt_lim_const.
  - assert (Hn : rsum (ones y w) <> 0) by (intros Hz; apply reqb_iff in Hz; congruence).
    destruct (wsum_curve k s cs v y (ones y w) H Hl Hw Hs) as (D & HD & HE). rewrite HE by auto.
    eapply lim_to; [apply (derivable_pt_lim_mult _ (fun _ => / rsum (ones y w)) s D 0 HD (derivable_pt_lim_const _ _))|]. cbv beta. unfold Rdiv. ring.
Qed.
Lemma inner_scale c : forall a b v, List.length a = List.length b -> (forall i x y, nth_error a i = Some x -> nth_error b i = Some y -> x = c * y) -> inner a v = c * inner b v.
Proof.
  induction a as [|x a IH]; intros [|y b] v Hl Hi; cbn in *; try discriminate; [ring|]. injection Hl as Hl. destruct v as [|d v]; [ring|].
  rewrite (IH b v Hl) by (intros i x' y' Hx Hy; apply (Hi (S i) x' y' Hx Hy)). rewrite (Hi 0%nat x y) by reflexivity. ring.
Qed.
Definition rmse_grad (yhat y : list R) (w : option (list R)) : list R :=
  let m := mean_value (squared_loss rops rloss) yhat y w in
  if reqb (sqrt m) 0 then map (fun _ => 0) y else wmap (fun a b => (a - b) / sqrt m) (rsum (ones y w)) yhat y (ones y w).
Lemma lim_same (f g : R -> R) s l : (forall u, f u = g u) -> derivable_pt_lim g s l -> derivable_pt_lim f s l.
Proof. intros H Hg. apply (lim_ext g f); auto. exists (mkposreal 1 Rlt_0_1). intros u _. auto. Qed.
Lemma rmse_dclosed yhat y w out : List.length yhat = List.length y -> List.length out = List.length y -> List.length (ones y w) = List.length y ->
  lf_dloss (rmse_loss rops rloss) yhat y w out = Ok (rmse_grad yhat y w).
Proof.
  intros H Ho Hw. cbn [rmse_loss lf_dloss]. unfold rmse_grad. rewrite H, Ho, Nat.eqb_refl. cbn [assert_ bind]. rewrite mean_closed by auto. cbn [bind].
  cbn [feqb fzero ffinite rops lo_sqrt rloss negb]. rewrite orb_false_r. set (m := mean_value (squared_loss rops rloss) yhat y w).
  destruct (reqb (sqrt m) 0) eqn:E; [now rewrite fill_map|]. assert (Hm : sqrt m <> 0) by (intros Hz; apply reqb_iff in Hz; congruence). cbn [recip fdiv fone rops].
  destruct w as [w|]; cbn [ones] in *.
  - rewrite Hw, Nat.eqb_refl. cbn [assert_ bind]. rewrite fsum_rsum. cbn [feqb fzero rops].
    assert (HS : reqb (rsum w) 0 = false).
    { destruct (reqb (rsum w) 0) eqn:Es; auto. exfalso. apply Hm. unfold m, mean_value. cbn [ones]. rewrite Es. apply sqrt_0. }
    rewrite HS. assert (Hn : rsum w <> 0) by (intros Hz; apply reqb_iff in Hz; congruence).
    rewrite zip_ok by auto. cbn [bind]. rewrite zip_ok by (rewrite combine_len; auto). cbn [bind]. unfold recip. cbn [fmul fsub fdiv fone rops]. f_equal. clearbody m.
    clear Ho HS. generalize dependent (rsum w). intros S0 Hn. revert y w H Hw.
    induction yhat as [|a yhat IH]; intros [|b y] [|c w] H Hw; cbn in *; try discriminate; auto. injection H as H. injection Hw as Hw. rewrite <- IH by auto. f_equal. field. auto.
  - rewrite rsum_ones. rewrite zip_ok by auto. cbn [bind]. unfold recip. cbn [fmul fsub fdiv fone rops lo_of_nat rloss]. f_equal.
    assert (Hn : y = [] \/ INR (List.length y) <> 0) by (destruct y as [|b y]; [auto|right; cbn [List.length]; rewrite S_INR; pose proof (pos_INR (List.length y)); lra]).
    destruct Hn as [->|Hn]; [destruct yhat; [reflexivity|discriminate]|].
    clearbody m. clear Ho Hw. generalize dependent (INR (List.length y)). intros S0 Hn. revert y H.
    induction yhat as [|a yhat IH]; intros [|b y] H; cbn in *; try discriminate; auto. injection H as H. rewrite <- IH by auto. f_equal. field. auto.
Qed.
Lemma wmap_inner f g c S v : forall yhat y w, (forall a b, f a b = c * g a b) -> inner (wmap f S yhat y w) v = c * inner (wmap g S yhat y w) v.
Proof.
  revert v. intros v yhat. revert v. induction yhat as [|a yhat IH]; intros v [|b y] [|e w] Hf; cbn; try (destruct v; ring). destruct v as [|d v]; [ring|].
  rewrite (IH v y w Hf), Hf. ring.
Qed.
Definition weights_fit (y : list R) (w : option (list R)) : Prop := match w with Some w => List.length w = List.length y | None => True end.
Lemma ones_len y w : weights_fit y w -> List.length (ones y w) = List.length y.
Proof. destruct w; cbn; [auto|]. intros _. apply map_length. Qed.
Lemma at_time_len cs u : List.length (at_time cs u) = List.length cs.
Proof. apply map_length. Qed.

(** ** C53 *)
(** Along any curve of predictions, the loss moves as the returned gradient says. *)
Theorem C53_loss_gradient : forall (k : loss_kind R) (y : list R) (w : option (list R)) (cs : list (R -> R)) (v : list R) (s : R) (out : list R),
  List.length cs = List.length y -> weights_fit y w -> List.length out = List.length y ->
  Forall2 (fun c d => derivable_pt_lim c s d) cs v -> smooth_loss k y w (at_time cs s) ->
  exists dl, lf_dloss (make_loss rops rloss k) (at_time cs s) y w out = Ok dl /\ List.length dl = List.length y
    /\ derivable_pt_lim (fun u => loss_value k y w (at_time cs u)) s (inner dl v).
Proof.
  intros k y w cs v s out Hl Hw Ho Hm [Hs Hr]. apply ones_len in Hw. assert (Hl' : forall u, List.length (at_time cs u) = List.length y) by (intros u; now rewrite at_time_len).
  assert (Hmean : make_loss rops rloss k = mean_of rops rloss (point_of k) \/ k = LRmse) by (destruct k; auto).
  destruct Hmean as [Hk|Hk].
  - assert (E : forall u, loss_value k y w (at_time cs u) = mean_value (point_of k) (at_time cs u) y w).
    { intros u. unfold loss_value. rewrite Hk. cbn [mean_of lf_loss]. now rewrite mean_closed. }
    exists (mean_grad (point_of k) (at_time cs s) y w). rewrite Hk. cbn [mean_of lf_dloss]. split; [apply mean_dclosed; auto|]. split.
    { unfold mean_grad. destruct (reqb _ 0); [apply map_length|apply wmap_len; auto]. }
    apply (lim_same _ _ _ _ E). apply mean_curve; auto.
  - subst k. assert (E : forall u, loss_value LRmse y w (at_time cs u) = sqrt (mean_value (squared_loss rops rloss) (at_time cs u) y w)).
    { intros u. unfold loss_value. cbn [make_loss rmse_loss lf_loss]. now rewrite mean_closed. }
    assert (Hp : 0 < mean_value (squared_loss rops rloss) (at_time cs s) y w).
    { specialize (Hr eq_refl). unfold loss_value in Hr. cbn [make_loss mean_of lf_loss] in Hr. now rewrite mean_closed in Hr. }
    exists (rmse_grad (at_time cs s) y w). cbn [make_loss]. split; [apply rmse_dclosed; auto|]. split.
    { unfold rmse_grad. destruct (reqb _ 0); [apply map_length|apply wmap_len; auto]. }
    apply (lim_same _ _ _ _ E).
    pose proof (mean_curve LMse s cs v y w Hm Hl Hw ltac:(cbn; auto)) as HD. cbn [point_of] in HD.
    eapply lim_to; [eapply (derivable_pt_lim_comp (fun u => mean_value (squared_loss rops rloss) (at_time cs u) y w) sqrt); [exact HD|apply derivable_pt_lim_sqrt; exact Hp]|].
    pose proof (sqrt_lt_R0 _ Hp) as Hq. unfold rmse_grad. set (m := mean_value _ _ _ _) in *.
    destruct (reqb (sqrt m) 0) eqn:Ez; [apply reqb_iff in Ez; lra|]. unfold mean_grad. destruct (reqb (rsum (ones y w)) 0) eqn:Es.
    + exfalso. unfold m, mean_value in Hp. rewrite Es in Hp. lra.
    + symmetry. apply wmap_inner. intros a b. cbn. field. lra.
Qed.

(** One prediction at a time: each entry of the gradient is a partial derivative of the loss. *)
Definition others_fixed (yhat : list R) (i : nat) : list (R -> R) := map (fun j => if Nat.eqb j i then (fun u => u) else (fun _ => nth j yhat 0)) (seq 0 (List.length yhat)).
Lemma others_fixed_at yhat i u : (i < List.length yhat)%nat -> at_time (others_fixed yhat i) u = upd yhat i u.
Proof.
  intros Hi. apply nth_error_ext. intros j. unfold at_time, others_fixed. rewrite map_map, nth_error_map. destruct (Nat.lt_ge_cases j (List.length yhat)) as [Hj|Hj].
  - rewrite (nth_error_nth' _ 0%nat) by (rewrite seq_length; auto). rewrite seq_nth by auto. cbn [option_map Nat.add]. destruct (Nat.eqb_spec j i) as [->|Hne].
    + rewrite nth_error_upd_same; auto.
    + rewrite nth_error_upd_other by auto. symmetry. apply nth_error_nth'. auto.
  - rewrite (proj2 (nth_error_None _ _)) by (rewrite seq_length; auto). symmetry. apply nth_error_None. now rewrite upd_length.
Qed.
Lemma upd_nth_self (l : list R) : forall i a, nth_error l i = Some a -> upd l i a = l.
Proof. induction l as [|x l IH]; intros [|i] a H; cbn in *; try discriminate; [congruence|]. f_equal. auto. Qed.
Lemma inner_hot i d : forall (dl : list R) k, nth_error dl i = Some d -> inner dl (map (fun j => if Nat.eqb j (k + i) then 1 else 0) (seq k (List.length dl))) = d.
Proof.
  intros dl. revert i. assert (Z : forall (dl : list R) k m, (m < k)%nat -> inner dl (map (fun j => if Nat.eqb j m then 1 else 0) (seq k (List.length dl))) = 0).
  { clear. induction dl as [|x dl IH]; intros k m H; cbn; [reflexivity|]. rewrite IH by lia. destruct (Nat.eqb_spec k m); [lia|]. ring. }
  induction dl as [|x dl IH]; intros [|i] k H; cbn in *; try discriminate.
  - injection H as ->. rewrite Nat.add_0_r, Nat.eqb_refl. rewrite Z by lia. ring.
  - destruct (Nat.eqb_spec k (k + S i)); [lia|]. replace (k + S i)%nat with (S k + i)%nat by lia. rewrite IH by auto. ring.
Qed.
Theorem C53_partial_derivatives : forall (k : loss_kind R) (y : list R) (w : option (list R)) (yhat out : list R),
  List.length yhat = List.length y -> weights_fit y w -> List.length out = List.length y -> smooth_loss k y w yhat ->
  exists dl, lf_dloss (make_loss rops rloss k) yhat y w out = Ok dl /\ List.length dl = List.length y
    /\ forall i a d, nth_error yhat i = Some a -> nth_error dl i = Some d -> derivable_pt_lim (fun x => loss_value k y w (upd yhat i x)) a d.
Proof.
  intros k y w yhat out Hl Hw Ho Hs.
  assert (G : exists dl, lf_dloss (make_loss rops rloss k) yhat y w out = Ok dl /\ List.length dl = List.length y).
  { destruct (C53_loss_gradient k y w (map (fun a _ => a) yhat) (map (fun _ => 0) yhat) 0 out) as (dl & E & Hdl & _); auto; [now rewrite map_length| | |].
    - clear. induction yhat; cbn; constructor; auto. apply derivable_pt_lim_const.
    - unfold at_time. rewrite map_map, map_id. exact Hs.
    - unfold at_time in E. rewrite map_map, map_id in E. eauto. }
  destruct G as (dl & E & Hdl). exists dl. split; auto. split; auto. intros i a d Ha Hd.
  assert (Hi : (i < List.length yhat)%nat) by (apply nth_error_Some; congruence).
  assert (Hat : at_time (others_fixed yhat i) a = yhat) by (rewrite others_fixed_at, upd_nth_self; auto).
  destruct (C53_loss_gradient k y w (others_fixed yhat i) (map (fun j => if Nat.eqb j i then 1 else 0) (seq 0 (List.length yhat))) a out) as (dl' & E' & _ & HD); auto.
  - unfold others_fixed. now rewrite map_length, seq_length.
  - unfold others_fixed. generalize (seq 0 (List.length yhat)). clear. intros l. induction l as [|j l IH]; cbn; constructor; auto.
    destruct (Nat.eqb j i); [apply derivable_pt_lim_id|apply derivable_pt_lim_const].
  - now rewrite Hat.
  - rewrite Hat, E in E'. injection E' as <-. rewrite Hl, <- Hdl in HD. pose proof (inner_hot i d dl 0 Hd) as Hh. cbn [Nat.add] in Hh. rewrite Hh in HD.
    eapply lim_same; [|exact HD]. intros u. cbv beta. now rewrite others_fixed_at.
Qed.

(** ** C54 *)
(** The objective of the constants: the loss of the predictions the expression makes with them. *)
Definition objective_at (k : loss_kind R) (d : dataset R) (t : tree) (cs : list R) : R :=
  loss_value k (ds_y d) (ds_weights d) (map (fun r => teval rbuiltin (mat_at rops (ds_x d) r) (fun j => nth j cs 0) t) (seq 0 (ds_n_rows d))).

Lemma fold_inner : forall dl row acc, List.length dl = List.length row ->
  fold_left (fun a q => fadd rops a (fmul rops (fst q) (snd q))) (combine dl row) acc = acc + inner dl row.
Proof. induction dl as [|x dl IH]; intros [|y row] acc H; cbn in *; try discriminate; [lra|]. injection H as H. rewrite IH by auto. lra. Qed.
Lemma slice_some {A} (l : list A) a n : (a + n <= List.length l)%nat -> exists s, slice l a n = Ok s /\ List.length s = n /\ forall r, (r < n)%nat -> nth_error s r = nth_error l (a + r).
Proof.
  intros H. unfold slice. rewrite (proj2 (Nat.leb_le _ _) H). eexists. split; [reflexivity|]. split; [rewrite firstn_length, skipn_length; lia|].
  intros r Hr. rewrite nth_error_firstn, nth_error_skipn; auto.
Qed.
Lemma const_upd (e : expr R) cs : EvalTop.const_at rops (with_consts e cs) = (fun j => nth j cs 0).
Proof. reflexivity. Qed.
Lemma nth_upd (cs : list R) i x : (i < List.length cs)%nat -> (fun j => nth j (upd cs i x) 0) = at_index (fun j => nth j cs 0) i x.
Proof.
  intros Hi. apply FunctionalExtensionality.functional_extensionality. intros j. unfold at_index. destruct (Nat.eqb_spec j i) as [->|Hne].
  - apply nth_error_nth. apply nth_error_upd_same. auto.
  - destruct (Nat.lt_ge_cases j (List.length cs)) as [Hj|Hj]; [|now rewrite !nth_overflow by (rewrite ?upd_length; auto)].
    apply nth_error_nth. rewrite nth_error_upd_other by auto. apply nth_error_nth'. auto.
Qed.

(** The value and the gradient handed to the minimiser are the objective and its gradient. *)
Theorem C54_objective_gradient : forall (OC : opt_cfg R R) hash umax D size parsimony use_baseline (k : loss_kind R) (e : expr R) (d : dataset R) (t : tree) (gc : dctx R) (dl : list R) (Seen : list pnode -> Prop),
  let C := mkEvalCfg rops rloss rbuiltin hash umax D size (make_loss rops rloss k) parsimony use_baseline in
  dataset_ok d -> (1 <= ds_n_rows d)%nat -> ok_tree rbuiltin D e (ds_x d) t -> fits_u16 e (ds_x d) t ->
  grad_reach rops rbuiltin hash D Seen gc -> d_rows gc = ds_n_rows d -> told_apart hash Seen (nodes e) -> List.length dl = ds_n_rows d ->
  (forall x, oc_to OC x = Some x) ->
  (forall r, (r < ds_n_rows d)%nat -> regular (mat_at rops (ds_x d) r) (fun j => nth j (consts e) 0) t) ->
  smooth_loss k (ds_y d) (ds_weights d) (map (fun r => teval rbuiltin (mat_at rops (ds_x d) r) (fun j => nth j (consts e) 0) t) (seq 0 (ds_n_rows d))) ->
  exists gc' dl' g, loss_and_grad C OC e d gc dl = Ok (gc', dl', Some (objective_at k d t (consts e), g))
    /\ List.length g = List.length (consts e)
    /\ forall i c gi, nth_error (consts e) i = Some c -> nth_error g i = Some gi -> derivable_pt_lim (fun x => objective_at k d t (upd (consts e) i x)) c gi.
Proof.
  intros OC hash umax D size parsimony use_baseline k e d t gc dl Seen C Hd Hn Hok Hf Hgr Hrows Hh Hdl Hto Hreg Hs. pose proof Hd as (D1 & D2 & D3 & D4 & D5).
  destruct (C52_gradient hash D e (ds_x d) t ev_opts gc false Seen Hok D3 Hf) as (gc' & vals & G & E & G1 & G2 & HG); auto; try congruence; try lia.
  set (cst := fun j => nth j (consts e) 0) in *. change (EvalTop.const_at rops e) with cst in HG.
  set (preds := map (fun r => teval rbuiltin (mat_at rops (ds_x d) r) cst t) (seq 0 (ds_n_rows d))) in *.
  assert (Hw : weights_fit (ds_y d) (ds_weights d)) by (unfold weights_fit; destruct (ds_weights d) as [w|]; auto; rewrite D4; apply D5; reflexivity).
  assert (Hpl : List.length preds = List.length (ds_y d)) by (unfold preds; rewrite map_length, seq_length; auto).
  assert (Hvals : vals = preds).
  { destruct (C09_gradient R rops rbuiltin hash D e (ds_x d) t ev_opts gc false Seen Hok D3 Hf) as (gc1 & vals1 & G1' & cpl & E1 & Hvl & _); auto; try congruence; try lia.
    rewrite E in E1. injection E1 as <- <- <- <-. apply nth_error_ext. intros r. destruct (Nat.lt_ge_cases r (ds_n_rows d)) as [Hr|Hr].
    - destruct (HG r) as [-> _]; [lia|]. unfold preds. rewrite nth_error_map, (nth_error_nth' _ 0%nat), seq_nth by (rewrite ?seq_length; auto). reflexivity.
    - transitivity (@None R); [|symmetry]; apply nth_error_None; lia. }
  destruct (C53_partial_derivatives k (ds_y d) (ds_weights d) preds dl Hpl Hw ltac:(lia) Hs) as (dl' & Edl & Hdl' & _).
  unfold loss_and_grad. cbn [C ec_F ec_O ec_hash ec_D ec_loss]. rewrite E. cbn [bind negb].
  assert (Hex : existsb (fun v => negb (ffinite rops v)) vals = false) by (clear; induction vals; cbn; auto). rewrite Hex, Hvals.
  assert (El : lf_loss (make_loss rops rloss k) preds (ds_y d) (ds_weights d) = Ok (loss_value k (ds_y d) (ds_weights d) preds)).
  { unfold loss_value. apply ones_len in Hw. destruct k; cbn [make_loss mean_of rmse_loss lf_loss]; now rewrite mean_closed. }
  rewrite El. cbn [bind ffinite rops negb]. rewrite Edl. cbn [bind].
  assert (Hrow : forall i, (i < List.length (consts e))%nat -> exists row, slice (m_data G) (i * ds_n_rows d) (ds_n_rows d) = Ok row /\ List.length row = ds_n_rows d
    /\ forall r dr, nth_error row r = Some dr -> derivable_pt_lim (fun v => teval rbuiltin (mat_at rops (ds_x d) r) (at_index cst i v) t) (cst i) dr).
  { intros i Hi. destruct (slice_some (m_data G) (i * ds_n_rows d) (ds_n_rows d)) as (row & Er & Hrl & Hrr).
    - destruct (HG (ds_n_rows d - 1)%nat) as [_ H]; [lia|]. destruct (H i) as (dd & Hdd & _); [lia|apply Hreg; lia|].
      assert ((i * m_ncols (ds_x d) + (ds_n_rows d - 1) < List.length (m_data G))%nat) by (apply nth_error_Some; congruence). rewrite D2 in *. lia.
    - exists row. split; auto. split; auto. intros r dr Hdr. assert (Hr : (r < ds_n_rows d)%nat) by (rewrite <- Hrl; apply nth_error_Some; congruence).
      destruct (HG r) as [_ H]; [lia|]. destruct (H i) as (dd & Hdd & HD); [lia|apply Hreg; auto|]. rewrite D2, <- Hrr, Hdr in Hdd by auto. injection Hdd as ->. exact HD. }
  set (row_of := fun i => match slice (m_data G) (i * ds_n_rows d) (ds_n_rows d) with Ok row => row | _ => [] end).
  assert (Eg : mapM (fun ci => let! row := slice (m_data G) (ci * ds_n_rows d) (ds_n_rows d) in
          let! z := zip_eq dl' row in
          Ok (to_w OC (fold_left (fun a q => fadd rops a (fmul rops (fst q) (snd q))) z (fzero rops)) (finf (oc_F OC))))
        (seq 0 (List.length (consts e))) = Ok (map (fun i => inner dl' (row_of i)) (seq 0 (List.length (consts e))))).
  { apply mapM_map. intros i Hi. apply in_seq in Hi. destruct (Hrow i) as (row & Er & Hrl & _); [lia|]. unfold row_of. rewrite Er. cbn [bind]. rewrite zip_ok by lia. cbn [bind].
    rewrite fold_inner by lia. unfold to_w. rewrite Hto. f_equal. cbn. lra. }
  rewrite Eg. cbn [bind]. unfold to_w. rewrite Hto. do 3 eexists. split; [reflexivity|]. split; [now rewrite map_length, seq_length|].
  intros i c gi Hc Hgi. assert (Hi : (i < List.length (consts e))%nat) by (apply nth_error_Some; congruence).
  rewrite nth_error_map, (nth_error_nth' _ 0%nat), seq_nth in Hgi by (rewrite ?seq_length; auto). cbn [option_map Nat.add] in Hgi. injection Hgi as <-.
  destruct (Hrow i Hi) as (row & Er & Hrl & Hrr). unfold row_of. rewrite Er.
  set (cs := map (fun r v => teval rbuiltin (mat_at rops (ds_x d) r) (at_index cst i v) t) (seq 0 (ds_n_rows d))).
  assert (Hci : cst i = c) by (apply nth_error_nth; auto).
  assert (Hat : at_time cs c = preds).
  { unfold at_time, cs, preds. rewrite map_map. apply map_ext. intros r. rewrite <- Hci, at_index_self. reflexivity. }
  destruct (C53_loss_gradient k (ds_y d) (ds_weights d) cs row c dl) as (dl2 & E2 & _ & HD); auto.
  - unfold cs. rewrite map_length, seq_length. auto.
  - lia.
  - unfold cs. clear - Hrl Hrr Hci. revert Hrl Hrr. generalize (ds_n_rows d) as n. intros n Hrl Hrr.
    assert (A : forall n k row, List.length row = n -> (forall r dr, nth_error row r = Some dr -> derivable_pt_lim (fun v => teval rbuiltin (mat_at rops (ds_x d) (k + r)) (at_index cst i v) t) (cst i) dr) ->
      Forall2 (fun c0 d0 => derivable_pt_lim c0 c d0) (map (fun r v => teval rbuiltin (mat_at rops (ds_x d) r) (at_index cst i v) t) (seq k n)) row).
    { clear - Hci. induction n as [|n IH]; intros k [|x row] Hl Hr; cbn in *; try discriminate; constructor.
      - specialize (Hr 0%nat x eq_refl). rewrite Nat.add_0_r, Hci in Hr. exact Hr.
      - apply IH; [lia|]. intros r dr H. specialize (Hr (S r) dr H). replace (S k + r)%nat with (k + S r)%nat by lia. exact Hr. }
    apply (A n 0%nat row); auto.
  - now rewrite Hat.
  - rewrite Hat, Edl in E2. injection E2 as <-. eapply lim_same; [|exact HD]. intros u. cbv beta. unfold objective_at. f_equal. unfold at_time, cs. rewrite map_map. apply map_ext. intros r.
    rewrite nth_upd by auto. reflexivity.
Qed.

(** Cases: two predictions with weights under the root mean square error, and sin(c0 * x0) / x1 fitted to (1, 0) under the Huber loss. *)
Example C53_case : smooth_loss LRmse [0; 1] (Some [3; 1]) [2; 5]
  /\ lf_dloss (make_loss rops rloss LMse) [2; 5] [0; 1] (Some [3; 1]) [7; 7] = Ok (mean_grad (squared_loss rops rloss) [2; 5] [0; 1] (Some [3; 1]))
  /\ mean_grad (squared_loss rops rloss) [2; 5] [0; 1] (Some [3; 1]) = [3; 2].
Proof.
  assert (Hr : reqb (3 + (1 + 0)) 0 = false) by (unfold reqb; destruct (Req_EM_T _ _); auto; lra).
  split; [|split; [now apply mean_dclosed|]].
  - split; [cbn; auto|]. intros _. unfold loss_value. cbn [make_loss mean_of lf_loss]. rewrite mean_closed by reflexivity. unfold mean_value. cbn. rewrite Hr. lra.
  - unfold mean_grad. cbn. rewrite Hr. f_equal; [field|]. f_equal. field.
Qed.
Definition real_dataset : dataset R := mkData real_data [1; 0] 2 2 None (1 / 2).
Definition real_opt : opt_cfg R R :=
  mkOptCfg rops (mkOptOps Rabs sqrt Rmax Rmin 2 3 (1 / 2) (1 / 1000) (1 / 1000) (1 / 30) 10) Some Some true 8 100 2 (1 / 100) (mkBT (1 / 10000) (1 / 2) (1 / 10) 20 3 1000).
Example C54_case : let hash := hash_at (nodes real_expr) in
  dataset_ok real_dataset /\ ok_tree rbuiltin 3 real_expr (ds_x real_dataset) real_tree /\ fits_u16 real_expr (ds_x real_dataset) real_tree
  /\ grad_reach rops rbuiltin hash 3 (fun _ => True) (dctx_new rops 2) /\ told_apart hash (fun _ => True) (nodes real_expr) /\ (forall x, oc_to real_opt x = Some x)
  /\ (forall r, (r < ds_n_rows real_dataset)%nat -> regular (mat_at rops (ds_x real_dataset) r) (fun j => nth j (consts real_expr) 0) real_tree)
  /\ smooth_loss (LHuber 1) (ds_y real_dataset) (ds_weights real_dataset)
       (map (fun r => teval rbuiltin (mat_at rops (ds_x real_dataset) r) (fun j => nth j (consts real_expr) 0) real_tree) (seq 0 (ds_n_rows real_dataset))).
Proof.
  destruct C52_case as (H1 & H2 & H3 & H4 & H5 & H6 & H7 & H8 & _). cbv zeta. split; [|split; [exact H1|split; [exact H3|split; [exact H6|split; [exact H7|split; [reflexivity|split; [exact H8|]]]]]]].
  - split; [reflexivity|]. split; [reflexivity|]. split; [exact H2|]. split; [reflexivity|]. discriminate.
  - split; [|discriminate]. intros i a b _ _. left. lra.
Qed.

Print Assumptions C53_loss_gradient.
Print Assumptions C53_partial_derivatives.
Print Assumptions C54_objective_gradient.
