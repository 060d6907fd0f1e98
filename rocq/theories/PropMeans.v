(** Property C74: over the real numbers, the loss of a formula and its derivatives in the constants depend on the data only through weighted means over the rows. *)
From Coq Require Import Reals Lra.
From Verif Require Import Base BaseLemmas Node Tree NodeProofs Compile Eval EvalTop Deriv DerivSpec DerivTop PropEval Complexity Member Dataset PropDataset Loss PropLoss Builtin RealOps PropOptimTotal ConstOpt
  PropLossGrad Simulate View PropView Instances.
Local Open Scope R_scope.

(** ** Specification *)
(** The weight of a row (1 without weights), its target, its features. *)
Definition row_weight (d : dataset R) (r : nat) : R := match ds_weights d with Some w => nth r w 0 | None => 1 end.
Definition row_target (d : dataset R) (r : nat) : R := nth r (ds_y d) 0.
Definition row_feature (d : dataset R) (r f : nat) : R := nth (f * ds_n_rows d + r) (m_data (ds_x d)) 0.
(** The weighted total and the weighted mean over the rows of a quantity [phi] of features and target. *)
Definition total (d : dataset R) (phi : (nat -> R) -> R -> R) : R :=
  fold_right Rplus 0 (map (fun r => row_weight d r * phi (row_feature d r) (row_target d r)) (seq 0 (ds_n_rows d))).
Definition total_weight (d : dataset R) : R := total d (fun _ _ => 1).
Definition mean (d : dataset R) (phi : (nat -> R) -> R -> R) : R := total d phi / total_weight d.
(** [phi] is a quantity of the first [nf] features. *)
Definition of_features (nf : nat) (phi : (nat -> R) -> R -> R) : Prop := forall a b y, (forall f, (f < nf)%nat -> a f = b f) -> phi a y = phi b y.
Definition same_means (d d' : dataset R) : Prop :=
  ds_n_features d' = ds_n_features d /\ total_weight d <> 0 /\ total_weight d' <> 0 /\ forall phi, of_features (ds_n_features d) phi -> mean d phi = mean d' phi.
(** Row [i] of [d'] is a copy of row [sigma i] of [d], as far as features and target go, and the weights of the copies of a row add up to [c] times its weight: rows
    may be listed in another order, be split into copies that share the weight, be left out if they have weight 0, and all weights may be scaled. *)
Definition copies (c : R) (sigma : nat -> nat) (d d' : dataset R) : Prop :=
  ds_n_features d' = ds_n_features d
  /\ (forall i, (i < ds_n_rows d')%nat -> (sigma i < ds_n_rows d)%nat /\ row_target d' i = row_target d (sigma i) /\ forall f, (f < ds_n_features d)%nat -> row_feature d' i f = row_feature d (sigma i) f)
  /\ forall j, (j < ds_n_rows d)%nat -> fold_right Rplus 0 (map (fun i => if Nat.eqb (sigma i) j then row_weight d' i else 0) (seq 0 (ds_n_rows d'))) = c * row_weight d j.
(** The formulas over [nf] features and the operators of the evaluator. *)
Definition well_formed (C : eval_cfg R) (nf : nat) (e : expr R) : Prop := exists t known, represents e t /\ tree_ok (ec_D C) nf (List.length (consts e)) known t.

(** ** Copies have the same means *)
Definition sum (l : list R) : R := fold_right Rplus 0 l.
Lemma sum_cons x l : sum (x :: l) = x + sum l.
Proof. reflexivity. Qed.
Lemma sum_nil : sum [] = 0.
Proof. reflexivity. Qed.
Lemma fsum_sum l : fsum rops l = sum l.
Proof. rewrite fsum_rsum. induction l as [|x l IH]; [reflexivity|]. rewrite sum_cons, <- IH. reflexivity. Qed.
Lemma sum_scale {A} c (f : A -> R) l : sum (map (fun x => c * f x) l) = c * sum (map f l).
Proof. induction l as [|x l IH]; cbn [map app]; rewrite ?sum_nil; [lra|]. rewrite !sum_cons, IH. lra. Qed.
Lemma sum_plus {A} (f g : A -> R) l : sum (map (fun x => f x + g x) l) = sum (map f l) + sum (map g l).
Proof. induction l as [|x l IH]; cbn [map app]; rewrite ?sum_nil; [lra|]. rewrite !sum_cons, IH. lra. Qed.
Lemma sum_zero {A} (l : list A) : sum (map (fun _ => 0) l) = 0.
Proof. induction l as [|x l IH]; cbn [map]; rewrite ?sum_nil; [lra|]. rewrite !sum_cons, IH. lra. Qed.
Lemma sum_ext {A} (f g : A -> R) l : (forall x, In x l -> f x = g x) -> sum (map f l) = sum (map g l).
Proof. intros H. f_equal. now apply map_ext_in. Qed.
Lemma sum_zeros {A} (f : A -> R) l : (forall x, In x l -> f x = 0) -> sum (map f l) = 0.
Proof. intros H. rewrite (sum_ext f (fun _ => 0) l H). apply sum_zero. Qed.
Lemma sum_app l l' : sum (l ++ l') = sum l + sum l'.
Proof. induction l as [|x l IH]; cbn [map app]; rewrite ?sum_nil; [lra|]. rewrite !sum_cons, IH. lra. Qed.
Lemma sum_delta (g : nat -> R) k x n : (k < n)%nat -> sum (map (fun j => g j * (if Nat.eqb k j then x else 0)) (seq 0 n)) = g k * x.
Proof.
  induction n as [|n IH]; [lia|]. intros Hk. rewrite seq_S, map_app, sum_app. cbn [map Nat.add]. rewrite sum_cons, sum_nil.
  destruct (Nat.eq_dec k n) as [->|Hne].
  - rewrite Nat.eqb_refl. rewrite sum_zeros; [lra|]. intros j Hj. apply in_seq in Hj. destruct (Nat.eqb_spec n j); [lia|lra].
  - rewrite IH by lia. destruct (Nat.eqb_spec k n); [lia|lra].
Qed.
Lemma sum_fibres (sigma : nat -> nat) (a : nat -> R) (g : nat -> R) n l : (forall i, In i l -> (sigma i < n)%nat) ->
  sum (map (fun i => a i * g (sigma i)) l) = sum (map (fun j => g j * sum (map (fun i => if Nat.eqb (sigma i) j then a i else 0) l)) (seq 0 n)).
Proof.
  induction l as [|i l IH]; intros Hs.
  - cbn [map]. rewrite sum_nil. rewrite sum_zeros; [reflexivity|]. intros; lra.
  - cbn [map]. rewrite sum_cons. rewrite IH by (intros; apply Hs; now right).
    transitivity (sum (map (fun j => g j * (if Nat.eqb (sigma i) j then a i else 0) + g j * sum (map (fun i => if Nat.eqb (sigma i) j then a i else 0) l)) (seq 0 n))).
    + rewrite (sum_plus (fun j => g j * (if Nat.eqb (sigma i) j then a i else 0))). rewrite sum_delta by (apply Hs; now left). lra.
    + apply sum_ext. intros j _. rewrite sum_cons. lra.
Qed.

Lemma copies_total c sigma d d' phi : copies c sigma d d' -> of_features (ds_n_features d) phi -> total d' phi = c * total d phi.
Proof.
  intros (Hnf & Hr & Hw) Hphi. unfold total. fold (sum (map (fun r => row_weight d' r * phi (row_feature d' r) (row_target d' r)) (seq 0 (ds_n_rows d')))).
  fold (sum (map (fun r => row_weight d r * phi (row_feature d r) (row_target d r)) (seq 0 (ds_n_rows d)))). rewrite <- sum_scale.
  transitivity (sum (map (fun i => row_weight d' i * (fun j => phi (row_feature d j) (row_target d j)) (sigma i)) (seq 0 (ds_n_rows d')))).
  { apply sum_ext. intros i Hi. apply in_seq in Hi. destruct (Hr i) as (_ & -> & Hf); [lia|]. f_equal. apply Hphi. intros f Hlt. now apply Hf. }
  rewrite (sum_fibres sigma (row_weight d') (fun j => phi (row_feature d j) (row_target d j)) (ds_n_rows d)).
  2:{ intros i Hi. apply in_seq in Hi. apply Hr. lia. }
  apply sum_ext. intros j Hj. apply in_seq in Hj. unfold sum. rewrite Hw by lia. lra.
Qed.

Theorem C74_copies : forall c sigma d d', copies c sigma d d' -> c <> 0 -> total_weight d <> 0 -> same_means d d'.
Proof.
  intros c sigma d d' H Hc Ht. assert (E : total_weight d' = c * total_weight d) by (apply (copies_total _ _ _ _ _ H); intros a b y _; reflexivity).
  split; [apply H|]. split; [exact Ht|]. split; [rewrite E; now apply Rmult_integral_contrapositive_currified|]. intros phi Hphi. unfold mean. rewrite E, (copies_total _ _ _ _ phi H Hphi). field. auto.
Qed.

(** ** The loss and its derivatives are such means *)
Section Means.
Context (C : eval_cfg R) (k : loss_kind R) (HF : ec_F C = rops) (HLO : ec_LO C = rloss) (d : dataset R) (Hd : dataset_ok d) (Ht : total_weight d <> 0) (e : expr R) (t : tree).
Local Notation rows := (seq 0 (ds_n_rows d)).
Local Notation v := (fun r => teval (ec_O C) (row_feature d r) (fun i => nth i (consts e) 0) t).
Local Notation y := (row_target d).
Definition wt : option (nat -> R) := option_map (fun w r => nth r w 0) (ds_weights d).

Lemma total_sum phi : total d phi = sum (map (fun r => row_weight d r * phi (row_feature d r) (row_target d r)) rows).
Proof. reflexivity. Qed.
Lemma weight_none : ds_weights d = None -> total_weight d = INR (ds_n_rows d) /\ forall r, row_weight d r = 1.
Proof.
  intros H. assert (G : forall r, row_weight d r = 1) by (intros r; unfold row_weight; now rewrite H). split; [|exact G]. unfold total_weight. rewrite total_sum.
  rewrite (sum_ext _ (fun _ => 1)) by (intros r _; rewrite G; lra). rewrite <- fsum_sum, fsum_rsum, rsum_ones, seq_length. reflexivity.
Qed.
Lemma weight_some w : ds_weights d = Some w -> total_weight d = sum (map (fun r => nth r w 0) rows) /\ forall r, row_weight d r = nth r w 0.
Proof.
  intros H. assert (G : forall r, row_weight d r = nth r w 0) by (intros r; unfold row_weight; now rewrite H). split; [|exact G]. unfold total_weight. rewrite total_sum. apply sum_ext. intros r _. rewrite G. lra.
Qed.

Lemma point_mean_is p : point_mean rops rloss rows v y wt p = mean d (fun a b => pl_loss p (teval (ec_O C) a (fun i => nth i (consts e) 0) t) b).
Proof.
  unfold point_mean, mean, wt. rewrite total_sum. destruct (ds_weights d) as [w|] eqn:Ew; cbn [option_map].
  - destruct (weight_some w Ew) as [E G]. cbv zeta. rewrite !fsum_sum. rewrite <- E. destruct (reqb (total_weight d) 0) eqn:E0; [apply reqb_iff in E0; contradiction|]. cbn [feqb rops fzero]. rewrite E0.
    cbn [fdiv fmul rops]. f_equal. apply sum_ext. intros r _. now rewrite G.
  - destruct (weight_none Ew) as [E G]. rewrite fsum_sum. cbn [fdiv rops lo_of_nat rloss]. rewrite seq_length, <- E. f_equal. apply sum_ext. intros r _. rewrite G. lra.
Qed.
Lemma point_slope_is p (g : (nat -> R) -> R) : sum (map (fun r => point_slope rops rloss rows v y wt p r * g (row_feature d r)) rows)
  = mean d (fun a b => pl_dloss p (teval (ec_O C) a (fun i => nth i (consts e) 0) t) b * g a).
Proof.
  unfold point_slope, mean, wt. rewrite total_sum. destruct (ds_weights d) as [w|] eqn:Ew; cbn [option_map].
  - destruct (weight_some w Ew) as [E G]. cbv zeta. rewrite !fsum_sum. rewrite <- E. destruct (reqb (total_weight d) 0) eqn:E0; [apply reqb_iff in E0; contradiction|]. cbn [feqb rops fzero]. rewrite E0.
    unfold recip. cbn [fdiv fmul fone rops]. unfold Rdiv at 2. rewrite Rmult_comm, <- sum_scale. apply sum_ext. intros r _. rewrite G. field. exact Ht.
  - destruct (weight_none Ew) as [E G]. unfold recip. cbn [fdiv fmul fone rops lo_of_nat rloss]. rewrite seq_length, <- E. unfold Rdiv at 2. rewrite Rmult_comm, <- sum_scale. apply sum_ext. intros r _. rewrite G. field. exact Ht.
Qed.
Lemma rmse_slope_is (g : (nat -> R) -> R) : sum (map (fun r => rmse_slope rops rloss rows v y wt r * g (row_feature d r)) rows)
  = let m := sqrt (mean d (fun a b => pl_loss (squared_loss rops rloss) (teval (ec_O C) a (fun i => nth i (consts e) 0) t) b)) in
    if reqb m 0 then 0 else mean d (fun a b => (teval (ec_O C) a (fun i => nth i (consts e) 0) t - b) * g a) / m.
Proof.
  unfold rmse_slope. rewrite point_mean_is. cbn [lo_sqrt rloss]. set (m := sqrt _). cbv zeta. cbn [feqb ffinite rops fzero negb]. rewrite Bool.orb_false_r.
  destruct (reqb m 0) eqn:E0.
  - rewrite (sum_ext _ (fun _ => 0)); [apply sum_zero|]. intros r _. lra.
  - assert (Hm : m <> 0) by (intros H; apply reqb_iff in H; congruence). unfold mean. rewrite total_sum. unfold wt. destruct (ds_weights d) as [w|] eqn:Ew; cbn [option_map].
    + destruct (weight_some w Ew) as [E G]. rewrite !fsum_sum. rewrite <- E. destruct (reqb (total_weight d) 0) eqn:E1; [apply reqb_iff in E1; contradiction|].
      unfold recip. cbn [fdiv fmul fsub fone rops]. unfold Rdiv at 3. unfold Rdiv at 3. rewrite Rmult_assoc, Rmult_comm, <- sum_scale. apply sum_ext. intros r _. rewrite G. field. auto.
    + destruct (weight_none Ew) as [E G]. unfold recip. cbn [fdiv fmul fsub fone rops lo_of_nat rloss]. rewrite seq_length, <- E. unfold Rdiv at 3. unfold Rdiv at 3. rewrite Rmult_assoc, Rmult_comm, <- sum_scale.
      apply sum_ext. intros r _. rewrite G. field. auto.
Qed.
End Means.

Lemma tfinite_rops (O : OpSet R) var cst t : tfinite rops O var cst t = true.
Proof.
  induction t as [f|i|op ts IH] using tree_ind'; cbn [tfinite]; try reflexivity. cbn [ffinite rops]. rewrite ?Bool.andb_true_r, ?Bool.andb_true_l. induction IH as [|t ts Ht _ IHl]; cbn; auto. rewrite Ht. exact IHl.
Qed.

(** Data with the same weighted means look the same to every formula and every loss: same losses, same derivatives. *)
Theorem C74_same_view : forall (C : eval_cfg R) (k : loss_kind R) (d d' : dataset R),
  ec_F C = rops -> ec_LO C = rloss -> ec_loss C = make_loss rops rloss k -> dataset_ok d -> dataset_ok d' -> (1 <= ds_n_rows d)%nat -> (1 <= ds_n_rows d')%nat ->
  same_means d d' -> same_view C (well_formed C (ds_n_features d)) d d'.
Proof.
  intros C k d d' HF HLO Hk Hd Hd' Hn Hn' (Hnf & Ht & Ht' & Hm). destruct C as [F LO O h um D sz loss pars ub]. cbn [ec_F ec_LO ec_loss ec_O ec_D] in *. subst F LO loss.
  set (C := mkEvalCfg rops rloss O h um D sz (make_loss rops rloss k) pars ub).
  assert (Hmat : forall d, dataset_ok d -> mat_at rops (ds_x d) = row_feature d) by (intros d0 (_ & X2 & _); unfold mat_at, row_feature; rewrite X2; reflexivity).
  assert (Hval : forall d, dataset_ok d -> forall e t, value_at rops O e (ds_x d) t = fun r => teval O (row_feature d r) (fun i => nth i (consts e) 0) t)
    by (intros d0 H0 e t; unfold value_at; rewrite (Hmat d0 H0); reflexivity).
  assert (Hgr : forall d, dataset_ok d -> forall e t ci, grad_comp rops O e (ds_x d) false t ci
     = fun r => tder rops O (row_feature d r) (fun i => nth i (consts e) 0) (no_seed rops) (one_hot rops ci) true t) by (intros d0 H0 e t ci; unfold grad_comp; rewrite (Hmat d0 H0); reflexivity).
  assert (Hloc : forall e t, well_formed C (ds_n_features d) e -> represents e t -> forall a b, (forall f, (f < ds_n_features d)%nat -> a f = b f) ->
     teval O a (fun i => nth i (consts e) 0) t = teval O b (fun i => nth i (consts e) 0) t
     /\ forall ci, tder rops O a (fun i => nth i (consts e) 0) (no_seed rops) (one_hot rops ci) true t = tder rops O b (fun i => nth i (consts e) 0) (no_seed rops) (one_hot rops ci) true t).
  { intros e t (t0 & known & R0 & T0) Hr a b Hab. assert (t0 = t) as -> by (unfold represents in *; apply flatten_inj; congruence). split; [eapply teval_row; eauto|]. intros ci. eapply tder_row; eauto. }
  assert (Hpt : forall e t p, well_formed C (ds_n_features d) e -> represents e t ->
     mean d (fun a b => pl_loss p (teval O a (fun i => nth i (consts e) 0) t) b) = mean d' (fun a b => pl_loss p (teval O a (fun i => nth i (consts e) 0) t) b)).
  { intros e t p He Hr. apply Hm. intros a b y Hab. now rewrite (proj1 (Hloc e t He Hr a b Hab)). }
  assert (Hcomp : forall d e t, completes C d e t) by (intros d0 e t; split; [intros r _; apply tfinite_rops|intros; reflexivity]).
  split.
  - exact Hnf.
  - intros e t _ _. split; intros _; apply Hcomp.
  - intros e t He Hr _. rewrite (loss_view C k eq_refl d Hd Hn), (loss_view C k eq_refl d' Hd' Hn'). f_equal. cbn [ec_F ec_LO ec_O C]. rewrite (Hval d Hd), (Hval d' Hd').
    change (y_at rops d) with (row_target d). change (y_at rops d') with (row_target d'). change (w_at rops d) with (wt d). change (w_at rops d') with (wt d').
    destruct k; cbn [kind_loss]; rewrite ?(point_mean_is C d Ht), ?(point_mean_is C d' Ht'); cbn [ec_O C]; try (apply Hpt; auto). f_equal. apply Hpt; auto.
  - intros e t _ _ _. transitivity false; [|symmetry]; apply not_true_iff_false; rewrite existsb_exists; intros (x & _ & Hx); discriminate Hx.
  - intros e t out out' dl dl' ci He Hr _ Ho Ho' E1 E2 _. rewrite (slope_view C k eq_refl d Hd Hn e t out dl ci Ho E1), (slope_view C k eq_refl d' Hd' Hn' e t out' dl' ci Ho' E2).
    cbn [ec_F ec_LO ec_O C]. rewrite (Hval d Hd), (Hval d' Hd'), (Hgr d Hd), (Hgr d' Hd'), !fsum_sum.
    change (y_at rops d) with (row_target d). change (y_at rops d') with (row_target d'). change (w_at rops d) with (wt d). change (w_at rops d') with (wt d').
    set (G := fun a => tder rops O a (fun i => nth i (consts e) 0) (no_seed rops) (one_hot rops ci) true t).
    assert (HG : forall a b, (forall f, (f < ds_n_features d)%nat -> a f = b f) -> G a = G b) by (intros a b Hab; apply (Hloc e t He Hr a b Hab)).
    assert (Hps : forall p, sum (map (fun r => point_slope rops rloss (seq 0 (ds_n_rows d)) (fun r => teval O (row_feature d r) (fun i => nth i (consts e) 0) t) (row_target d) (wt d) p r * G (row_feature d r)) (seq 0 (ds_n_rows d)))
       = sum (map (fun r => point_slope rops rloss (seq 0 (ds_n_rows d')) (fun r => teval O (row_feature d' r) (fun i => nth i (consts e) 0) t) (row_target d') (wt d') p r * G (row_feature d' r)) (seq 0 (ds_n_rows d')))).
    { intros p. etransitivity; [exact (point_slope_is C d Ht e t p G)|]. etransitivity; [|symmetry; exact (point_slope_is C d' Ht' e t p G)]. apply Hm. intros a b y Hab. cbn [ec_O C]. rewrite (proj1 (Hloc e t He Hr a b Hab)), (HG a b Hab). reflexivity. }
    destruct k; cbn [kind_slope fmul rops]; try (apply Hps).
    etransitivity; [exact (rmse_slope_is C d Ht e t G)|]. etransitivity; [|symmetry; exact (rmse_slope_is C d' Ht' e t G)]. cbv zeta. cbn [ec_O C]. rewrite (Hpt e t _ He Hr). destruct (reqb _ 0); auto. f_equal. apply Hm.
    intros a b y Hab. rewrite (proj1 (Hloc e t He Hr a b Hab)), (HG a b Hab). reflexivity.
Qed.

(** What the constant optimizer minimises is the same function of the constants, and with it (C54) the gradient it is given. *)
Theorem C74_objective : forall (k : loss_kind R) (D : nat) known (d d' : dataset R) t cs,
  dataset_ok d -> dataset_ok d' -> (1 <= ds_n_rows d)%nat -> (1 <= ds_n_rows d')%nat -> same_means d d' -> tree_ok D (ds_n_features d) (List.length cs) known t ->
  objective_at k d t cs = objective_at k d' t cs.
Proof.
  intros k D known d d' t cs Hd Hd' Hn Hn' Hm Ht. set (e := mkExpr (flatten t) cs []).
  set (C := mkEvalCfg rops rloss rbuiltin (fun _ => 0%N) 0 D (mkSizeOpts 1 1 None [] 10 [] []) (make_loss rops rloss k) 0 false).
  pose proof (C74_same_view C k d d' eq_refl eq_refl eq_refl Hd Hd' Hn Hn' Hm) as V. unfold objective_at, loss_value.
  assert (He : well_formed C (ds_n_features d) e) by (exists t, known; split; [reflexivity|exact Ht]).
  assert (Hc : completes C d e t) by (split; [intros r _; apply tfinite_rops|intros; reflexivity]).
  pose proof (sv_loss _ _ _ _ V e t He eq_refl Hc) as E. unfold predictions in E. cbn [C ec_loss ec_F ec_O] in E.
  change (value_at rops rbuiltin e (ds_x d) t) with (fun r => teval rbuiltin (mat_at rops (ds_x d) r) (fun j => nth j cs 0) t) in E.
  change (value_at rops rbuiltin e (ds_x d') t) with (fun r => teval rbuiltin (mat_at rops (ds_x d') r) (fun j => nth j cs 0) t) in E. rewrite E. reflexivity.
Qed.

(** ** Special cases *)
Definition with_weights (d : dataset R) (w : option (list R)) : dataset R := mkData (ds_x d) (ds_y d) (ds_n_features d) (ds_n_rows d) w (ds_avg_y d).
Lemma sum_single (f : nat -> R) j n : (j < n)%nat -> sum (map (fun i => if Nat.eqb i j then f i else 0) (seq 0 n)) = f j.
Proof.
  intros H. rewrite (sum_ext _ (fun i => f i * (if Nat.eqb j i then 1 else 0))); [rewrite sum_delta by exact H; lra|]. intros i _. rewrite Nat.eqb_sym. destruct (Nat.eqb j i); lra.
Qed.
Lemma same_rows c d d' : ds_n_features d' = ds_n_features d -> ds_n_rows d' = ds_n_rows d -> ds_x d' = ds_x d -> ds_y d' = ds_y d ->
  (forall j, (j < ds_n_rows d)%nat -> row_weight d' j = c * row_weight d j) -> copies c (fun i => i) d d'.
Proof.
  intros H1 H2 H3 H4 H5. split; [exact H1|]. split.
  - intros i Hi. rewrite H2 in Hi. split; [exact Hi|]. unfold row_target, row_feature. rewrite H2, H3, H4. auto.
  - intros j Hj. rewrite H2. rewrite (sum_single (row_weight d') j _ Hj : fold_right _ _ _ = _). auto.
Qed.
(** Scaling all weights changes nothing. *)
Theorem C74_scaled_weights : forall c d w, ds_weights d = Some w -> c <> 0 -> total_weight d <> 0 -> same_means d (with_weights d (Some (map (Rmult c) w))).
Proof.
  intros c d w Hw Hc Ht. apply (C74_copies c (fun i => i)); auto. apply same_rows; auto. intros j _. unfold row_weight. cbn [with_weights ds_weights]. rewrite Hw.
  replace 0 with (c * 0) at 1 by lra. apply map_nth.
Qed.
(** Equal weights are like no weights. *)
Theorem C74_equal_weights : forall c d, ds_weights d = None -> (1 <= ds_n_rows d)%nat -> c <> 0 -> same_means d (with_weights d (Some (repeat c (ds_n_rows d)))).
Proof.
  intros c d Hw Hn Hc. apply (C74_copies c (fun i => i)); auto.
  - apply same_rows; auto. intros j Hj. unfold row_weight. cbn [with_weights ds_weights]. rewrite Hw. erewrite nth_error_nth; [apply eq_sym, Rmult_1_r|]. apply nth_error_repeat. exact Hj.
  - destruct (weight_none d Hw) as [E _]. rewrite E. apply not_0_INR. lia.
Qed.

(** Rows (1, 2), (2, 4), (3, 7) with weights 1, 0, 2, and the rows (3, 7), (1, 2), (3, 7) without weights. *)
Definition mean_data (b : bool) : dataset R :=
  if b then mkData (mkMat [1; 2; 3] 1 3) [2; 4; 7] 1 3 (Some [1; 0; 2]) 0 else mkData (mkMat [3; 1; 3] 1 3) [7; 2; 7] 1 3 None 0.
Example C74_case : dataset_ok (mean_data true) /\ dataset_ok (mean_data false) /\ same_means (mean_data true) (mean_data false)
  /\ mean (mean_data true) (fun a y => a 0%nat * y) = 44 / 3.
Proof.
  split; [split; [reflexivity|]; split; [reflexivity|]; split; [reflexivity|]; split; [reflexivity|]; intros w [= <-]; reflexivity|].
  split; [split; [reflexivity|]; split; [reflexivity|]; split; [reflexivity|]; split; [reflexivity|]; discriminate|].
  assert (Ht : total_weight (mean_data true) = 3) by (unfold total_weight, total; cbn; lra). split.
  - apply (C74_copies 1 (fun i => match i with 1%nat => 0%nat | _ => 2%nat end)); [|lra|lra]. split; [reflexivity|]. split.
    + intros [|[|[|i]]] Hi; cbn in Hi; try lia; (split; [cbn; lia|]); (split; [reflexivity|]); (intros [|f] Hf; [reflexivity|cbn in Hf; lia]).
    + intros [|[|[|j]]] Hj; cbn in Hj; try lia; cbn; lra.
  - unfold mean. rewrite Ht. unfold total. cbn. lra.
Qed.

Print Assumptions C74_copies.
Print Assumptions C74_same_view.
Print Assumptions C74_objective.
Print Assumptions C74_scaled_weights.
Print Assumptions C74_equal_weights.
Print Assumptions C74_case.
