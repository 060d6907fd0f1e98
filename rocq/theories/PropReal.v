(** Property C51: the built-in operators' partial derivatives are the derivatives of the built-in operators. *)
From Coq Require Import Reals Lra.
From Coquelicot Require Import Coquelicot.
From Verif Require Import Base BaseLemmas Node Builtin RealOps.
Local Open Scope R_scope.

(** ** Specification *)

(** Where the operators are differentiable. *)
Definition smooth1 (b : builtin1) (x : R) : Prop :=
  match b with
  | Abs | Cbrt | Inv | Sign => x <> 0
  | Acos | Asin | Atanh => -1 < x < 1
  | Acosh => 1 < x
  | Cot | Csc => sin x <> 0 /\ cos x <> 0
  | Log | Log2 | Log10 | Sqrt => 0 < x
  | Log1p => -1 < x
  | Sec | Tan => cos x <> 0
  | Abs2 | Asinh | Atan | Cos | Cosh | Exp | Exp2 | Expm1 | Identity | Neg | Sin | Sinh | Tanh => True
  end.
Definition smooth2 (b : builtin2) (x y : R) : Prop :=
  match b with
  | Add | Mul | Sub => True
  | Atan2 => x <> 0 \/ 0 < y
  | Div => y <> 0
  | Max | Min => x <> y
  | Pow => 0 < x
  end.
Definition smooth3 (b : builtin3) (x y z : R) : Prop :=
  match b with
  | Fma => True
  | Clamp => x <> y /\ x <> z /\ ~ (z < x < y)
  end.

(** The same by arity and id in the operator set. *)
Definition smooth (arity id : nat) (args : list R) : Prop :=
  match arity, args with
  | 1%nat, [x] => exists b, nth_error unary_ids id = Some b /\ smooth1 b x
  | 2%nat, [x; y] => exists b, nth_error binary_ids id = Some b /\ smooth2 b x y
  | 3%nat, [x; y; z] => exists b, nth_error ternary_ids id = Some b /\ smooth3 b x y z
  | _, _ => False
  end.
(** A curve through a point, with its velocity there. *)
Definition passes (c : R -> list R) (s : R) (p v : list R) : Prop :=
  List.length p = List.length v /\ (forall u, List.length (c u) = List.length p) /\ c s = p
  /\ forall i d, nth_error v i = Some d -> derivable_pt_lim (fun u => nth i (c u) 0) s d.
(** The sum of the products of the partial derivatives and the velocities. *)
Fixpoint weighted (partial : nat -> R) (i : nat) (v : list R) : R :=
  match v with [] => 0 | d :: v => partial i * d + weighted partial (S i) v end.

(** ** Proof *)
Lemma near (f : R -> R) s l (P : R -> Prop) : derivable_pt_lim f s l -> (exists d : posreal, forall v, Rabs (v - f s) < d -> P v) ->
  exists d : posreal, forall u, Rabs (u - s) < d -> P (f u).
Proof.
  intros Hd (d & HP). assert (Hc : continuity_pt f s) by (apply derivable_continuous_pt; exists l; exact Hd).
  destruct (Hc d (cond_pos d)) as (a & Ha & Hc'). exists (mkposreal a Ha). cbn. intros u Hu. apply HP.
  destruct (Req_dec u s) as [->|Hne]; [rewrite Rminus_diag_eq, Rabs_R0; [apply cond_pos|reflexivity]|].
  apply (Hc' u). split; [split; [exact I|auto]|exact Hu].
Qed.
Lemma lim_ext (f g : R -> R) s l : (exists d : posreal, forall u, Rabs (u - s) < d -> f u = g u) -> derivable_pt_lim f s l -> derivable_pt_lim g s l.
Proof.
  intros (d & H) Hf. apply is_derive_Reals. apply is_derive_Reals in Hf. apply (is_derive_ext_loc f g); auto.
  exists d. intros u Hu. apply H. exact Hu.
Qed.
Lemma above a x : a < x -> exists d : posreal, forall v, Rabs (v - x) < d -> a < v.
Proof. intros H. assert (0 < x - a) by lra. exists (mkposreal _ H0). cbn. intros v Hv. apply Rabs_def2 in Hv. lra. Qed.
Lemma below a x : x < a -> exists d : posreal, forall v, Rabs (v - x) < d -> v < a.
Proof. intros H. assert (0 < a - x) by lra. exists (mkposreal _ H0). cbn. intros v Hv. apply Rabs_def2 in Hv. lra. Qed.

Lemma asin_lim x : -1 < x < 1 -> derivable_pt_lim asin x (1 / sqrt (1 - x * x)).
Proof.
  intros H. destruct (derivable_pt_asin x H) as [l Hl] eqn:E. assert (El := derive_pt_asin x H). unfold derive_pt in El. rewrite E in El. cbn in El. subst l.
  unfold Rsqr in Hl. exact Hl.
Qed.
Lemma acos_lim x : -1 < x < 1 -> derivable_pt_lim acos x (-1 / sqrt (1 - x * x)).
Proof.
  intros H. destruct (derivable_pt_acos x H) as [l Hl] eqn:E. assert (El := derive_pt_acos x H). unfold derive_pt in El. rewrite E in El. cbn in El. subst l.
  unfold Rsqr in Hl. exact Hl.
Qed.
Lemma acosh_lim x : 1 < x -> derivable_pt_lim (fun x => ln (x + sqrt (x * x - 1))) x (1 / (sqrt (x - 1) * sqrt (x + 1))).
Proof.
  intros H. assert (Hp : 0 < x * x - 1) by nra. pose proof (sqrt_lt_R0 _ Hp) as Hs. rewrite <- sqrt_mult by lra. replace ((x - 1) * (x + 1)) with (x * x - 1) by ring.
  apply is_derive_Reals. auto_derive; [repeat split; change (x * x + - (1)) with (x * x - 1); try lra|]. change (x * x + - (1)) with (x * x - 1). field. lra.
Qed.
Lemma cbrt_pos x : 0 < x -> 1 / (3 * (Rpower x (/ 3) * Rpower x (/ 3))) = / 3 * Rpower x (/ 3 - 1).
Proof.
  intros H. rewrite <- Rpower_plus. pose proof (exp_pos ((/ 3 + / 3) * ln x)) as Hp. fold (Rpower x (/ 3 + / 3)) in Hp.
  replace (/ 3 - 1) with (- (/ 3 + / 3)) by field. rewrite Rpower_Ropp. field. lra.
Qed.
Lemma cbrt_lim x : x <> 0 -> derivable_pt_lim rcbrt x (1 / (3 * (rcbrt x * rcbrt x))).
Proof.
  intros H. destruct (Rlt_dec 0 x) as [Hp|Hp].
  - apply (lim_ext (fun x => Rpower x (/ 3))).
    + destruct (above 0 x Hp) as (d & Hd). exists d. intros u Hu. apply Hd in Hu. unfold rcbrt. destruct (Rlt_dec 0 u); [reflexivity|lra].
    + unfold rcbrt. destruct (Rlt_dec 0 x); [|lra]. rewrite cbrt_pos by auto. apply derivable_pt_lim_power. auto.
  - assert (Hn : x < 0) by lra. apply (lim_ext (fun x => - Rpower (- x) (/ 3))).
    + destruct (below 0 x Hn) as (d & Hd). exists d. intros u Hu. apply Hd in Hu. unfold rcbrt. destruct (Rlt_dec 0 u); [lra|]. destruct (Rlt_dec u 0); [reflexivity|lra].
    + unfold rcbrt. destruct (Rlt_dec 0 x); [lra|]. destruct (Rlt_dec x 0); [|lra]. rewrite Rmult_opp_opp, cbrt_pos by lra.
      replace (/ 3 * Rpower (- x) (/ 3 - 1)) with (- ((/ 3 * Rpower (- x) (/ 3 - 1)) * -1)) by ring.
      apply (derivable_pt_lim_opp (fun x => Rpower (- x) (/ 3))). apply (derivable_pt_lim_comp Ropp (fun x => Rpower x (/ 3))).
      * apply is_derive_Reals. auto_derive; auto.
      * apply derivable_pt_lim_power. lra.
Qed.
Lemma tan_lim x : cos x <> 0 -> derivable_pt_lim tan x (1 / (cos x * cos x)).
Proof.
  intros H. apply is_derive_Reals. replace (1 / (cos x * cos x)) with (tan x ^ 2 + 1); [apply is_derive_tan; auto|]. unfold tan. pose proof (sin2_cos2 x) as E. unfold Rsqr in E.
  replace 1 with (sin x * sin x + cos x * cos x) at 2 by exact E. field. auto.
Qed.
Lemma cosh_pos x : 0 < cosh x.
Proof. unfold cosh. pose proof (exp_pos x). pose proof (exp_pos (- x)). lra. Qed.
Lemma cosh_sinh x : cosh x * cosh x - sinh x * sinh x = 1.
Proof. unfold cosh, sinh. assert (E : exp x * exp (- x) = 1) by (rewrite <- exp_plus, Rplus_opp_r; apply exp_0). nra. Qed.
Lemma tanh_lim x : derivable_pt_lim tanh x (1 / (cosh x * cosh x)).
Proof.
  pose proof (cosh_pos x) as Hc. unfold tanh. replace (1 / (cosh x * cosh x)) with ((cosh x * cosh x - sinh x * sinh x) / Rsqr (cosh x)).
  - apply (derivable_pt_lim_div sinh cosh); [apply derivable_pt_lim_sinh|apply derivable_pt_lim_cosh|lra].
  - rewrite cosh_sinh. reflexivity.
Qed.
Lemma abs_lim x : x <> 0 -> derivable_pt_lim Rabs x (if fgtb rops x 0 then 1 else if rltb x 0 then - 1 else 0).
Proof.
  intros H. unfold fgtb. cbn [fltb rops]. destruct (rltb 0 x) eqn:E1; [apply rltb_iff in E1; apply Rabs_derive_1; auto|].
  apply rltb_false in E1. assert (x < 0) by lra. destruct (rltb x 0) eqn:E2; [apply Rabs_derive_2; auto|]. apply rltb_false in E2. lra.
Qed.
Lemma sign_lim x : x <> 0 -> derivable_pt_lim rsignum x 0.
Proof.
  intros H. destruct (Rlt_dec x 0) as [Hp|Hp].
  - apply (lim_ext (fun _ => -1)); [|apply derivable_pt_lim_const]. destruct (below 0 x Hp) as (d & Hd). exists d. intros u Hu. apply Hd in Hu. unfold rsignum. destruct (Rlt_dec u 0); [auto|lra].
  - assert (Hn : 0 < x) by lra. apply (lim_ext (fun _ => 1)); [|apply derivable_pt_lim_const]. destruct (above 0 x Hn) as (d & Hd). exists d. intros u Hu. apply Hd in Hu. unfold rsignum.
    destruct (Rlt_dec u 0); [lra|auto].
Qed.

Lemma unary_lim b x : smooth1 b x -> derivable_pt_lim (eval1 rops rmath b) x (partial1 rops rmath b x).
Proof.
  change (smooth1 b x -> derivable_pt_lim (fun u => eval1 rops rmath b u) x (partial1 rops rmath b x)).
  destruct b; cbn [smooth1 eval1 partial1 rops rmath two fadd fsub fmul fdiv fneg fone fzero mo_abs mo_acos mo_acosh mo_asin mo_asinh mo_atan mo_atanh mo_cbrt mo_cos mo_cosh mo_tan mo_sin
    mo_exp mo_exp2 mo_exp_m1 mo_recip mo_ln mo_ln_1p mo_log2 mo_log10 mo_signum mo_sinh mo_sqrt mo_tanh mo_three mo_ten]; intros H.
  - cbn [fgtb fltb]. apply abs_lim; auto.
  - apply is_derive_Reals. auto_derive; auto. ring.
  - apply acos_lim; auto.
  - apply acosh_lim; auto.
  - apply asin_lim; auto.
  - replace (1 / sqrt (x * x + 1)) with (/ sqrt (x ^ 2 + 1)); [apply derivable_pt_lim_arcsinh|]. unfold Rdiv. rewrite Rmult_1_l. do 2 f_equal. ring.
  - replace (1 / (1 + x * x)) with (/ (1 + x ^ 2)); [apply Ratan.derivable_pt_lim_atan|]. unfold Rdiv. rewrite Rmult_1_l. do 2 f_equal. ring.
  - apply is_derive_Reals. assert (0 < (1 + x) / (1 - x)) by (apply Rdiv_lt_0_compat; lra). auto_derive; [split; [lra|split; auto]|]. field. repeat split; nra || lra.
  - apply cbrt_lim; auto.
  - apply derivable_pt_lim_cos.
  - apply derivable_pt_lim_cosh.
  - destruct H as [Hs Hc]. assert (Ht : tan x <> 0) by (unfold tan; apply Rmult_integral_contrapositive; split; auto; apply Rinv_neq_0_compat; auto).
    replace (- (1) / (sin x * sin x)) with ((0 * tan x - 1 / (cos x * cos x) * 1) / Rsqr (tan x)) by (unfold Rsqr, tan; field; auto).
    apply (derivable_pt_lim_div (fun _ => 1) tan); [apply derivable_pt_lim_const|apply tan_lim; auto|auto].
  - destruct H as [Hs Hc]. apply is_derive_Reals. auto_derive; auto. unfold tan. field. auto.
  - apply derivable_pt_lim_exp.
  - apply is_derive_Reals. unfold Rpower. auto_derive; auto. replace (1 + 1) with 2 by ring. ring.
  - apply is_derive_Reals. auto_derive; auto; ring.
  - apply derivable_pt_lim_id.
  - apply is_derive_Reals. auto_derive; [exact H|]. field. auto.
  - unfold Rdiv. rewrite Rmult_1_l. apply derivable_pt_lim_ln; auto.
  - apply is_derive_Reals. auto_derive; [lra|]. field. lra.
  - apply is_derive_Reals. replace (1 + 1) with 2 by ring. auto_derive; auto. assert (ln 2 <> 0) by (apply ln_neq_0; lra). field. split; lra.
  - apply is_derive_Reals. auto_derive; auto. assert (ln 10 <> 0) by (apply ln_neq_0; lra). field. split; lra.
  - apply is_derive_Reals. auto_derive; auto.
  - apply is_derive_Reals. auto_derive; auto. unfold tan. field. auto.
  - apply sign_lim; auto.
  - apply derivable_pt_lim_sin.
  - apply derivable_pt_lim_sinh.
  - replace (1 + 1) with 2 by ring. unfold Rdiv. rewrite Rmult_1_l. apply derivable_pt_lim_sqrt; auto.
  - apply tan_lim; auto.
  - apply tanh_lim.
Qed.

(** *** Along curves *)
Lemma lim_eq (f : R -> R) s l l' : derivable_pt_lim f s l -> l = l' -> derivable_pt_lim f s l'.
Proof. intros H <-. exact H. Qed.
Lemma positive_near (f : R -> R) s l : derivable_pt_lim f s l -> 0 < f s -> exists d : posreal, forall u, Rabs (u - s) < d -> 0 < f u.
Proof. intros Hd Hp. apply (near f s l (fun v => 0 < v)); auto. apply above. auto. Qed.
Lemma less_near (f g : R -> R) s lf lg : derivable_pt_lim f s lf -> derivable_pt_lim g s lg -> f s < g s -> exists d : posreal, forall u, Rabs (u - s) < d -> f u < g u.
Proof.
  intros Hf Hg Hl. destruct (positive_near (fun u => g u - f u) s (lg - lf)) as (d & Hd).
  - apply derivable_pt_lim_minus; auto.
  - lra.
  - exists d. intros u Hu. apply Hd in Hu. lra.
Qed.
Lemma both_near (P Q : R -> Prop) s : (exists d : posreal, forall u, Rabs (u - s) < d -> P u) -> (exists d : posreal, forall u, Rabs (u - s) < d -> Q u) ->
  exists d : posreal, forall u, Rabs (u - s) < d -> P u /\ Q u.
Proof.
  intros (d1 & H1) (d2 & H2). assert (Hm : 0 < Rmin d1 d2) by (apply Rmin_glb_lt; apply cond_pos). exists (mkposreal _ Hm). cbn. intros u Hu.
  pose proof (Rmin_l d1 d2). pose proof (Rmin_r d1 d2). split; [apply H1|apply H2]; lra.
Qed.
Lemma near_ext (P : R -> Prop) (f g : R -> R) s l : (exists d : posreal, forall u, Rabs (u - s) < d -> P u) -> (forall u, P u -> f u = g u) ->
  derivable_pt_lim f s l -> derivable_pt_lim g s l.
Proof. intros (d & Hd) He. apply lim_ext. exists d. auto. Qed.
Lemma unary_curve b (f : R -> R) s l : smooth1 b (f s) -> derivable_pt_lim f s l -> derivable_pt_lim (fun u => eval1 rops rmath b (f u)) s (partial1 rops rmath b (f s) * l).
Proof. intros Hs Hf. apply (derivable_pt_lim_comp f (eval1 rops rmath b)); auto. apply unary_lim. auto. Qed.

Lemma atan_curve (f : R -> R) s l : derivable_pt_lim f s l -> derivable_pt_lim (fun u => atan (f u)) s (/ (1 + f s ^ 2) * l).
Proof. intros Hf. apply (derivable_pt_lim_comp f atan); auto. apply Ratan.derivable_pt_lim_atan. Qed.
Lemma div_curve (f g : R -> R) s lf lg : derivable_pt_lim f s lf -> derivable_pt_lim g s lg -> g s <> 0 ->
  derivable_pt_lim (fun u => f u / g u) s (1 / g s * lf + - f s / (g s * g s) * lg).
Proof. intros Hf Hg Hn. eapply lim_eq; [apply (derivable_pt_lim_div f g); eauto|]. unfold Rsqr. field. auto. Qed.

Lemma ratan2_right y x : 0 < x -> ratan2 y x = atan (y / x).
Proof.
  intros Hx. unfold ratan2. destruct (Rlt_dec 0 y) as [Hy|Hy].
  - rewrite <- atan_inv by (apply Rdiv_lt_0_compat; lra). f_equal. field. lra.
  - destruct (Rlt_dec y 0) as [Hn|Hn].
    + replace (y / x) with (- (/ (x / - y))) by (field; lra). rewrite atan_opp, atan_inv by (apply Rdiv_lt_0_compat; lra).
      replace (x / y) with (- (x / - y)) by (field; lra). rewrite atan_opp. ring.
    + replace y with 0 by lra. destruct (Rlt_dec x 0); [lra|]. unfold Rdiv. rewrite Rmult_0_l, atan_0. reflexivity.
Qed.
Lemma atan2_curve (f g : R -> R) s lf lg : f s <> 0 \/ 0 < g s -> derivable_pt_lim f s lf -> derivable_pt_lim g s lg ->
  derivable_pt_lim (fun u => ratan2 (f u) (g u)) s (g s / (g s * g s + f s * f s) * lf + - f s / (g s * g s + f s * f s) * lg).
Proof.
  intros Hs Hf Hg. destruct (Rlt_dec 0 (f s)) as [Hp|Hp]; [|destruct (Rlt_dec (f s) 0) as [Hn|Hn]].
  - apply (near_ext (fun u => 0 < f u) (fun u => PI / 2 - atan (g u / f u))).
    + eapply positive_near; eauto.
    + intros u Hu. unfold ratan2. destruct (Rlt_dec 0 (f u)); [auto|lra].
    + eapply lim_eq; [apply (derivable_pt_lim_minus (fun _ => PI / 2) (fun u => atan (g u / f u))); [apply derivable_pt_lim_const|apply (atan_curve (fun u => g u / f u)); apply div_curve; eauto; lra]|].
      cbv beta. field. split; nra.
  - apply (near_ext (fun u => f u < 0) (fun u => - (PI / 2) - atan (g u / f u))).
    + apply (less_near f (fun _ => 0) s lf 0); auto. apply derivable_pt_lim_const.
    + intros u Hu. unfold ratan2. destruct (Rlt_dec 0 (f u)); [lra|]. destruct (Rlt_dec (f u) 0); [auto|lra].
    + eapply lim_eq; [apply (derivable_pt_lim_minus (fun _ => - (PI / 2)) (fun u => atan (g u / f u))); [apply derivable_pt_lim_const|apply (atan_curve (fun u => g u / f u)); apply div_curve; eauto; lra]|].
      cbv beta. field. split; nra.
  - assert (Hg0 : 0 < g s) by (destruct Hs; lra). apply (near_ext (fun u => 0 < g u) (fun u => atan (f u / g u))).
    + eapply positive_near; eauto.
    + intros u Hu. symmetry. apply ratan2_right. auto.
    + eapply lim_eq; [apply (atan_curve (fun u => f u / g u)); apply div_curve; eauto; lra|]. cbv beta. field. split; nra.
Qed.
Lemma max_curve (f g : R -> R) s lf lg : f s <> g s -> derivable_pt_lim f s lf -> derivable_pt_lim g s lg ->
  derivable_pt_lim (fun u => Rmax (f u) (g u)) s (max_partial rops rmath (f s) (g s) * lf + max_partial rops rmath (g s) (f s) * lg).
Proof.
  intros Hs Hf Hg. unfold max_partial, fgtb. cbn [rmath mo_is_nan andb fltb rops fone fzero mo_half]. destruct (Rlt_dec (f s) (g s)) as [Hl|Hl].
  - pose proof Hl as Hl1. apply rltb_iff in Hl1. rewrite Hl1. assert (rltb (g s) (f s) = false) as -> by (apply rltb_false; lra).
    apply (near_ext (fun u => f u < g u) g); [eapply less_near; eauto|intros u Hu; rewrite Rmax_right; lra|eapply lim_eq; [exact Hg|ring]].
  - assert (Hl' : g s < f s) by lra. pose proof Hl' as Hl1. apply rltb_iff in Hl1. rewrite Hl1. assert (rltb (f s) (g s) = false) as -> by (apply rltb_false; lra).
    apply (near_ext (fun u => g u < f u) f); [eapply less_near; eauto|intros u Hu; rewrite Rmax_left; lra|eapply lim_eq; [exact Hf|ring]].
Qed.
Lemma min_curve (f g : R -> R) s lf lg : f s <> g s -> derivable_pt_lim f s lf -> derivable_pt_lim g s lg ->
  derivable_pt_lim (fun u => Rmin (f u) (g u)) s (min_partial rops rmath (f s) (g s) * lf + min_partial rops rmath (g s) (f s) * lg).
Proof.
  intros Hs Hf Hg. unfold min_partial, fgtb. cbn [rmath mo_is_nan andb fltb rops fone fzero mo_half]. destruct (Rlt_dec (f s) (g s)) as [Hl|Hl].
  - pose proof Hl as Hl1. apply rltb_iff in Hl1. rewrite Hl1. assert (rltb (g s) (f s) = false) as -> by (apply rltb_false; lra).
    apply (near_ext (fun u => f u < g u) f); [eapply less_near; eauto|intros u Hu; rewrite Rmin_left; lra|eapply lim_eq; [exact Hf|ring]].
  - assert (Hl' : g s < f s) by lra. pose proof Hl' as Hl1. apply rltb_iff in Hl1. rewrite Hl1. assert (rltb (f s) (g s) = false) as -> by (apply rltb_false; lra).
    apply (near_ext (fun u => g u < f u) g); [eapply less_near; eauto|intros u Hu; rewrite Rmin_right; lra|eapply lim_eq; [exact Hg|ring]].
Qed.

Lemma binary_curve b (f g : R -> R) s lf lg : smooth2 b (f s) (g s) -> derivable_pt_lim f s lf -> derivable_pt_lim g s lg ->
  derivable_pt_lim (fun u => eval2 rops rmath b (f u) (g u)) s (partial2 rops rmath b (f s) (g s) 0 * lf + partial2 rops rmath b (f s) (g s) 1 * lg).
Proof.
  intros Hs Hf Hg. destruct b; cbn [smooth2 eval2 partial2 rops rmath fadd fsub fmul fdiv fneg fone fzero mo_atan2 mo_max mo_min mo_powf mo_ln] in *.
  - eapply lim_eq; [apply (derivable_pt_lim_plus f g); eauto|ring].
  - apply atan2_curve; auto.
  - apply div_curve; auto.
  - apply max_curve; auto.
  - apply min_curve; auto.
  - eapply lim_eq; [apply (derivable_pt_lim_mult f g); eauto|ring].
  - unfold Rpower at 1. eapply lim_eq.
    + apply (derivable_pt_lim_comp (fun u => g u * ln (f u)) exp); [|apply derivable_pt_lim_exp]. apply (derivable_pt_lim_mult g (fun u => ln (f u))); [exact Hg|].
      apply (derivable_pt_lim_comp f ln); [exact Hf|apply derivable_pt_lim_ln; auto].
    + cbv beta. change (exp (g s * ln (f s))) with (Rpower (f s) (g s)). unfold Rminus. rewrite Rpower_plus, Rpower_Ropp, Rpower_1 by auto. field. lra.
  - eapply lim_eq; [apply (derivable_pt_lim_minus f g); eauto|ring].
Qed.

Lemma ternary_curve b (f g h : R -> R) s lf lg lh : smooth3 b (f s) (g s) (h s) -> derivable_pt_lim f s lf -> derivable_pt_lim g s lg -> derivable_pt_lim h s lh ->
  derivable_pt_lim (fun u => eval3 rops rmath b (f u) (g u) (h u)) s
    (partial3 rops b (f s) (g s) (h s) 0 * lf + partial3 rops b (f s) (g s) (h s) 1 * lg + partial3 rops b (f s) (g s) (h s) 2 * lh).
Proof.
  intros Hs Hf Hg Hh. destruct b; cbn [smooth3] in Hs.
  - unfold eval3, partial3, fgtb, fleb. cbn [rops fltb feqb fzero fone rmath mo_clamp]. destruct Hs as (N1 & N2 & N3).
    assert (Hv : forall u, (if rltb (g u) (h u) || reqb (g u) (h u) then rclamp (f u) (g u) (h u) else if rltb (f u) (g u) then g u else if rltb (h u) (f u) then h u else f u)
      = rclamp (f u) (g u) (h u)).
    { intros u. unfold rclamp, rltb. destruct (Rlt_dec (g u) (h u)); cbn [orb]; auto. destruct (reqb (g u) (h u)); auto. destruct (Rlt_dec (f u) (g u)); auto. destruct (Rlt_dec (h u) (f u)); auto. }
    apply (lim_ext (fun u => rclamp (f u) (g u) (h u))); [exists (mkposreal 1 Rlt_0_1); intros u _; symmetry; apply Hv|].
    destruct (Rlt_dec (f s) (g s)) as [Hl|Hl].
    + (* below *) assert (Hz : rltb (h s) (f s) = false) by (apply rltb_false; lra). rewrite Hz. pose proof Hl as Hl1. apply rltb_iff in Hl1. rewrite Hl1. cbn [orb].
      apply (near_ext (fun u => f u < g u) g); [eapply less_near; eauto|intros u Hu; unfold rclamp; destruct (Rlt_dec (f u) (g u)); [auto|lra]|eapply lim_eq; [exact Hg|ring]].
    + assert (Hgt : g s < f s) by lra. assert (Hz : rltb (f s) (g s) = false) by (apply rltb_false; lra). rewrite Hz. cbn [orb]. destruct (Rlt_dec (h s) (f s)) as [Hh2|Hh2].
      * pose proof Hh2 as Hl1. apply rltb_iff in Hl1. rewrite Hl1. apply (near_ext (fun u => g u < f u /\ h u < f u) h).
        -- apply both_near; eapply less_near; eauto.
        -- intros u [U1 U2]. unfold rclamp. destruct (Rlt_dec (f u) (g u)); [lra|]. destruct (Rlt_dec (h u) (f u)); [auto|lra].
        -- eapply lim_eq; [exact Hh|ring].
      * assert (Hz2 : rltb (h s) (f s) = false) by (apply rltb_false; lra). rewrite Hz2. apply (near_ext (fun u => g u < f u /\ f u < h u) f).
        -- apply both_near; eapply less_near; eauto; lra.
        -- intros u [U1 U2]. unfold rclamp. destruct (Rlt_dec (f u) (g u)); [lra|]. destruct (Rlt_dec (h u) (f u)); [lra|auto].
        -- eapply lim_eq; [exact Hf|ring].
  - cbn [eval3 partial3 rmath mo_mul_add rops fone]. eapply lim_eq; [apply (derivable_pt_lim_plus (fun u => f u * g u) h); [apply (derivable_pt_lim_mult f g); eauto|exact Hh]|]. cbv beta. ring.
Qed.

(** ** C51 *)

(** Along every differentiable curve through a smooth point, the operator's value changes at the rate its partial derivatives say. *)
Theorem C51_chain_rule : forall arity id (c : R -> list R) s p v, smooth arity id p -> passes c s p v ->
  derivable_pt_lim (fun u => oeval rbuiltin arity id (c u)) s (weighted (opartial rbuiltin arity id p) 0 v).
Proof.
  intros a id c s p v Hs (Hl & Hc & Hp & Hd).
  destruct a as [|[|[|[|a]]]]; try contradiction.
  - destruct p as [|x [|]]; try contradiction. destruct Hs as (b & Hb & Hs). destruct v as [|d [|]]; try discriminate.
    apply (lim_ext (fun u => eval1 rops rmath b (nth 0 (c u) 0))).
    + exists (mkposreal 1 Rlt_0_1). intros u _. specialize (Hc u). destruct (c u) as [|y [|]]; try discriminate. cbn [rbuiltin builtin_ops oeval]. rewrite Hb. reflexivity.
    + eapply lim_eq; [apply (unary_curve b (fun u => nth 0 (c u) 0)); [rewrite Hp; exact Hs|apply Hd; reflexivity]|].
      cbn [rbuiltin builtin_ops opartial weighted]. rewrite Hp, Hb. cbn [nth]. ring.
  - destruct p as [|x [|y [|]]]; try contradiction. destruct Hs as (b & Hb & Hs). destruct v as [|d1 [|d2 [|]]]; try discriminate.
    apply (lim_ext (fun u => eval2 rops rmath b (nth 0 (c u) 0) (nth 1 (c u) 0))).
    + exists (mkposreal 1 Rlt_0_1). intros u _. specialize (Hc u). destruct (c u) as [|y1 [|y2 [|]]]; try discriminate. cbn [rbuiltin builtin_ops oeval]. rewrite Hb. reflexivity.
    + eapply lim_eq; [apply (binary_curve b (fun u => nth 0 (c u) 0) (fun u => nth 1 (c u) 0)); [rewrite Hp; exact Hs|apply Hd; reflexivity|apply Hd; reflexivity]|].
      cbn [rbuiltin builtin_ops opartial weighted]. rewrite Hp, Hb. cbn [nth]. ring.
  - destruct p as [|x [|y [|z [|]]]]; try contradiction. destruct Hs as (b & Hb & Hs). destruct v as [|d1 [|d2 [|d3 [|]]]]; try discriminate.
    apply (lim_ext (fun u => eval3 rops rmath b (nth 0 (c u) 0) (nth 1 (c u) 0) (nth 2 (c u) 0))).
    + exists (mkposreal 1 Rlt_0_1). intros u _. specialize (Hc u). destruct (c u) as [|y1 [|y2 [|y3 [|]]]]; try discriminate. cbn [rbuiltin builtin_ops oeval]. rewrite Hb. reflexivity.
    + eapply lim_eq; [apply (ternary_curve b (fun u => nth 0 (c u) 0) (fun u => nth 1 (c u) 0) (fun u => nth 2 (c u) 0));
        [rewrite Hp; exact Hs|apply Hd; reflexivity|apply Hd; reflexivity|apply Hd; reflexivity]|].
      cbn [rbuiltin builtin_ops opartial weighted]. rewrite Hp, Hb. cbn [nth]. ring.
Qed.

(** In particular, the i-th partial is the derivative in the i-th argument. *)
Theorem C51_partial_derivatives : forall arity id args i x, smooth arity id args -> nth_error args i = Some x ->
  derivable_pt_lim (fun v => oeval rbuiltin arity id (upd args i v)) x (opartial rbuiltin arity id args i).
Proof.
  intros a id args i x Hs Hi. assert (Hlt : (i < List.length args)%nat) by (apply nth_error_Some; congruence).
  set (v := map (fun j => if Nat.eqb j i then 1 else 0) (seq 0 (List.length args))).
  assert (Hself : upd args i x = args).
  { apply nth_error_ext. intros j. destruct (Nat.eq_dec j i) as [->|Hne]; [rewrite nth_error_upd_same; auto|rewrite nth_error_upd_other; auto]. }
  eapply lim_eq; [apply (C51_chain_rule a id (fun u => upd args i u) x args v Hs)|].
  - split; [unfold v; rewrite map_length, seq_length; reflexivity|]. split; [intros u; apply upd_length|]. split; [exact Hself|].
    intros j d Hj. unfold v in Hj. rewrite nth_error_map in Hj. destruct (nth_error (seq 0 (List.length args)) j) as [k|] eqn:Ek; [|discriminate].
    assert (Hk : k = j /\ (j < List.length args)%nat).
    { assert (j < List.length (seq 0 (List.length args)))%nat by (apply nth_error_Some; congruence). rewrite seq_length in *. split; auto.
      apply (nth_error_nth _ _ 0%nat) in Ek. rewrite seq_nth in Ek by auto. lia. }
    destruct Hk as [-> Hjl]. cbn in Hj. injection Hj as <-. destruct (Nat.eqb_spec j i) as [->|Hne].
    + apply (lim_ext (fun u => u)); [|apply derivable_pt_lim_id]. exists (mkposreal 1 Rlt_0_1). intros u _. symmetry. apply nth_error_nth. apply nth_error_upd_same; auto.
    + destruct (nth_error args j) as [y|] eqn:Ej; [|apply nth_error_None in Ej; lia].
      apply (lim_ext (fun u => y)); [|apply derivable_pt_lim_const]. exists (mkposreal 1 Rlt_0_1). intros u _. symmetry. apply nth_error_nth. rewrite nth_error_upd_other; auto.
  - unfold v. clear - Hlt. assert (G : forall P n k, weighted P k (map (fun j => if Nat.eqb j i then 1 else 0) (seq k n)) = if Nat.leb k i && Nat.ltb i (k + n) then P i else 0).
    { intros P. induction n as [|n IH]; intros k; cbn [seq map weighted].
      - rewrite Nat.add_0_r. destruct (Nat.leb_spec k i), (Nat.ltb_spec i k); cbn; try reflexivity; lia.
      - rewrite IH. destruct (Nat.eqb_spec k i) as [->|Hne].
        + destruct (Nat.leb_spec (S i) i); [lia|]. destruct (Nat.leb_spec i i); [|lia]. destruct (Nat.ltb_spec i (i + S n)); [|lia]. cbn. ring.
        + destruct (Nat.leb_spec (S k) i), (Nat.leb_spec k i), (Nat.ltb_spec i (S k + n)), (Nat.ltb_spec i (k + S n)); cbn; try lia; ring. }
    rewrite G. cbn [Nat.leb andb]. destruct (Nat.ltb_spec i (0 + List.length args)); [reflexivity|cbn in *; lia].
Qed.

(** Every built-in operator has such points. *)
Example C51_case : forall arity id, oknown rbuiltin arity id = true -> exists args, smooth arity id args.
Proof.
  intros [|[|[|[|a]]]] id H; try discriminate; cbn [rbuiltin builtin_ops oknown] in H; apply Nat.ltb_lt in H; cbn in H.
  - assert (Hsin : sin 1 <> 0) by (assert (0 < sin 1); [apply sin_gt_0; [lra|pose proof PI2_1; lra]|lra]).
    assert (Hcos : cos 1 <> 0) by (assert (0 < cos 1); [apply cos_gt_0; pose proof PI2_1; lra|lra]).
    destruct (nth_error unary_ids id) as [b|] eqn:E; [|apply nth_error_None in E; cbn in E; lia].
    exists [match b with Acos | Asin | Atanh => 0 | Acosh => 2 | _ => 1 end]. exists b. split; [exact E|]. destruct b; cbn; try exact I; try lra; auto.
  - destruct (nth_error binary_ids id) as [b|] eqn:E; [|apply nth_error_None in E; cbn in E; lia]. exists [1; 2], b. split; [exact E|]. destruct b; cbn; try exact I; lra.
  - destruct (nth_error ternary_ids id) as [b|] eqn:E; [|apply nth_error_None in E; cbn in E; lia]. exists [1; 0; 2], b. split; [exact E|]. destruct b; cbn; try exact I; lra.
Qed.

(** Not so for [clamp] with its limits the wrong way round and x between them (operator_enum.rs:604-634): clamp(2, 3, 1) is the lower limit 3 and stays 3 when the upper
    limit moves, but its partial derivative in the upper limit is 1. *)
Theorem C51_clamp_refuted :
  derivable_pt_lim (fun hi => oeval rbuiltin 3 0 [2; 3; hi]) 1 0 /\ opartial rbuiltin 3 0 [2; 3; 1] 2 = 1.
Proof.
  split.
  - apply (lim_ext (fun _ => 3)); [|apply derivable_pt_lim_const]. exists (mkposreal 1 Rlt_0_1). intros u Hu. cbn in Hu. apply Rabs_def2 in Hu.
    cbn [rbuiltin builtin_ops oeval nth_error ternary_ids eval3 rmath mo_clamp fleb fgtb fltb feqb rops]. unfold rclamp, rltb. destruct (fleb rops 3 u), (Rlt_dec 2 3); reflexivity || lra.
  - cbn [rbuiltin builtin_ops opartial nth_error ternary_ids partial3]. unfold fgtb. cbn [fltb rops fone fzero]. unfold rltb. destruct (Rlt_dec 1 2); [reflexivity|lra].
Qed.

Print Assumptions C51_chain_rule.
Print Assumptions C51_partial_derivatives.
Print Assumptions C51_clamp_refuted.
