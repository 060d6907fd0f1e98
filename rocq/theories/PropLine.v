(** Property C62: the step lengths tried by the line search over the real numbers. *)
From Coq Require Import QArith Qabs Qminmax Lqa Reals Lra.
From Verif Require Import Base BaseLemmas Node Compile Eval Num Instances Dataset Optim PropOptim RealOps PropQuasi.
Local Open Scope R_scope.

(** ** Specification *)

(** The optimiser's constants and functions are the real ones. *)
Record line_opt (OO : OptOps R) : Prop := {
  lo_real : real_opt OO;
  lo_sqrt : forall x, oo_sqrt OO x = sqrt x;
  lo_min : forall x y, oo_min OO x y = Rmin x y;
  lo_two : oo_two OO = 2;
  lo_three : oo_three OO = 3;
  lo_eps : 0 <= oo_eps OO;
  lo_tries : (0 < oo_finite_max OO)%nat }.
(** Sensible settings, such as the defaults c1 = 1e-4, rho between 0.1 and 0.5, 1000 iterations. *)
Record line_settings (ls : backtracking R) : Prop := {
  st_c1 : 0 < bt_c1 ls < 1;
  st_rho : 0 < bt_rho_lo ls <= bt_rho_hi ls;
  st_hi : bt_rho_hi ls < 1;
  st_max : 0 < bt_maxstep ls }.
(** The cubic with value [v0] and slope [d] at 0, and its first two derivatives. A parabola has [a = 0]. *)
Definition cubic (v0 d b a t : R) : R := v0 + d * t + b * t ^ 2 + a * t ^ 3.
Definition cubic' (d b a t : R) : R := d + 2 * b * t + 3 * a * t ^ 2.
Definition cubic'' (b a t : R) : R := 2 * b + 6 * a * t.
(** The next step suggested by the values seen: [phi] is the objective along the direction, [d] its slope at 0.
    First the minimiser of the parabola through the last value; later the local minimiser of the cubic through the last two,
    if it has one (its point of inflection if it has not, that of a parabola if the cubic term is negligible). *)
Definition guess (eps : R) (phi : R -> R) (d : R) (prev : option R) (al v : R) : Prop :=
  match prev with
  | None => exists b, phi al = cubic (phi 0) d b 0 al /\ forall t, cubic (phi 0) d b 0 v <= cubic (phi 0) d b 0 t
  | Some be => exists b a, phi al = cubic (phi 0) d b a al /\ phi be = cubic (phi 0) d b a be
      /\ (eps < Rabs a /\ cubic' d b a v = 0 /\ 0 <= cubic'' b a v
          \/ eps < Rabs a /\ (forall t, cubic' d b a t <> 0) /\ cubic'' b a v = 0
          \/ Rabs a <= eps /\ cubic' d b 0 v = 0
          \/ Rabs a <= eps /\ b = 0 /\ v = al / 2)
  end.
Definition sufficient (ls : backtracking R) (phi : R -> R) (d al : R) : Prop := phi al <= phi 0 + bt_c1 ls * al * d.
Definition clamp (lo hi t : R) : R := Rmax lo (Rmin hi t).
(** [tries ls eps phi d k prev al more r]: [al] has just been tried, [k] decisions are left, [more] is tried next and [r] accepted. *)
Inductive tries (ls : backtracking R) (eps : R) (phi : R -> R) (d : R) : nat -> option R -> R -> list R -> option R -> Prop :=
  | tries_accept k prev al : sufficient ls phi d al -> tries ls eps phi d (S k) prev al [] (Some al)
  | tries_exhausted prev al : tries ls eps phi d 0 prev al [] None
  | tries_again k prev al v more r : ~ sufficient ls phi d al ->
      guess eps phi d (if (bt_order ls <? 3)%nat then None else prev) al v ->
      tries ls eps phi d k (Some al) (clamp (bt_rho_lo ls * al) (bt_rho_hi ls * al) v) more r ->
      tries ls eps phi d (S k) prev al (clamp (bt_rho_lo ls * al) (bt_rho_hi ls * al) v :: more) r.
(** The point reached from [x] with a step [al] along [s]. *)
Definition point (x s : list R) (al : R) : list R := map (fun q => fst q + al * snd q) (combine x s).
(** An objective that records where it is evaluated. *)
Definition logged (f : list R -> R) (log : list (list R)) (x : list R) : res (list (list R) * option R) := Ok (log ++ [x], Some (f x)).

(** ** Interpolation *)
Section Steps.
Context (OO : OptOps R) (LO : line_opt OO).

Lemma quadratic_min al phi phi0 d : 0 < al -> phi0 + d * al < phi -> exists v b, quadratic_step rops OO al phi phi0 d = Some v
  /\ phi = cubic phi0 d b 0 al /\ (forall t, cubic phi0 d b 0 v <= cubic phi0 d b 0 t) /\ 0 < b /\ v = - d / (2 * b).
Proof.
  intros Ha Hd. unfold quadratic_step. cbn [ffinite rops negb orb feqb fmul fsub fdiv fneg fzero]. rewrite (lo_two OO LO).
  set (b := (phi - phi0 - d * al) / al ^ 2).
  assert (Hb : 0 < b). { apply Rdiv_lt_0_compat; [lra|]. apply pow_lt. auto. }
  assert (Hphi : phi - phi0 - d * al = b * al ^ 2) by (unfold b; field; lra). rewrite Hphi.
  assert (Hden : 2 * (b * al ^ 2) <> 0). { apply Rmult_integral_contrapositive_currified; [lra|]. apply Rmult_integral_contrapositive_currified; [lra|]. apply pow_nonzero. lra. }
  destruct (reqb (2 * (b * al ^ 2)) 0) eqn:E; [apply reqb_iff in E; contradiction|].
  exists (- d / (2 * b)), b. assert (Hv : - (d * al * al) / (2 * (b * al ^ 2)) = - d / (2 * b)) by (field; lra).
  rewrite Hv. split; [reflexivity|]. split; [unfold cubic; lra|]. split; [|auto].
  intros t. unfold cubic. assert (d = - 2 * b * (- d / (2 * b))) by (field; lra). set (v := - d / (2 * b)) in *.
  assert (0 <= b * (t - v) ^ 2) by (apply Rmult_le_pos; [lra|apply pow2_ge_0]). nra.
Qed.

Lemma cubic_guess al phi be psi phi0 d : al <> 0 -> be <> 0 -> al <> be -> exists b a, phi = cubic phi0 d b a al /\ psi = cubic phi0 d b a be
  /\ match cubic_step rops OO al phi be psi phi0 d with
     | Some v => (oo_eps OO < Rabs a /\ cubic' d b a v = 0 /\ 0 <= cubic'' b a v)
          \/ (oo_eps OO < Rabs a /\ (forall t, cubic' d b a t <> 0) /\ cubic'' b a v = 0)
          \/ (Rabs a <= oo_eps OO /\ cubic' d b 0 v = 0)
     | None => Rabs a <= oo_eps OO /\ b = 0
     end.
Proof.
  intros Ha Hb Hab. unfold cubic_step. cbn [ffinite rops negb orb feqb fmul fsub fdiv fneg fzero fadd].
  rewrite (lo_two OO LO), (lo_three OO LO), !(lo_sqrt OO LO), !(ro_abs OO (lo_real OO LO)), !(ro_max OO (lo_real OO LO)).
  set (d1 := phi - phi0 - d * al). set (d2 := psi - phi0 - d * be). set (den := al * al * be * be * (be - al)).
  assert (Hden : den <> 0). { unfold den. repeat apply Rmult_integral_contrapositive_currified; auto. lra. }
  destruct (reqb den 0) eqn:E; [apply reqb_iff in E; contradiction|].
  set (a := (al * al * d2 - be * be * d1) / den). set (b := (- al * al * al * d2 + be * be * be * d1) / den).
  exists b, a.
  assert (H1 : d1 = b * al ^ 2 + a * al ^ 3). { unfold a, b, den. field. repeat split; auto; lra. }
  assert (H2 : d2 = b * be ^ 2 + a * be ^ 3). { unfold a, b, den. field. repeat split; auto; lra. }
  split; [unfold cubic, d1 in *; lra|]. split; [unfold cubic, d2 in *; lra|]. clear H1 H2. clearbody a b. clear d1 d2 den Hden E.
  destruct (fleb rops (Rabs a) (oo_eps OO)) eqn:Ea.
  - apply rleb_iff in Ea. destruct (reqb (2 * b) 0) eqn:Eb; cbn [orb].
    + apply reqb_iff in Eb. split; auto. lra.
    + right; right. split; auto. unfold cubic'. assert (2 * b <> 0) by (intros X; apply reqb_iff in X; congruence). field. lra.
  - assert (Hea : oo_eps OO < Rabs a). { apply Rnot_le_lt. intros X. apply rleb_iff in X. congruence. }
    assert (Ha0 : a <> 0). { intros ->. rewrite Rabs_R0 in Hea. pose proof (lo_eps OO LO). lra. }
    destruct (Rle_dec 0 (b * b - 3 * a * d)) as [Hd|Hd].
    + left. split; auto. rewrite Rmax_left by auto. pose proof (sqrt_sqrt _ Hd) as Hs. pose proof (sqrt_pos (b * b - 3 * a * d)) as Hp.
      set (q := sqrt (b * b - 3 * a * d)) in *. clearbody q. unfold cubic', cubic''. split.
      * replace (d + 2 * b * ((- b + q) / (3 * a)) + 3 * a * ((- b + q) / (3 * a)) ^ 2) with ((3 * a * d - b * b + q * q) / (3 * a)) by (field; auto).
        rewrite Hs. field. auto.
      * replace (2 * b + 6 * a * ((- b + q) / (3 * a))) with (2 * q) by (field; auto). lra.
    + right; left. split; auto. rewrite Rmax_right by lra. rewrite sqrt_0. split.
      * intros t. unfold cubic'. assert (Hsq : 0 <= (b + 3 * a * t) ^ 2) by apply pow2_ge_0. intros X. nra.
      * unfold cubic''. field. auto.
Qed.
End Steps.

(** The quadratic step is the minimiser of the parabola with the given value and slope at 0 and value at [alpha]. *)
Theorem C62_parabola : forall OO al phi phi0 d, line_opt OO -> 0 < al -> phi0 + d * al < phi ->
  exists v b, quadratic_step rops OO al phi phi0 d = Some v /\ phi = cubic phi0 d b 0 al
    /\ forall t, cubic phi0 d b 0 v <= cubic phi0 d b 0 t.
Proof. intros OO al phi phi0 d LO Ha Hd. destruct (quadratic_min OO LO al phi phi0 d Ha Hd) as (v & b & H1 & H2 & H3 & _). eauto. Qed.

(** The cubic step is the local minimiser of the cubic through the two values, when its leading coefficient is not negligible and it has one. *)
Theorem C62_cubic : forall OO al be b a phi0 d, line_opt OO -> al <> 0 -> be <> 0 -> al <> be -> oo_eps OO < Rabs a -> 3 * a * d <= b * b ->
  exists v, cubic_step rops OO al (cubic phi0 d b a al) be (cubic phi0 d b a be) phi0 d = Some v
    /\ cubic' d b a v = 0 /\ 0 <= cubic'' b a v.
Proof.
  intros OO al be b a phi0 d LO Ha Hb Hab He Hd.
  destruct (cubic_guess OO LO al (cubic phi0 d b a al) be (cubic phi0 d b a be) phi0 d Ha Hb Hab) as (b' & a' & E1 & E2 & H).
  assert (b' = b /\ a' = a) as [-> ->].
  { unfold cubic in E1, E2. assert (F1 : (b' - b) + (a' - a) * al = 0) by (apply (Rmult_eq_reg_l (al ^ 2)); [lra|now apply pow_nonzero]).
    assert (F2 : (b' - b) + (a' - a) * be = 0) by (apply (Rmult_eq_reg_l (be ^ 2)); [lra|now apply pow_nonzero]).
    assert (a' - a = 0) by (apply (Rmult_eq_reg_r (al - be)); [lra|lra]). split; [|lra]. rewrite H0 in F1. lra. }
  destruct (cubic_step _ _ _ _ _ _ _ _) as [v|].
  - exists v. split; auto. destruct H as [(_ & H1 & H2)|[(_ & H & _)|(H & _)]]; [auto| |lra].
    exfalso. assert (a <> 0). { intros ->. rewrite Rabs_R0 in He. pose proof (lo_eps OO LO). lra. }
    apply (H ((- b + sqrt (b * b - 3 * a * d)) / (3 * a))). unfold cubic'. assert (H1 : 0 <= b * b - 3 * a * d) by lra. pose proof (sqrt_sqrt _ H1) as Hs.
    set (q := sqrt (b * b - 3 * a * d)) in *. clearbody q.
    replace (d + 2 * b * ((- b + q) / (3 * a)) + 3 * a * ((- b + q) / (3 * a)) ^ 2) with ((3 * a * d - b * b + q * q) / (3 * a)) by (field; auto).
    rewrite Hs. field. auto.
  - destruct H. lra.
Qed.

(** ** The trials *)
(** The largest absolute value of a component. *)
Definition largest (s : list R) : R := fold_right Rmax 0 (map Rabs s).
(** The first step tried: [a0], or less if no component may move by more than [maxstep]. *)
Definition first_step (ls : backtracking R) (s : list R) (a0 : R) : R :=
  if Rlt_dec 0 (largest s) then Rmin a0 (bt_maxstep ls / largest s) else a0.

Lemma zip_point x s al : List.length x = List.length s -> axpy rops x al s = Ok (point x s al).
Proof. intros H. unfold axpy, zip_eq. rewrite H, Nat.eqb_refl. reflexivity. Qed.
Lemma point_zero x s : List.length x = List.length s -> point x s 0 = x.
Proof. revert s. induction x as [|a x IH]; intros [|b s] H; try discriminate; auto. unfold point in *. cbn [combine map fst snd]. f_equal; [ring|]. apply IH. now injection H. Qed.
Lemma inf_norm_largest OO (RO : real_opt OO) s : inf_norm rops OO s = largest s.
Proof.
  unfold inf_norm, largest. cbn [fzero rops]. transitivity (fold_left Rmax (map Rabs s) 0).
  { rewrite (map_ext _ _ (ro_abs OO RO)). generalize 0. induction (map Rabs s) as [|a l IH]; intros z; cbn [fold_left]; auto. rewrite (ro_max OO RO). apply IH. }
  apply fold_symmetric; [intros x y z; unfold Rmax; repeat destruct (Rle_dec _ _); lra|apply Rmax_comm].
Qed.

Section Trials.
Context (OO : OptOps R) (LO : line_opt OO) (ls : backtracking R) (LS : line_settings ls) (f : list R -> R) (x s : list R) (Hlen : List.length x = List.length s).
Context (d : R) (Hd : d < 0).
Let phi (t : R) : R := f (point x s t).
Local Notation tries := (tries ls (oo_eps OO) phi d).
Local Notation loop := (armijo_loop rops OO (logged f) ls x s (phi 0) d).

Lemma clamp_in lo hi v : lo <= hi -> lo <= clamp lo hi v <= hi.
Proof. intros H. unfold clamp. split; [apply Rmax_l|]. apply Rmax_lub; auto. apply Rmin_l. Qed.
Lemma clamp_pos al v : 0 < al -> 0 < clamp (bt_rho_lo ls * al) (bt_rho_hi ls * al) v < al.
Proof.
  intros Ha. destruct (st_rho ls LS) as [H1 H2]. pose proof (st_hi ls LS) as H3.
  destruct (clamp_in (bt_rho_lo ls * al) (bt_rho_hi ls * al) v); [nra|]. split; nra.
Qed.
Lemma clamp_code lo hi v : lo <= hi -> (let t := if fgtb rops v hi then hi else v in if fltb rops t lo then lo else t) = clamp lo hi v.
Proof.
  intros H. unfold fgtb, clamp. cbn [fltb rops]. cbv zeta. unfold rltb, Rmin, Rmax.
  repeat (first [destruct (Rlt_dec _ _)|destruct (Rle_dec _ _)]); lra.
Qed.

Lemma armijo_tries : forall k prev log al aprev, 0 < al -> match prev with Some be => aprev = be /\ be <> 0 /\ al <> be | None => True end ->
  exists more r, tries k prev al more r
    /\ loop k (match prev with None => true | _ => false end) log al (phi al) aprev (option_map phi prev) (point x s al)
       = Ok (log ++ map (point x s) more, option_map (fun a => (a, phi a, point x s a)) r).
Proof.
  induction k as [|k IH]; intros prev log al aprev Ha Hp; cbn [armijo_loop].
  { exists [], None. cbn [map option_map]. rewrite app_nil_r. split; [constructor|auto]. }
  destruct (fleb rops (phi al) (fadd rops (phi 0) (fmul rops (fmul rops (bt_c1 ls) al) d))) eqn:Es.
  { apply rleb_iff in Es. exists [], (Some al). cbn [map option_map]. rewrite app_nil_r. split; [constructor; exact Es|auto]. }
  assert (Hns : ~ sufficient ls phi d al). { intros X. apply rleb_iff in X. unfold sufficient in X. cbn [fadd fmul rops] in Es. congruence. }
  assert (Hpar : phi 0 + d * al < phi al). { unfold sufficient in Hns. apply Rnot_le_lt in Hns. pose proof (st_c1 ls LS). assert (0 < (1 - bt_c1 ls) * al * (- d)) by (repeat apply Rmult_lt_0_compat; lra). lra. }
  set (step := if (match prev with None => true | Some _ => false end || (bt_order ls <? 3)%nat)%bool then quadratic_step rops OO al (phi al) (phi 0) d
    else match option_map phi prev with Some pv => cubic_step rops OO al (phi al) aprev pv (phi 0) d | None => quadratic_step rops OO al (phi al) (phi 0) d end).
  set (v := match step with Some v => v | None => fmul rops al (oo_half OO) end).
  assert (Hg : guess (oo_eps OO) phi d (if (bt_order ls <? 3)%nat then None else prev) al v).
  { unfold v, step. destruct (quadratic_min OO LO al (phi al) (phi 0) d Ha Hpar) as (w & b & -> & Hw1 & Hw2 & _).
    destruct (bt_order ls <? 3)%nat; [rewrite orb_true_r; cbn [guess]; exists b; auto|]. rewrite orb_false_r.
    destruct prev as [be|]; cbn [guess option_map]; [|exists b; auto]. destruct Hp as (-> & Hb0 & Hab).
    destruct (cubic_guess OO LO al (phi al) be (phi be) (phi 0) d) as (b' & a' & H1 & H2 & H3); auto; [intros X; lra|]. exists b', a'. split; auto. split; auto.
    destruct (cubic_step _ _ _ _ _ _ _ _) as [w'|]; [tauto|]. right; right; right. destruct H3. repeat split; auto. cbn [fmul rops]. rewrite (ro_half OO (lo_real OO LO)). lra. }
  clearbody v. clear step. cbv zeta. pose proof (clamp_pos al v Ha) as Hc. destruct (st_rho ls LS) as [H1 H2].
  assert (Hcc := clamp_code (bt_rho_lo ls * al) (bt_rho_hi ls * al) v ltac:(nra)). cbv zeta in Hcc. cbn [fmul rops] in Hcc |- *. rewrite Hcc. clear Hcc.
  cbn [ffinite rops negb orb]. set (be := clamp _ _ v) in *.
  destruct (fleb rops be (fzero rops)) eqn:Ez; [apply rleb_iff in Ez; cbn in Ez; lra|].
  rewrite (zip_point x s be Hlen). cbn [bind logged ffinite rops negb]. fold (phi be).
  destruct (IH (Some al) (log ++ [point x s be]) be al) as (more & r & Ht & E); [lra|split; [auto|split; intros X; lra]|].
  exists (be :: more), r. split; [now apply tries_again|]. cbn [option_map] in E. cbn [ffinite rops] in E. rewrite E. cbn [map]. rewrite <- app_assoc. reflexivity.
Qed.
End Trials.

(** The objective is evaluated at [x + alpha s] for the first step and then the steps of [tries], in that order and nowhere else; the result is the accepted one. *)
Theorem C62_trials : forall OO ls (f : list R -> R) x s d a0, line_opt OO -> line_settings ls -> List.length x = List.length s -> d < 0 -> 0 < a0 ->
  let phi t := f (point x s t) in
  exists more r, tries ls (oo_eps OO) phi d (bt_iterations ls) None (first_step ls s a0) more r
    /\ linesearch rops OO (logged f) ls x s a0 (f x) d []
       = Ok (map (point x s) (first_step ls s a0 :: more), option_map (fun a => (a, phi a, point x s a)) r).
Proof.
  intros OO ls f x s d a0 LO LS Hlen Hd Ha phi. unfold linesearch. cbn [ffinite rops negb orb].
  destruct (fleb rops a0 (fzero rops)) eqn:E; [apply rleb_iff in E; cbn in E; lra|]. cbv zeta.
  rewrite (inf_norm_largest OO (lo_real OO LO)). assert (Hf : (if fgtb rops (largest s) (fzero rops) then oo_min OO a0 (fdiv rops (bt_maxstep ls) (largest s)) else a0) = first_step ls s a0).
  { unfold first_step, fgtb. cbn [fltb rops fzero]. unfold rltb. rewrite (lo_min OO LO). destruct (Rlt_dec 0 (largest s)); auto. }
  rewrite Hf. assert (Hp : 0 < first_step ls s a0).
  { unfold first_step. destruct (Rlt_dec 0 (largest s)) as [Hl|]; auto. apply Rmin_glb_lt; auto. apply Rdiv_lt_0_compat; auto. apply (st_max ls LS). }
  set (al := first_step ls s a0) in *. pose proof (lo_tries OO LO) as Hk. destruct (oo_finite_max OO) as [|k]; [lia|]. cbn [halve].
  rewrite (zip_point x s al Hlen). cbn [bind logged ffinite rops negb]. cbn [app].
  destruct (armijo_tries OO LO ls LS f x s Hlen d Hd (bt_iterations ls) None [point x s al] al al Hp I) as (more & r & Ht & E2).
  exists more, r. split; auto. cbn [option_map] in E2. rewrite point_zero in E2 by auto. rewrite E2. reflexivity.
Qed.

(** Trial steps shrink: each is at least [rho_lo] times and at most [rho_hi] times the one before. *)
Theorem C62_shrinking : forall ls eps phi d k prev al more r, line_settings ls -> 0 < al -> tries ls eps phi d k prev al more r ->
  forall i a b, nth_error (al :: more) i = Some a -> nth_error more i = Some b -> 0 < a /\ bt_rho_lo ls * a <= b <= bt_rho_hi ls * a.
Proof.
  intros ls eps phi d k prev al more r LS Ha H. revert Ha. induction H as [| |k prev al v more r Hn Hg Ht IH]; intros Ha i a b H1 H2; try (now rewrite nth_error_nil in H2); try (destruct i; discriminate).
  pose proof (clamp_pos ls LS al v Ha) as Hc. destruct (st_rho ls LS) as [Hr1 Hr2].
  destruct i as [|i]; cbn [nth_error] in H1, H2.
  - injection H1 as <-. injection H2 as <-. split; auto. apply clamp_in. nra.
  - apply (IH ltac:(lra) i a b); auto.
Qed.

(** If the objective lies below a parabola of curvature [M] with its value and slope at 0 (its second derivative is at most [M]), then a step is
    accepted, as soon as [n] reductions bring it below the length where the sufficient decrease is certain; and it is not much shorter than that. *)
Theorem C62_succeeds : forall OO ls (f : list R -> R) x s d a0 M n, line_opt OO -> line_settings ls -> List.length x = List.length s -> d < 0 -> 0 < a0 -> 0 < M ->
  let phi t := f (point x s t) in
  (forall t, 0 < t <= first_step ls s a0 -> phi t <= phi 0 + d * t + M / 2 * t ^ 2) ->
  let safe := 2 * (1 - bt_c1 ls) * (- d) / M in
  bt_rho_hi ls ^ n * first_step ls s a0 <= safe -> (n < bt_iterations ls)%nat ->
  exists log al, linesearch rops OO (logged f) ls x s a0 (f x) d [] = Ok (log, Some (al, phi al, point x s al))
    /\ (List.length log <= S n)%nat /\ sufficient ls phi d al /\ Rmin (first_step ls s a0) (bt_rho_lo ls * safe) <= al <= first_step ls s a0.
Proof.
  intros OO ls f x s d a0 M n LO LS Hlen Hd Ha HM phi Hsm safe Hn Hk.
  destruct (C62_trials OO ls f x s d a0 LO LS Hlen Hd Ha) as (more & r & Ht & E). fold phi in Ht, E.
  assert (Hp : 0 < first_step ls s a0).
  { unfold first_step. destruct (Rlt_dec 0 (largest s)) as [Hl|]; auto. apply Rmin_glb_lt; auto. apply Rdiv_lt_0_compat; auto. apply (st_max ls LS). }
  set (a1 := first_step ls s a0) in *. destruct (st_rho ls LS) as [Hr1 Hr2]. pose proof (st_hi ls LS) as Hr3. pose proof (st_c1 ls LS) as Hc1.
  assert (Hgen : forall k prev al more r, tries ls (oo_eps OO) phi d k prev al more r -> forall n, bt_rho_hi ls ^ n * al <= safe -> (n < k)%nat -> 0 < al <= a1 ->
     exists be, r = Some be /\ (List.length more <= n)%nat /\ sufficient ls phi d be /\ Rmin al (bt_rho_lo ls * safe) <= be <= al).
  { clear -LS Hd HM Hsm Hr1 Hr2 Hr3 Hc1. intros k prev al more r H. induction H as [k prev al Hs| |k prev al v more r Hs Hg Ht IH]; intros n Hn Hk Ha; [|lia|].
    - exists al. cbn [List.length]. repeat split; auto; [lia|apply Rmin_l|lra].
    - assert (Hal : safe < al).
      { apply Rnot_le_lt. intros Hle. apply Hs. unfold sufficient. specialize (Hsm al Ha). unfold safe in Hle.
        assert (M * al <= 2 * (1 - bt_c1 ls) * - d). { apply (Rmult_le_compat_l M) in Hle; [|lra]. replace (M * (2 * (1 - bt_c1 ls) * - d / M)) with (2 * (1 - bt_c1 ls) * - d) in Hle by (field; lra). exact Hle. }
        assert (M / 2 * al ^ 2 <= (1 - bt_c1 ls) * - d * al) by nra. nra. }
      destruct n as [|n]; [cbn [pow] in Hn; lra|].
      pose proof (clamp_pos ls LS al v ltac:(lra)) as Hc. destruct (clamp_in (bt_rho_lo ls * al) (bt_rho_hi ls * al) v) as [Hb1 Hb2]; [nra|].
      set (be := clamp _ _ v) in *. destruct (IH n) as (w & -> & Hl & Hw & Hw1 & Hw2); [|lia|lra|].
      + cbn [pow] in Hn. apply Rle_trans with (2 := Hn). rewrite (Rmult_comm (bt_rho_hi ls)), Rmult_assoc. apply Rmult_le_compat_l; auto. apply pow_le. lra.
      + exists w. cbn [List.length]. repeat split; auto; [lia| |lra]. apply Rle_trans with (2 := Hw1).
        apply Rmin_glb; [|apply Rmin_r]. apply Rle_trans with (bt_rho_lo ls * safe); [apply Rmin_r|]. apply Rle_trans with (2 := Hb1). nra. }
  destruct (Hgen _ _ _ _ _ Ht n Hn Hk) as (al & -> & Hl & Hs & Hb); [lra|].
  exists (map (point x s) (a1 :: more)), al. split; [exact E|]. split; [rewrite map_length; cbn [List.length]; lia|auto].
Qed.

(** ** One constant and a parabola *)
Local Open Scope Q_scope.
(** The functions of the optimiser are exact. *)
Record exact_funs {W} (F : FloatOps W) (val : W -> Q) (OO : OptOps W) : Prop := {
  xf_neg : forall a, ffinite F a = true -> ffinite F (fneg F a) = true /\ val (fneg F a) == - val a;
  xf_abs : forall a, ffinite F a = true -> ffinite F (oo_abs OO a) = true /\ val (oo_abs OO a) == Qabs (val a);
  xf_max : forall a b, ffinite F a = true -> ffinite F b = true -> ffinite F (oo_max OO a b) = true /\ val (oo_max OO a b) == Qmax (val a) (val b);
  xf_two : ffinite F (oo_two OO) = true /\ val (oo_two OO) == 2;
  xf_tiny : ffinite F (oo_tiny OO) = true;
  xf_eps : ffinite F (oo_sqrt_eps OO) = true /\ 0 < val (oo_sqrt_eps OO);
  xf_tries : (0 < oo_finite_max OO)%nat }.
(** The objective of one unknown is the parabola p + q (x - m)^2, and its gradient is right. *)
Definition is_parabola {St W} (F : FloatOps W) (val : W -> Q) (obj : objective St W) (Inv : St -> Prop) (p q m : Q) : Prop :=
  forall st x, Inv st -> ffinite F x = true ->
    (exists st' v, ob_f obj st [x] = Ok (st', Some v) /\ Inv st' /\ ffinite F v = true /\ val v == p + q * ((val x - m) * (val x - m)))
    /\ exists st' v g, ob_fg obj st [x] = Ok (st', Some (v, [g])) /\ Inv st' /\ ffinite F v = true /\ ffinite F g = true
         /\ val v == p + q * ((val x - m) * (val x - m)) /\ val g == 2 * q * (val x - m).

Section Newton.
Context {St W : Type} (F : FloatOps W) (val : W -> Q) (OO : OptOps W) (X : ExactLaws F val) (XU : exact_funs F val OO).
Lemma ex_le a b : ffinite F a = true -> ffinite F b = true -> fleb F a b = true <-> val a <= val b.
Proof. intros Ha Hb. unfold fleb. rewrite orb_true_iff, (ex_lt F val X), (ex_eq F val X) by auto. rewrite Qle_lteq. tauto. Qed.
End Newton.

(** One Newton step from anywhere ends exactly at the minimum of the parabola (or a constant, if q = 0): at most five calls, two iterations. *)
Theorem C62_newton_parabola : forall (St W : Type) (F : FloatOps W) (val : W -> Q) (OO : OptOps W) (obj : objective St W) Inv p q m opts ls st x0,
  ExactLaws F val -> exact_funs F val OO -> is_parabola F val obj Inv p q m -> q == 0 \/ 0 < q /\ val (oo_tiny OO) <= 2 * q ->
  ffinite F (bt_maxstep ls) = false -> ffinite F (bt_c1 ls) = true -> 0 < val (bt_c1 ls) <= 1 # 2 -> (0 < bt_iterations ls)%nat ->
  ffinite F (oi_g_abstol opts) = true -> 0 <= val (oi_g_abstol opts) ->
  (2 <= oi_iterations opts)%nat -> (oi_f_calls_limit opts = 0 \/ 5 <= oi_f_calls_limit opts)%nat ->
  Inv st -> ffinite F x0 = true ->
  exists st' calls r x, newton_1d_minimize F OO obj opts ls st x0 = Ok (st', calls, Some r) /\ or_minimizer r = [x] /\ ffinite F x = true /\ Inv st' /\ (calls <= 5)%nat
    /\ ffinite F (or_minimum r) = true /\ val (or_minimum r) == p + q * ((val x - m) * (val x - m))
    /\ (val x == m \/ x = x0 /\ Qabs (2 * q * (val x0 - m)) <= val (oi_g_abstol opts)).
Proof.
  intros St W F val OO obj Inv p q m opts ls st x0 X XU HP Hqt Hms Hcf Hc Hit Hgf Hg Hk Hlim HI Hx. unfold newton_1d_minimize.
  destruct (oi_iterations opts) as [|[|k]]; try lia. cbn [newton_loop snd fst].
  assert (Hl : forall c, (c < 5)%nat -> (negb (oi_f_calls_limit opts =? 0)%nat && (oi_f_calls_limit opts <=? c)%nat)%bool = false).
  { intros c Hc5. destruct Hlim as [->|Hlim]; [reflexivity|]. apply andb_false_iff. right. apply Nat.leb_gt. lia. }
  rewrite Hl by lia. destruct (HP st x0 HI Hx) as [_ (s1 & f0 & g & E1 & HI1 & Hf0 & Hgg & Vf & Vg)]. rewrite E1. cbn [bind fst snd].
  change (index [g] 0) with (Ok g). cbn [bind]. rewrite Hf0, Hgg. cbn [negb orb].
  destruct (ex_inf F val X) as [_ Hinf]. rewrite (proj1 (Hinf f0 Hf0)). destruct (xf_abs F val OO XU g Hgg) as [Hag Vag].
  destruct (fleb F (oo_abs OO g) (oi_g_abstol opts)) eqn:Eg.
  { exists s1, 1%nat, (mkResult [x0] f0 1), x0. apply (ex_le F val X) in Eg; auto. split; [reflexivity|]. repeat split; auto; try lia. right. split; auto.
    rewrite <- Vg, <- Vag. exact Eg. }
  destruct Hqt as [Hq0|[Hq Ht]].
  { exfalso. apply not_true_iff_false in Eg. apply Eg. apply (ex_le F val X); auto. rewrite Vag, Vg, Hq0. setoid_replace (2 * 0 * (val x0 - m)) with 0 by ring. exact Hg. }
  assert (Hgz : ~ val x0 - m == 0).
  { intros Hz. apply not_true_iff_false in Eg. apply Eg. apply (ex_le F val X); auto. rewrite Vag, Vg, Hz, Qmult_0_r. exact Hg. }
  destruct (xf_abs F val OO XU x0 Hx) as [Hax Vax]. destruct (ex_one F val X) as [H1f H1v]. destruct (xf_eps F val OO XU) as [Hef Hev].
  destruct (ex_add F val X _ _ Hax H1f) as [Haf Hav]. destruct (ex_mul F val X _ _ Hef Haf) as [Hpf Hpv].
  set (eps := fmul F (oo_sqrt_eps OO) (fadd F (oo_abs OO x0) (fone F))) in *.
  assert (Heps : 0 < val eps). { rewrite Hpv, Hav, Vax, H1v. apply Qmult_lt_0_compat; auto. pose proof (Qabs_nonneg (val x0)). Lqa.lra. }
  destruct (ex_add F val X _ _ Hx Hpf) as [Xpf Xpv]. destruct (ex_sub F val X _ _ Hx Hpf) as [Xmf Xmv].
  destruct (HP s1 _ HI1 Xpf) as [_ (s2 & fp & gp & E2 & HI2 & _ & Hgp & _ & Vgp)]. rewrite E2. cbn [bind fst snd]. change (index [gp] 0) with (Ok gp). cbn [bind].
  destruct (HP s2 _ HI2 Xmf) as [_ (s3 & fm & gm & E3 & HI3 & _ & Hgm & _ & Vgm)]. rewrite E3. cbn [bind fst snd]. change (index [gm] 0) with (Ok gm). cbn [bind].
  destruct (ex_sub F val X _ _ Hgp Hgm) as [Hdf Hdv]. destruct (xf_two F val OO XU) as [H2f H2v]. destruct (ex_mul F val X _ _ H2f Hpf) as [Hwf Hwv].
  destruct (ex_div F val X _ _ Hdf Hwf) as [Hhf Hhv]; [rewrite Hwv, H2v; Lqa.lra|].
  set (h := fdiv F _ _) in *. assert (Vh : val h == 2 * q). { rewrite Hhv, Hdv, Vgp, Vgm, Hwv, H2v, Xpv, Xmv. field. Lqa.lra. }
  destruct (xf_abs F val OO XU h Hhf) as [Hahf Vah]. destruct (xf_max F val OO XU _ _ Hahf (xf_tiny F val OO XU)) as [Hmf Vm].
  set (hm := oo_max OO (oo_abs OO h) (oo_tiny OO)) in *. rewrite Hmf.
  assert (Vhm : val hm == 2 * q). { rewrite Vm, Vah, Vh. rewrite Qabs_pos by Lqa.lra. apply Q.max_l. exact Ht. }
  clearbody hm. clear h Hhf Hhv Vh Hahf Vah Vm. destruct (xf_neg F val OO XU g Hgg) as [Hnf Hnv].
  destruct (ex_div F val X _ _ Hnf Hmf) as [Hsf Hsv]; [rewrite Vhm; Lqa.lra|]. set (s := fdiv F (fneg F g) hm) in *.
  assert (Vs : val s == m - val x0). { rewrite Hsv, Hnv, Vg, Vhm. field. Lqa.lra. }
  clearbody s. clear Hsv. destruct (ex_mul F val X _ _ Hgg Hsf) as [Hd Vd]. set (d := fmul F g s) in *.
  assert (Vd' : val d == - (2 * q * ((val x0 - m) * (val x0 - m)))) by (rewrite Vd, Vg, Vs; ring).
  assert (Hsq : 0 < (val x0 - m) * (val x0 - m)).
  { destruct (Qlt_le_dec (val x0 - m) 0) as [Hn|Hn]; [setoid_replace ((val x0 - m) * (val x0 - m)) with (- (val x0 - m) * - (val x0 - m)) by ring; apply Qmult_lt_0_compat; Lqa.lra|].
    apply Qle_lteq in Hn as [Hn|Hn]; [apply Qmult_lt_0_compat; auto|]. exfalso. apply Hgz. now symmetry. }
  set (e2 := (val x0 - m) * (val x0 - m)) in *.
  assert (Hqe : 0 < q * e2) by (apply Qmult_lt_0_compat; auto).
  clearbody d. clear Vd. destruct (ex_zero F val X) as [H0f H0v].
  assert (Hge : fgeb F d (fzero F) = false).
  { unfold fgeb. apply orb_false_iff. split; apply not_true_is_false; [rewrite (ex_lt F val X) by auto|rewrite (ex_eq F val X) by auto]; rewrite H0v, Vd'; Lqa.lra. }
  rewrite Hd, Hge. cbn [negb orb]. rewrite Hd, Hge. cbn [negb orb].
  unfold linesearch at 1. rewrite H1f. assert (Hn1 : fleb F (fone F) (fzero F) = false).
  { apply not_true_is_false. rewrite (ex_le F val X) by auto. rewrite H1v, H0v. Lqa.lra. }
  rewrite Hn1, Hms. cbn [negb orb]. pose proof (xf_tries F val OO XU) as Htr. destruct (oo_finite_max OO) as [|fm']; [inversion Htr|]. cbn [halve].
  unfold axpy at 1, zip_eq at 1. cbn [List.length Nat.eqb combine map bind fst snd].
  destruct (ex_mul F val X _ _ H1f Hsf) as [Hasf Hasv]. destruct (ex_add F val X _ _ Hx Hasf) as [Hyf Hyv]. set (y := fadd F x0 (fmul F (fone F) s)) in *.
  assert (Vy : val y == m) by (rewrite Hyv, Hasv, H1v, Vs; ring).
  unfold budgeted at 1. rewrite Hl by (repeat constructor). destruct (HP s3 y HI3 Hyf) as [(s4 & v4 & E4 & HI4 & Hv4 & Vv4) _]. rewrite E4. cbn [bind]. rewrite Hv4. cbn [bind].
  rewrite Hv4. cbn [negb]. destruct (bt_iterations ls) as [|bi]; [inversion Hit|]. cbn [armijo_loop].
  destruct (ex_mul F val X _ _ Hcf H1f) as [C1 C2]. destruct (ex_mul F val X _ _ C1 Hd) as [C3 C4]. destruct (ex_add F val X _ _ Hf0 C3) as [C5 C6].
  assert (Hacc : fleb F v4 (fadd F f0 (fmul F (fmul F (bt_c1 ls) (fone F)) d)) = true).
  { apply (ex_le F val X); auto. rewrite C6, C4, C2, H1v, Vv4, Vy, Vf, Vd'. setoid_replace (p + q * ((m - m) * (m - m))) with p by ring.
    setoid_replace (p + q * e2 + val (bt_c1 ls) * 1 * - (2 * q * e2)) with (p + (q * e2) * (1 - 2 * val (bt_c1 ls))) by ring.
    assert (0 <= q * e2 * (1 - 2 * val (bt_c1 ls))) by (apply Qmult_le_0_compat; Lqa.lra). Lqa.lra. }
  cbn [bind]. rewrite ?Hv4. cbn [negb]. rewrite Hacc. cbn [bind fst snd]. rewrite Hl by (repeat constructor).
  destruct (HP s4 y HI4 Hyf) as [_ (s5 & v5 & g5 & E5 & HI5 & Hv5 & Hg5 & Vv5 & Vg5)]. fold y. rewrite E5. cbn [bind fst snd]. change (index [g5] 0) with (Ok g5). cbn [bind].
  rewrite Hv5, Hg5. cbn [negb orb].
  assert (Hless : fltb F v5 f0 = true). { apply (ex_lt F val X); auto. rewrite Vv5, Vf, Vy. setoid_replace (p + q * ((m - m) * (m - m))) with p by ring. Lqa.lra. }
  rewrite Hless. destruct (xf_abs F val OO XU g5 Hg5) as [Hag5 Vag5].
  assert (Hstop : fleb F (oo_abs OO g5) (oi_g_abstol opts) = true).
  { apply (ex_le F val X); auto. rewrite Vag5, Vg5, Vy. setoid_replace (2 * q * (m - m)) with 0 by ring. exact Hg. }
  rewrite Hstop. exists s5, 5%nat, (mkResult [y] v5 5), y. split; [reflexivity|]. repeat split; auto.
Qed.

(** ** Cases *)
Lemma real_line_opt : line_opt real_opt_ops.
Proof. split; try reflexivity; try (intros; reflexivity); [apply real_opt_ok|cbn; lra|cbn; lia]. Qed.
Lemma parabola_ls_settings : line_settings parabola_ls.
Proof. split; cbn; lra. Qed.
(** x^2 from 1 with a direction ten times too long: -9 is tried and refused, the minimiser of the parabola is accepted. *)
Definition square_of (p : list R) : R := match p with [x] => (x * x)%R | _ => 0%R end.
Example C62_case : line_opt real_opt_ops /\ line_settings parabola_ls /\ (-20 < 0)%R
  /\ (forall t, 0 < t <= first_step parabola_ls [-10] 1 -> square_of (point [1] [-10] t) <= square_of (point [1] [-10] 0) + -20 * t + 200 / 2 * t ^ 2)%R
  /\ (bt_rho_hi parabola_ls ^ 3 * first_step parabola_ls [-10] 1 <= 2 * (1 - bt_c1 parabola_ls) * (- (-20)) / 200)%R
  /\ (3 < bt_iterations parabola_ls)%nat
  /\ ~ sufficient parabola_ls (fun t => square_of (point [1] [-10] t))%R (-20)%R 1%R
  /\ sufficient parabola_ls (fun t => square_of (point [1] [-10] t))%R (-20)%R (/ 10)%R.
Proof.
  split; [apply real_line_opt|]. split; [apply parabola_ls_settings|]. split; [lra|].
  split; [intros t _; cbn; lra|]. split.
  { assert (first_step parabola_ls [(-10)%R] 1%R <= 1)%R. { unfold first_step. destruct (Rlt_dec _ _); [apply Rmin_l|lra]. } cbn. lra. }
  split; [cbn; lia|]. unfold sufficient. cbn. split; lra.
Qed.
Lemma xq_exact_funs : exact_funs xqops xval xq_opt_ops.
Proof.
  split; try (cbn; split; reflexivity); try reflexivity; try (cbn; lia).
  - intros [a| |]; try discriminate. intros _. split; reflexivity.
  - intros [a| |]; try discriminate. intros _. cbn [oo_abs xq_opt_ops]. unfold xq_abs. destruct (xlt (XF a) (XF 0)) eqn:E.
    + split; [reflexivity|]. apply (ex_lt _ _ xq_exact) in E; try reflexivity. cbn [xval] in E |- *. cbn [xneg xval]. rewrite Qabs_neg by Lqa.lra. reflexivity.
    + split; [reflexivity|]. assert (~ a < 0). { intros H. apply not_true_iff_false in E. apply E. apply (ex_lt _ _ xq_exact); auto. } cbn [xval]. rewrite Qabs_pos by Lqa.lra. reflexivity.
  - intros [a| |] [b| |]; try discriminate. intros _ _. split; [cbn [oo_max xq_opt_ops]; destruct (xlt (XF a) (XF b)); reflexivity|].
    cbn [oo_max xq_opt_ops]. destruct (xlt (XF a) (XF b)) eqn:E.
    + apply (ex_lt _ _ xq_exact) in E; try reflexivity. cbn [xval] in *. rewrite Q.max_r by Lqa.lra. reflexivity.
    + assert (~ a < b). { intros H. apply not_true_iff_false in E. apply E. apply (ex_lt _ _ xq_exact); auto. } cbn [xval]. rewrite Q.max_l by Lqa.lra. reflexivity.
Qed.
Lemma line_is_parabola : is_parabola xqops xval line_obj (fun _ => True) 0 1 1.
Proof.
  intros n [x| |] _ Hx; try discriminate. split.
  - eexists _, _. split; [reflexivity|]. split; auto. split; [reflexivity|]. cbn [xval]. rewrite Qred_correct. ring.
  - eexists _, _, _. split; [reflexivity|]. split; auto. split; [reflexivity|]. split; [reflexivity|]. cbn [xval]. rewrite !Qred_correct. split; ring.
Qed.
Example C62_newton_case : ExactLaws xqops xval /\ exact_funs xqops xval xq_opt_ops /\ is_parabola xqops xval line_obj (fun _ => True) 0 1 1
  /\ xval (oo_tiny xq_opt_ops) <= 2 * 1 /\ ffinite xqops (bt_maxstep default_bt) = false /\ 0 < xval (bt_c1 default_bt) <= 1 # 2
  /\ exists r, newton_1d_minimize xqops xq_opt_ops line_obj (mkOptim 3 0 (XF (1 # 100000))) default_bt 0%nat (XF 0) = Ok (5, 5, Some r)%nat.
Proof.
  split; [apply xq_exact|]. split; [apply xq_exact_funs|]. split; [apply line_is_parabola|]. split; [cbn; Lqa.lra|]. split; [reflexivity|].
  split; [cbn; split; Lqa.lra|]. eexists. vm_compute. reflexivity.
Qed.
Print Assumptions C62_parabola.
Print Assumptions C62_cubic.
Print Assumptions C62_trials.
Print Assumptions C62_shrinking.
Print Assumptions C62_succeeds.
Print Assumptions C62_newton_parabola.
