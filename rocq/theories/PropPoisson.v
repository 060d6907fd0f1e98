(** Property C59: the Poisson sampler, the number of members that migrate. *)
From Coq Require Import Reals Lra.
From Coquelicot Require Import Coquelicot.
From Verif Require Import Base BaseLemmas Rng Dataset Loss RealOps Poisson.
Local Open Scope R_scope.

(** Real arithmetic. *)
Definition rpoisson : PoissonOps R :=
  mkPoisson exp ln sqrt cos Rabs (fun x => Int_part x) INR (fun m e => IZR m / 10 ^ e) (/ 2 ^ 1022) (2 * PI).

(** ** Specification *)
(** The volume of a set of points of the unit cube, as an iterated integral: the probability that n independent uniform draws lie in it. *)
Fixpoint volume (n : nat) (A : list R -> Prop) (v : R) : Prop :=
  match n with
  | O => (A [] -> v = 1) /\ (~ A [] -> v = 0)
  | S n => exists g, (forall u, 0 < u < 1 -> volume n (fun us => A (u :: us)) (g u)) /\ is_RInt g 0 1 v
  end.
(** A generator whose next real draws are [us]. *)
Fixpoint draws_then (us : list R) (f : nat -> R) : nat -> R :=
  match us with [] => f | u :: us => fun n => match n with O => u | S n => draws_then us f n end end.
Definition first_draws (us : list R) (r : rng R) : rng R := mkRng (rg_nat r) (draws_then us (rg_real r)).
(** The product of the first n draws. *)
Fixpoint product (f : nat -> R) (n : nat) : R := match n with O => 1 | S n => product f n * f n end.

(** ** Volumes *)
Lemma volume_ext n : forall A B v, (forall us, A us <-> B us) -> volume n A v -> volume n B v.
Proof.
  induction n as [|n IH]; intros A B v H; cbn [volume].
  - intros [H1 H2]. split; intros HB; [apply H1, H, HB|apply H2; intros HA; apply HB, H, HA].
  - intros (g & Hg & Hi). exists g. split; auto. intros u Hu. eapply IH; [|apply Hg, Hu]. intros us. apply H.
Qed.
Lemma volume_unique n : forall A v v', volume n A v -> volume n A v' -> v = v'.
Proof.
  induction n as [|n IH]; intros A v v'; cbn [volume].
  - intros [H1 H2] [H3 H4]. destruct (Classical_Prop.classic (A [])) as [H|H]; [rewrite H1, H3; auto|rewrite H2, H4; auto].
  - intros (g & Hg & Hi) (g' & Hg' & Hi').
    assert (E : is_RInt g' 0 1 v).
    { apply is_RInt_ext with g; auto. intros u Hu. rewrite Rmin_left, Rmax_right in Hu by lra. apply (IH (fun us => A (u :: us))); auto. }
    pose proof (is_RInt_unique (V := R_CompleteNormedModule) g' 0 1 v E) as E1. pose proof (is_RInt_unique (V := R_CompleteNormedModule) g' 0 1 v' Hi') as E2. congruence.
Qed.
Lemma volume_empty n : forall A, (forall us, ~ A us) -> volume n A 0.
Proof.
  induction n as [|n IH]; intros A H; cbn [volume]; [split; [intros HA; contradiction (H _ HA)|reflexivity]|].
  exists (fun _ => 0). split; [intros u _; apply IH; intros us; apply H|]. replace 0 with (scal (1 - 0) 0) at 2 by (unfold scal; cbn; unfold mult; cbn; ring). apply (is_RInt_const 0 1 (0 : R)).
Qed.
Lemma volume_all : forall A : list R -> Prop, A [] -> volume 0 A 1.
Proof. intros A H. split; [reflexivity|intros N; contradiction]. Qed.
Lemma volume_none : forall A : list R -> Prop, ~ A [] -> volume 0 A 0.
Proof. intros A H. split; [intros N; contradiction|reflexivity]. Qed.

(** ** The loop for small means *)
Lemma rleb a b : fleb rops a b = true <-> a <= b.
Proof.
  unfold fleb. cbn [fltb feqb rops]. rewrite orb_true_iff, rltb_iff, reqb_iff. lra.
Qed.
Lemma rleb_false a b : fleb rops a b = false <-> b < a.
Proof. destruct (fleb rops a b) eqn:E; split; intros H; try discriminate; auto; [apply rleb in E; lra|]. apply Rnot_le_lt. intros Hl. apply rleb in Hl. congruence. Qed.

Definition skip (n : nat) (r : rng R) : rng R := mkRng (rg_nat r) (fun i => rg_real r (n + i)%nat).
Lemma product_shift f n : product f (S n) = f 0%nat * product (shift f) n.
Proof. induction n as [|n IH]; [cbn [product]; ring|]. change (product f (S (S n))) with (product f (S n) * f (S n)). rewrite IH. cbn [product]. unfold shift at 3. ring. Qed.

(** Stopping after exactly j+1 draws from product p. *)
Lemma knuth_steps L : forall fuel p k r j r', knuth rops fuel L p k r = Ok (k + j, r')%nat <->
  (j < fuel)%nat /\ (forall i, (i < j)%nat -> L < p * product (rg_real r) (S i)) /\ p * product (rg_real r) (S j) <= L
  /\ r' = mkRng (rg_nat r) (Nat.iter (S j) shift (rg_real r)).
Proof.
  induction fuel as [|fuel IH]; intros p k r j r'; cbn [knuth]; [split; [discriminate|intros [H _]; lia]|].
  unfold rng_real. cbn [fmul rops]. set (f := rg_real r). destruct (fleb rops (p * f 0%nat) L) eqn:E.
  - apply rleb in E. split.
    + intros [= Hk Hr]. assert (j = 0)%nat by lia. subst j. split; [lia|]. split; [lia|]. split; [cbn [product]; rewrite Rmult_1_l; exact E|]. symmetry. exact Hr.
    + intros (Hj & Hi & Hp & ->). destruct j as [|j]; [rewrite Nat.add_0_r; reflexivity|]. specialize (Hi 0%nat ltac:(lia)). cbn [product] in Hi. rewrite Rmult_1_l in Hi. lra.
  - apply rleb_false in E. destruct j as [|j].
    + split; [|intros (_ & _ & Hp & _); cbn [product] in Hp; rewrite Rmult_1_l in Hp; lra]. intros H. exfalso.
      assert (Hm : forall fuel p k r k' r', knuth rops fuel L p k r = Ok (k', r') -> (k <= k')%nat).
      { clear. induction fuel as [|fuel IH]; intros p k r k' r'; cbn [knuth]; [discriminate|]. unfold rng_real. destruct (fleb _ _ _); [intros [= <- _]; lia|]. intros H. apply IH in H. lia. }
      apply Hm in H. lia.
    + replace (k + S j)%nat with (S k + j)%nat by lia. rewrite IH. cbn [rg_real rg_nat].
      assert (Hprod : forall i, p * f 0%nat * product (shift f) (S i) = p * product f (S (S i))) by (intros i; rewrite (product_shift f (S i)); ring).
      rewrite Hprod. split.
      * intros (Hj & Hi & Hp & Hr). split; [lia|]. split; [|split; [exact Hp|]].
        -- intros [|i] Hlt; [cbn [product]; rewrite Rmult_1_l; exact E|]. rewrite <- Hprod. apply Hi. lia.
        -- rewrite Hr. f_equal. clear. induction j as [|j IHj]; [reflexivity|]. cbn [Nat.iter] in *. change (Nat.iter (S (S j)) shift (shift f)) with (shift (Nat.iter (S j) shift (shift f))). 
           change (Nat.iter (S (S (S j))) shift f) with (shift (Nat.iter (S (S j)) shift f)). f_equal. exact IHj.
      * intros (Hj & Hi & Hp & Hr). split; [lia|]. split; [|split; [exact Hp|]].
        -- intros i Hlt. rewrite Hprod. apply Hi. lia.
        -- rewrite Hr. f_equal. clear. induction j as [|j IHj]; [reflexivity|]. cbn [Nat.iter] in *. change (Nat.iter (S (S j)) shift (shift f)) with (shift (Nat.iter (S j) shift (shift f))). 
           change (Nat.iter (S (S (S j))) shift f) with (shift (Nat.iter (S (S j)) shift f)). f_equal. exact IHj.
Qed.

(** ** The distribution *)
Definition stops (L p : R) (k : nat) (f : nat -> R) : Prop := (forall i, (i < k)%nat -> L < p * product f (S i)) /\ p * product f (S k) <= L.
Lemma stops_0 L p u us f : stops L p 0 (draws_then (u :: us) f) <-> p * u <= L.
Proof. unfold stops. rewrite product_shift. cbn [draws_then product]. rewrite Rmult_1_r. split; [tauto|]. split; [lia|auto]. Qed.
Lemma stops_S L p k u us f : stops L p (S k) (draws_then (u :: us) f) <-> L < p * u /\ stops L (p * u) k (draws_then us f).
Proof.
  unfold stops. assert (E : forall i, p * product (draws_then (u :: us) f) (S (S i)) = p * u * product (draws_then us f) (S i)).
  { intros i. rewrite product_shift. unfold shift. cbn [draws_then]. change (fun k0 : nat => draws_then us f k0) with (draws_then us f). ring. }
  rewrite E. split.
  - intros [H1 H2]. pose proof (H1 0%nat ltac:(lia)) as H0. rewrite product_shift in H0. cbn [draws_then product] in H0. rewrite Rmult_1_r in H0. split; [exact H0|]. split; [|exact H2].
    intros i Hi. rewrite <- E. apply H1. lia.
  - intros (H0 & H1 & H2). split; [|exact H2]. intros [|i] Hi; [rewrite product_shift; cbn [draws_then product]; rewrite Rmult_1_r; exact H0|]. rewrite E. apply H1. lia.
Qed.

Lemma is_RInt_piece (g : R -> R) c v1 v2 : 0 < c < 1 -> is_RInt g 0 c v1 -> is_RInt g c 1 v2 -> is_RInt g 0 1 (v1 + v2).
Proof. intros _ H1 H2. exact (is_RInt_Chasles (V := R_NormedModule) g 0 c 1 v1 v2 H1 H2). Qed.
Lemma is_RInt_on (g : R -> R) a b c : a < b -> (forall u, a < u < b -> g u = c) -> is_RInt g a b (c * (b - a)).
Proof.
  intros Hab H. apply is_RInt_ext with (fun _ => c).
  - intros u Hu. rewrite Rmin_left, Rmax_right in Hu by lra. symmetry. apply H. exact Hu.
  - pose proof (is_RInt_const (V := R_NormedModule) a b c) as E. unfold scal in E. cbn in E. unfold mult in E. cbn in E. rewrite Rmult_comm. exact E.
Qed.

Lemma knuth_volume rest L : 0 < L -> forall k p, L < p -> volume (S k) (fun us => stops L p k (draws_then us rest)) (L / p * (ln (p / L) ^ k / INR (fact k))).
Proof.
  intros HL. induction k as [|k IH]; intros p Hp; pose proof (Rinv_0_lt_compat p ltac:(lra)) as Hip; assert (Hc : 0 < L / p < 1).
  { split; [apply Rmult_lt_0_compat; auto|]. apply Rmult_lt_reg_r with p; [lra|]. unfold Rdiv. rewrite Rmult_assoc, Rinv_l by lra. lra. }
  { cbn [volume]. exists (fun u => if Rle_dec (p * u) L then 1 else 0). split.
    - intros u Hu. destruct (Rle_dec (p * u) L) as [H|H]; [apply (volume_all (fun us => stops L p 0 (draws_then (u :: us) rest)))|apply (volume_none (fun us => stops L p 0 (draws_then (u :: us) rest)))]; rewrite stops_0; exact H.
    - replace (L / p * (ln (p / L) ^ 0 / INR (fact 0))) with (1 * (L / p - 0) + 0 * (1 - L / p)) by (cbn [pow fact INR]; field; lra).
      apply is_RInt_piece with (L / p); auto.
      + apply is_RInt_on; [lra|]. intros u Hu. destruct (Rle_dec (p * u) L) as [_|H]; auto. exfalso. apply H. replace L with (p * (L / p)) by (field; lra). apply Rmult_le_compat_l; lra.
      + apply is_RInt_on; [lra|]. intros u Hu. destruct (Rle_dec (p * u) L) as [H|_]; auto. exfalso. assert (p * (L / p) < p * u) by (apply Rmult_lt_compat_l; lra).
        replace (p * (L / p)) with L in H0 by (field; lra). lra. }
  { split; [apply Rmult_lt_0_compat; auto|]. apply Rmult_lt_reg_r with p; [lra|]. unfold Rdiv. rewrite Rmult_assoc, Rinv_l by lra. lra. }
  set (q := fun u => L / (p * u) * (ln (p * u / L) ^ k / INR (fact k))).
  change (exists g, (forall u, 0 < u < 1 -> volume (S k) (fun us => stops L p (S k) (draws_then (u :: us) rest)) (g u)) /\ is_RInt g 0 1 (L / p * (ln (p / L) ^ S k / INR (fact (S k))))).
  exists (fun u => if Rlt_dec L (p * u) then q u else 0). split.
  - intros u Hu. destruct (Rlt_dec L (p * u)) as [H|H].
    + eapply volume_ext; [|apply (IH (p * u) H)]. intros us. rewrite stops_S. tauto.
    + apply volume_empty. intros us. rewrite stops_S. tauto.
  - replace (L / p * (ln (p / L) ^ S k / INR (fact (S k)))) with (0 * (L / p - 0) + (L / p * (ln (p / L) ^ S k / INR (fact (S k))))) by ring.
    assert (Hgt : forall u, L / p < u -> L < p * u).
    { intros u Hu. replace L with (p * (L / p)) at 1 by (field; lra). apply Rmult_lt_compat_l; lra. }
    apply is_RInt_piece with (L / p); auto.
    + apply is_RInt_on; [lra|]. intros u Hu. destruct (Rlt_dec L (p * u)) as [H|_]; auto. exfalso. assert (p * u < p * (L / p)) by (apply Rmult_lt_compat_l; lra).
      replace (p * (L / p)) with L in H0 by (field; lra). lra.
    + apply is_RInt_ext with q.
      * intros u Hu. rewrite Rmin_left, Rmax_right in Hu by lra. destruct (Rlt_dec L (p * u)) as [_|H]; auto. exfalso. apply H, Hgt. lra.
      * pose (h := fun u => L / p * (ln (p * u / L) ^ S k / INR (fact (S k)))).
        assert (Hf : 0 < INR (fact k)) by apply INR_fact_lt_0.
        assert (Hd : forall u, L / p <= u -> is_derive h u (q u)).
        { intros u Hu. assert (Hu0 : 0 < u) by lra. assert (Hpos : 0 < p * u / L) by (apply Rmult_lt_0_compat; [apply Rmult_lt_0_compat; lra|apply Rinv_0_lt_compat; auto]).
          unfold h, q. auto_derive; [exact Hpos|]. replace (fact k + k * fact k)%nat with (S k * fact k)%nat by reflexivity. rewrite mult_INR. change (Init.Nat.pred (S k)) with k. assert (Hs : INR (S k) <> 0) by (apply not_0_INR; discriminate).
          change (match k with O => 1 | S _ => INR k + 1 end) with (INR (S k)). change (p * u * / L) with (p * u / L). set (X := ln (p * u / L) ^ k). field. repeat split; lra. }
        assert (Hcont : forall u, L / p <= u -> continuous q u).
        { intros u Hu. assert (Hu0 : 0 < u) by lra. assert (Hpos : 0 < p * u / L) by (apply Rmult_lt_0_compat; [apply Rmult_lt_0_compat; lra|apply Rinv_0_lt_compat; auto]).
          apply (ex_derive_continuous q u). unfold q. auto_derive. split; [nra|]. split; [exact Hpos|auto]. }
        replace (L / p * (ln (p / L) ^ S k / INR (fact (S k)))) with (minus (h 1) (h (L / p))).
        -- apply (is_RInt_derive h q); intros u Hu; rewrite Rmin_left, Rmax_right in Hu by lra; [apply Hd|apply Hcont]; lra.
        -- unfold minus, plus, opp, h. cbn [AbelianGroup.plus AbelianGroup.opp]. cbn. replace (p * (L / p) / L) with 1 by (field; lra). rewrite ln_1, Rmult_1_r.
           set (X := ln (p / L) * ln (p / L) ^ k). rewrite Rmult_0_l. unfold Rdiv. ring.
Qed.

(** ** C59 *)
(** A mean that is not positive, or not finite, gives 0 and uses no draw: in every arithmetic. *)
Theorem C59_no_mean : forall (T : Type) (F : FloatOps T) (P : PoissonOps T) fuel r mean,
  ffinite F mean = false \/ fleb F mean (fzero F) = true -> poisson_sample F P fuel r mean = Ok (0%nat, r).
Proof. intros T F P fuel r mean [H|H]; unfold poisson_sample; rewrite H; [reflexivity|]. rewrite orb_true_r. reflexivity. Qed.

Lemma small_mean fuel r mean : 0 < mean < 30 -> poisson_sample rops rpoisson fuel r mean = knuth rops fuel (exp (- mean)) 1 0 r.
Proof.
  intros H. unfold poisson_sample. cbn [ffinite rops negb orb]. assert (E : fleb rops mean (fzero rops) = false) by (apply rleb_false; cbn; lra). rewrite E.
  cbn [fltb rops po_dec rpoisson po_exp fone fneg]. assert (E2 : rltb mean (30 / 10 ^ 0) = true) by (apply rltb_iff; cbn [pow]; lra). rewrite E2. reflexivity.
Qed.

(** Means below 30: the result is the number of draws whose running product stays above e^-mean, and one more draw than that is used. *)
Theorem C59_counts : forall fuel r mean k r', 0 < mean < 30 ->
  poisson_sample rops rpoisson fuel r mean = Ok (k, r') <->
  (k < fuel)%nat /\ (forall n, (1 <= n <= k)%nat -> exp (- mean) < product (rg_real r) n) /\ product (rg_real r) (S k) <= exp (- mean)
  /\ r' = mkRng (rg_nat r) (Nat.iter (S k) shift (rg_real r)).
Proof.
  intros fuel r mean k r' H. rewrite (small_mean fuel r mean H). rewrite (knuth_steps (exp (- mean)) fuel 1 0 r k r'). rewrite Rmult_1_l.
  split; intros (H1 & H2 & H3 & H4); (split; [exact H1|split; [|split; [exact H3|exact H4]]]).
  - intros [|n] Hn; [lia|]. rewrite <- (Rmult_1_l (product _ _)). apply H2. lia.
  - intros i Hi. rewrite Rmult_1_l. apply H2. lia.
Qed.

(** Hence, with independent uniform draws, the result has exactly the Poisson distribution. *)
Theorem C59_distribution : forall fuel r mean k, 0 < mean < 30 -> (k < fuel)%nat ->
  volume (S k) (fun us => exists r', poisson_sample rops rpoisson fuel (first_draws us r) mean = Ok (k, r')) (exp (- mean) * mean ^ k / INR (fact k)).
Proof.
  intros fuel r mean k H Hk. pose proof (exp_pos (- mean)) as HL. assert (HL1 : exp (- mean) < 1) by (rewrite <- exp_0; apply exp_increasing; lra).
  pose proof (knuth_volume (rg_real r) (exp (- mean)) HL k 1 HL1) as V. replace (exp (- mean) * mean ^ k / INR (fact k)) with (exp (- mean) / 1 * (ln (1 / exp (- mean)) ^ k / INR (fact k))).
  - eapply volume_ext; [|exact V]. intros us. cbn beta. split.
    + intros [S1 S2]. eexists. apply C59_counts; auto. split; [exact Hk|]. cbn [first_draws rg_real]. split; [|split; [|reflexivity]].
      * intros [|n] Hn; [lia|]. rewrite <- (Rmult_1_l (product _ _)). apply S1. lia.
      * rewrite <- (Rmult_1_l (product _ _)). exact S2.
    + intros [r' Hr]. apply C59_counts in Hr as (_ & S1 & S2 & _); auto. cbn [first_draws rg_real] in *. split; [|rewrite Rmult_1_l; exact S2]. intros i Hi. rewrite Rmult_1_l. apply S1. lia.
  - unfold Rdiv at 3. rewrite Rmult_1_l, <- exp_Ropp, ln_exp, Ropp_involutive. field. apply INR_fact_neq_0.
Qed.

(** It stops as soon as some running product is at most e^-mean (which it almost surely is). *)
Theorem C59_stops : forall r mean n, 0 < mean < 30 -> product (rg_real r) n <= exp (- mean) -> exists k r', (k < n)%nat /\ forall fuel, (n <= fuel)%nat -> poisson_sample rops rpoisson fuel r mean = Ok (k, r').
Proof.
  intros r mean n H Hn.
  assert (Hk : exists k, (k < n)%nat /\ product (rg_real r) (S k) <= exp (- mean) /\ forall i, (1 <= i <= k)%nat -> exp (- mean) < product (rg_real r) i).
  { induction n as [|n IH].
    - cbn [product] in Hn. assert (exp (- mean) < 1) by (rewrite <- exp_0; apply exp_increasing; lra). lra.
    - destruct (Rle_dec (product (rg_real r) n) (exp (- mean))) as [Hl|Hl]; [destruct (IH Hl) as (k & Hk & H1); exists k; split; [lia|exact H1]|].
      destruct (Classical_Prop.classic (exists i, (i < n)%nat /\ product (rg_real r) (S i) <= exp (- mean))) as [(i & Hi & Hp)|Hno].
      + clear IH. assert (Hfirst : forall m, (exists i, (i < m)%nat /\ product (rg_real r) (S i) <= exp (- mean)) ->
          exists k, (k < m)%nat /\ product (rg_real r) (S k) <= exp (- mean) /\ forall i, (1 <= i <= k)%nat -> exp (- mean) < product (rg_real r) i).
        { induction m as [|m IHm]; intros (j & Hj & Hpj); [lia|]. destruct (Classical_Prop.classic (exists i, (i < m)%nat /\ product (rg_real r) (S i) <= exp (- mean))) as [Hm|Hm].
          - destruct (IHm Hm) as (k & Hk & H1). exists k. split; [lia|exact H1].
          - exists j. split; [exact Hj|]. split; [exact Hpj|]. intros [|i'] Hi'; [lia|]. apply Rnot_le_lt. intros Hle. apply Hm. exists i'. split; [lia|exact Hle]. }
        destruct (Hfirst n) as (k & Hk & H1); [eauto|]. exists k. split; [lia|exact H1].
      + exists n. split; [lia|]. split; [exact Hn|]. intros [|i] Hi; [lia|]. apply Rnot_le_lt. intros Hle. apply Hno. exists i. split; [lia|exact Hle]. }
  destruct Hk as (k & Hk & H1 & H2). exists k. eexists. split; [exact Hk|]. intros fuel Hf. apply C59_counts; auto. split; [lia|]. split; [exact H2|]. split; [exact H1|reflexivity].
Qed.

(** The logarithm of the factorial is exact below 256. *)
Lemma ln_fact n : forall m, fold_left Rplus (map (fun i => ln (INR i)) (seq (S m) n)) (ln (INR (fact m))) = ln (INR (fact (m + n))).
Proof.
  induction n as [|n IH]; intros m; cbn [seq map fold_left]; [rewrite Nat.add_0_r; reflexivity|].
  replace (ln (INR (fact m)) + ln (INR (S m))) with (ln (INR (fact (S m)))); [rewrite IH; do 3 f_equal; lia|].
  rewrite fact_simpl, mult_INR, ln_mult; [ring|apply lt_0_INR; lia|apply INR_fact_lt_0].
Qed.
Theorem C59_log_factorial : forall k, (k < 256)%nat -> log_factorial rops rpoisson k = ln (INR (fact k)).
Proof.
  intros k Hk. unfold log_factorial. destruct (Nat.ltb_spec k 2) as [H2|H2].
  - destruct k as [|[|k]]; [| |lia]; cbn [fact Nat.mul Nat.add INR fzero rops]; symmetry; exact ln_1.
  - assert (E : (k <? 256)%nat = true) by (apply Nat.ltb_lt; exact Hk). rewrite E. unfold fsum. cbn [fadd fzero rops po_ln po_nat rpoisson].
    pose proof (ln_fact (k - 1) 1) as H. replace (1 + (k - 1))%nat with k in H by lia. rewrite <- H. f_equal. cbn [fact Nat.mul Nat.add INR]. symmetry. exact ln_1.
Qed.

(** *** Large means *)
(** The transformation of the first draw of a round, with [us] the distance to the nearer end of the unit interval. *)
Definition near_end (u : R) : R := 1 / 2 - Rabs (u - 1 / 2).
Definition transformed (a b mean u : R) : R := (2 * a / near_end u + b) * (u - 1 / 2) + mean + 43 / 100.
(** The constants of the method, as functions of the mean. *)
Definition ptrs_b (mean : R) : R := 931 / 1000 + 253 / 100 * sqrt mean.
Definition ptrs_a (mean : R) : R := - (59 / 1000) + 2483 / 100000 * ptrs_b mean.
Definition ptrs_ia (mean : R) : R := 11239 / 10000 + 11328 / 10000 / (ptrs_b mean - 34 / 10).
Definition ptrs_vr (mean : R) : R := 9277 / 10000 - 36224 / 10000 / (ptrs_b mean - 2).
(** A round with draws [u], [v] accepts [k]. *)
Definition accepts (mean u v : R) (k : nat) : Prop :=
  0 < near_end u /\ INR k <= transformed (ptrs_a mean) (ptrs_b mean) mean u < INR k + 1
  /\ ((7 / 100 <= near_end u /\ v <= ptrs_vr mean)
      \/ ((13 / 1000 <= near_end u \/ v <= near_end u)
          /\ ln (v * ptrs_ia mean / (ptrs_a mean / (near_end u * near_end u) + ptrs_b mean)) <= - mean + INR k * ln mean - log_factorial rops rpoisson k)).

Lemma floor_cell x k : (0 <= Int_part x)%Z -> (Z.to_nat (Int_part x) = k <-> INR k <= x < INR k + 1).
Proof.
  intros H. destruct (base_Int_part x) as [B1 B2]. split.
  - intros <-. rewrite INR_IZR_INZ, Z2Nat.id by auto. lra.
  - intros [H1 H2]. rewrite INR_IZR_INZ in H1, H2. assert (E : Int_part x = Z.of_nat k); [|rewrite E; apply Nat2Z.id].
    assert (IZR (Int_part x) < IZR (Z.of_nat k) + 1) by lra. assert (IZR (Z.of_nat k) < IZR (Int_part x) + 1) by lra.
    rewrite <- plus_IZR in H0, H3. apply lt_IZR in H0, H3. lia.
Qed.
Lemma negative_cell x k : (Int_part x < 0)%Z -> ~ (INR k <= x < INR k + 1).
Proof.
  intros H [H1 H2]. destruct (base_Int_part x) as [B1 B2]. pose proof (pos_INR k). assert (Hi : (Int_part x <= -1)%Z) by lia. apply IZR_le in Hi. lra.
Qed.

(** Means of at least 30: the result is that of the first round that accepts, at most one number is accepted per round, and each round uses two draws. *)
Definition round_u (r : rng R) (n : nat) : R := rg_real r (2 * n)%nat.
Definition round_v (r : rng R) (n : nat) : R := rg_real r (2 * n + 1)%nat.
Lemma ptrs_round mean fuel r :
  let u := round_u r 0 in let v := round_v r 0 in let r2 := mkRng (rg_nat r) (shift (shift (rg_real r))) in
  let go := ptrs rops rpoisson in
  (exists j, accepts mean u v j /\ go (S fuel) mean (ptrs_a mean) (ptrs_b mean) (ptrs_ia mean) (ptrs_vr mean) r = Ok (j, r2))
  \/ ((forall j, ~ accepts mean u v j) /\ go (S fuel) mean (ptrs_a mean) (ptrs_b mean) (ptrs_ia mean) (ptrs_vr mean) r
       = go fuel mean (ptrs_a mean) (ptrs_b mean) (ptrs_ia mean) (ptrs_vr mean) r2).
Proof.
  unfold round_u, round_v. cbn [Nat.mul Nat.add]. cbv zeta. cbn [ptrs]. unfold rng_real. cbn [rg_real rg_nat].
  change (shift (rg_real r) 0%nat) with (rg_real r 1%nat). set (u := rg_real r 0%nat). set (v := rg_real r 1%nat). set (r2 := mkRng (rg_nat r) (shift (shift (rg_real r)))).
  assert (Hus : fsub rops (po_dec rpoisson 5 1) (po_abs rpoisson (fsub rops u (po_dec rpoisson 5 1))) = near_end u).
  { cbn [fsub rops po_dec po_abs rpoisson pow]. unfold near_end. replace (5 / (10 * 1)) with (1 / 2) by field. reflexivity. }
  rewrite Hus. destruct (fleb rops (near_end u) (fzero rops)) eqn:E0.
  { right. split; [|reflexivity]. apply rleb in E0. cbn in E0. intros j (Hp & _). lra. }
  apply rleb_false in E0. cbn [fzero rops] in E0.
  assert (Hx : fadd rops (fadd rops (fmul rops (fadd rops (fdiv rops (fmul rops (po_dec rpoisson 2 0) (ptrs_a mean)) (near_end u)) (ptrs_b mean)) (fsub rops u (po_dec rpoisson 5 1))) mean) (po_dec rpoisson 43 2)
    = transformed (ptrs_a mean) (ptrs_b mean) mean u).
  { cbn [fadd fmul fdiv fsub rops po_dec rpoisson pow]. unfold transformed. field. lra. }
  rewrite Hx. cbn [po_floor rpoisson]. set (x := transformed (ptrs_a mean) (ptrs_b mean) mean u). destruct (Z.ltb_spec (Int_part x) 0) as [Hneg|Hpos].
  { right. split; [|reflexivity]. intros j (_ & Hc & _). exact (negative_cell x j Hneg Hc). }
  set (kk := Z.to_nat (Int_part x)). assert (Hcell : forall j, INR j <= x < INR j + 1 <-> kk = j) by (intros j; symmetry; apply floor_cell; exact Hpos).
  assert (H7 : fgeb rops (near_end u) (po_dec rpoisson 7 2) && fleb rops v (ptrs_vr mean) = true <-> 7 / 100 <= near_end u /\ v <= ptrs_vr mean).
  { rewrite andb_true_iff, rleb. unfold fgeb. cbn [fltb feqb rops po_dec rpoisson]. rewrite orb_true_iff, rltb_iff, reqb_iff. replace (10 ^ 2) with 100 by ring. lra. }
  destruct (fgeb rops (near_end u) (po_dec rpoisson 7 2) && fleb rops v (ptrs_vr mean)).
  { left. exists kk. split; [|reflexivity]. split; [exact E0|]. split; [apply Hcell; reflexivity|]. left. apply H7. reflexivity. }
  assert (N7 : ~ (7 / 100 <= near_end u /\ v <= ptrs_vr mean)) by (intros Hc; apply H7 in Hc; discriminate). clear H7.
  assert (H13 : fltb rops (near_end u) (po_dec rpoisson 13 3) && fgtb rops v (near_end u) = true <-> near_end u < 13 / 1000 /\ near_end u < v).
  { rewrite andb_true_iff. unfold fgtb. cbn [fltb rops po_dec rpoisson]. rewrite !rltb_iff. replace (10 ^ 3) with 1000 by ring. lra. }
  destruct (fltb rops (near_end u) (po_dec rpoisson 13 3) && fgtb rops v (near_end u)).
  { right. split; [|reflexivity]. destruct H13 as [H13 _]. specialize (H13 eq_refl). intros j (_ & _ & [Hc|[Hc _]]); [tauto|lra]. }
  assert (N13 : 13 / 1000 <= near_end u \/ v <= near_end u).
  { destruct (Rle_dec (13 / 1000) (near_end u)) as [|N1]; [left; auto|]. right. apply Rnot_lt_le. intros Hv. destruct H13 as [_ H13]. specialize (H13 ltac:(split; lra)). discriminate. }
  cbn [po_ln po_nat rpoisson fdiv fmul fadd fsub fneg rops]. destruct (fleb rops _ _) eqn:El.
  - left. exists kk. split; [|reflexivity]. apply rleb in El. split; [exact E0|]. split; [apply Hcell; reflexivity|]. right. split; [exact N13|exact El].
  - right. split; [|reflexivity]. apply rleb_false in El. intros j (_ & Hc & [Hd|[_ Hd]]); [tauto|]. apply Hcell in Hc. rewrite <- Hc in Hd. lra.
Qed.
Lemma accepts_one mean u v j k : accepts mean u v j -> accepts mean u v k -> j = k.
Proof.
  intros (_ & [A1 A2] & _) (_ & [B1 B2] & _). assert (H1 : INR j < INR (S k)) by (rewrite S_INR; lra). assert (H2 : INR k < INR (S j)) by (rewrite S_INR; lra). apply INR_lt in H1, H2. lia.
Qed.
Theorem C59_rejection : forall fuel r mean k, 30 <= mean ->
  (exists r', poisson_sample rops rpoisson fuel r mean = Ok (k, r')) <->
  exists n, (n < fuel)%nat /\ accepts mean (round_u r n) (round_v r n) k
    /\ (forall i j, (i < n)%nat -> ~ accepts mean (round_u r i) (round_v r i) j).
Proof.
  intros fuel r mean k Hm. unfold poisson_sample. cbn [ffinite rops negb orb]. assert (E : fleb rops mean (fzero rops) = false) by (apply rleb_false; cbn; lra). rewrite E.
  assert (E2 : fltb rops mean (po_dec rpoisson 30 0) = false) by (cbn [fltb rops po_dec rpoisson]; apply rltb_false; cbn [pow]; lra). rewrite E2. clear E E2. cbv zeta.
  set (a := fadd rops (fneg rops (po_dec rpoisson 59 3)) _). set (b := fadd rops (po_dec rpoisson 931 3) _) in *.
  set (ia := fadd rops (po_dec rpoisson 11239 4) _). set (vr := fsub rops (po_dec rpoisson 9277 4) _).
  assert (Eb : b = ptrs_b mean) by (unfold b, ptrs_b; cbn [fadd fmul rops po_dec rpoisson po_sqrt pow]; field).
  assert (Ea : a = ptrs_a mean) by (unfold a, ptrs_a; rewrite Eb; cbn [fadd fmul fneg rops po_dec rpoisson pow]; field).
  assert (Eia : ia = ptrs_ia mean) by (unfold ia, ptrs_ia; rewrite Eb; cbn [fadd fdiv fsub rops po_dec rpoisson pow]; f_equal; [field|f_equal; [field|f_equal; field]]).
  assert (Evr : vr = ptrs_vr mean) by (unfold vr, ptrs_vr; rewrite Eb; cbn [fadd fdiv fsub rops po_dec rpoisson pow]; f_equal; [field|f_equal; [field|f_equal; field]]).
  clearbody a b ia vr. subst a b ia vr. clear Hm. revert r. induction fuel as [|fuel IH]; intros r.
  - split; [intros [r' H]; discriminate|]. intros (n & Hn & _). lia.
  - set (r2 := mkRng (rg_nat r) (shift (shift (rg_real r)))).
    assert (Hsh : forall n, round_u r2 n = round_u r (S n) /\ round_v r2 n = round_v r (S n)).
    { intros n. unfold round_u, round_v, r2, shift. cbn [rg_real]. split; f_equal; lia. }
    destruct (ptrs_round mean fuel r) as [(j & Ha & He)|[Hno He]]; fold r2 in He; rewrite He.
    + split.
      * intros [r' [= <- _]]. exists 0%nat. split; [lia|]. split; [exact Ha|]. intros i ? Hi. lia.
      * intros (n & Hn & Hk & Hb). destruct n as [|n]; [|exfalso; apply (Hb 0%nat j); [lia|exact Ha]]. rewrite (accepts_one _ _ _ _ _ Hk Ha). eauto.
    + rewrite (IH r2). split.
      * intros (n & Hn & Ha & Hb). exists (S n). split; [lia|]. destruct (Hsh n) as [H1 H2]. rewrite H1, H2 in Ha. split; [exact Ha|].
        intros [|i] j Hi; [exact (Hno j)|]. destruct (Hsh i) as [H3 H4]. specialize (Hb i j ltac:(lia)). rewrite H3, H4 in Hb. exact Hb.
      * intros (n & Hn & Ha & Hb). destruct n as [|n]; [contradiction (Hno k Ha)|]. exists n. split; [lia|]. destruct (Hsh n) as [H1 H2]. rewrite H1, H2. split; [exact Ha|].
        intros i j Hi. destruct (Hsh i) as [H3 H4]. rewrite H3, H4. apply Hb. lia.
Qed.

(** The test of a round compares the second draw with the probability of k, scaled by the slope of the transformation, which is the ratio the rejection method requires. *)
Theorem C59_accepts_ratio : forall mean u v k, 30 <= mean -> 0 < v -> 0 < near_end u -> (k < 256)%nat ->
  let slope := ptrs_a mean / (near_end u * near_end u) + ptrs_b mean in
  (ln (v * ptrs_ia mean / slope) <= - mean + INR k * ln mean - log_factorial rops rpoisson k <-> v * ptrs_ia mean <= slope * (exp (- mean) * mean ^ k / INR (fact k)))
  /\ (u <> 1 / 2 -> is_derive (transformed (ptrs_a mean) (ptrs_b mean) mean) u slope) /\ 0 < slope.
Proof.
  intros mean u v k Hm Hv Hu Hk slope. assert (Hs1 : 1 <= sqrt mean) by (rewrite <- sqrt_1; apply sqrt_le_1; lra).
  assert (Hs5 : 5 <= sqrt mean) by (rewrite <- (sqrt_square 5) by lra; apply sqrt_le_1; lra).
  assert (Hb : 13 <= ptrs_b mean) by (unfold ptrs_b; lra). assert (Ha : 0 < ptrs_a mean) by (unfold ptrs_a; lra).
  assert (Hia : 0 < ptrs_ia mean).
  { unfold ptrs_ia. assert (0 < 11328 / 10000 / (ptrs_b mean - 34 / 10)); [|lra]. apply Rmult_lt_0_compat; [lra|apply Rinv_0_lt_compat; lra]. }
  assert (Hn2 : 0 < near_end u * near_end u) by (apply Rmult_lt_0_compat; auto). assert (Hsl : 0 < slope).
  { unfold slope. assert (0 < ptrs_a mean / (near_end u * near_end u)); [|lra]. apply Rmult_lt_0_compat; [auto|apply Rinv_0_lt_compat; auto]. }
  split; [|split; [|exact Hsl]].
  - rewrite (C59_log_factorial k Hk). pose proof (INR_fact_lt_0 k) as Hf. assert (Hpow : 0 < mean ^ k) by (apply pow_lt; lra).
    assert (Er : - mean + INR k * ln mean - ln (INR (fact k)) = ln (exp (- mean) * mean ^ k / INR (fact k))).
    { unfold Rdiv. rewrite ln_mult; [|apply Rmult_lt_0_compat; [apply exp_pos|auto]|apply Rinv_0_lt_compat; auto]. rewrite ln_mult by (auto; apply exp_pos). rewrite ln_exp, ln_Rinv by auto.
      replace (ln (mean ^ k)) with (INR k * ln mean); [ring|]. rewrite <- Rpower_pow by lra. unfold Rpower. rewrite ln_exp. reflexivity. }
    rewrite Er. set (q := exp (- mean) * mean ^ k / INR (fact k)). assert (Hq : 0 < q) by (unfold q; apply Rmult_lt_0_compat; [apply Rmult_lt_0_compat; [apply exp_pos|auto]|apply Rinv_0_lt_compat; auto]).
    assert (Hvi : 0 < v * ptrs_ia mean) by (apply Rmult_lt_0_compat; auto). assert (Hd : 0 < v * ptrs_ia mean / slope) by (apply Rmult_lt_0_compat; [auto|apply Rinv_0_lt_compat; auto]).
    assert (Eq : v * ptrs_ia mean / slope <= q <-> v * ptrs_ia mean <= slope * q).
    { split; intros H.
      - replace (v * ptrs_ia mean) with (slope * (v * ptrs_ia mean / slope)) by (field; lra). apply Rmult_le_compat_l; lra.
      - apply Rmult_le_reg_l with slope; auto. replace (slope * (v * ptrs_ia mean / slope)) with (v * ptrs_ia mean) by (field; lra). exact H. }
    rewrite <- Eq. split; intros H.
    + apply Rnot_lt_le. intros Hlt. apply ln_increasing in Hlt; [lra|auto].
    + destruct H as [H|H]; [left; apply ln_increasing; auto|rewrite H; right; reflexivity].
  - intros Hhalf. destruct (Rlt_dec u (1 / 2)) as [Hl|Hl].
    + assert (E : forall t, t < 1 / 2 -> near_end t = t) by (intros t Ht; unfold near_end; rewrite Rabs_left by lra; lra).
      apply (is_derive_ext_loc (fun t => (2 * ptrs_a mean / t + ptrs_b mean) * (t - 1 / 2) + mean + 43 / 100)).
      * apply (locally_interval _ u m_infty (1 / 2)); cbn; auto. intros t _ Ht. unfold transformed. rewrite (E t Ht). reflexivity.
      * unfold slope. rewrite (E u Hl) in *. auto_derive; [lra|]. field. lra.
    + assert (E : forall t, 1 / 2 < t -> near_end t = 1 - t) by (intros t Ht; unfold near_end; rewrite Rabs_pos_eq by lra; lra).
      apply (is_derive_ext_loc (fun t => (2 * ptrs_a mean / (1 - t) + ptrs_b mean) * (t - 1 / 2) + mean + 43 / 100)).
      * apply (locally_interval _ u (1 / 2) p_infty); cbn; auto; [lra|]. intros t Ht _. unfold transformed. rewrite (E t Ht). reflexivity.
      * unfold slope. assert (Hu2 : 1 / 2 < u) by lra. rewrite (E u Hu2) in *. auto_derive; [lra|]. field. lra.
Qed.

(** The normal draws are bounded: 0 < u1 is never below the smallest normal number. *)
Theorem C59_normal_bounded : forall r, (forall i, 0 <= rg_real r i < 1) ->
  exists z, standard_normal rops rpoisson r = (z, mkRng (rg_nat r) (shift (shift (rg_real r)))) /\ Rabs z <= sqrt (2 * (1022 * ln 2)).
Proof.
  intros r Hr. unfold standard_normal, rng_real. cbn [rg_real rg_nat fltb rops po_min_positive rpoisson]. set (m := / 2 ^ 1022). set (u := rg_real r 0%nat).
  set (u1 := if rltb u m then m else u). eexists. split; [reflexivity|]. cbn [fmul fneg rops po_dec po_sqrt po_ln po_cos rpoisson].
  assert (Hm : 0 < m) by (apply Rinv_0_lt_compat, pow_lt; lra). assert (Hm1 : m < 1).
  { unfold m. rewrite <- Rinv_1. apply Rinv_lt_contravar; [rewrite Rmult_1_l; apply pow_lt; lra|]. apply Rlt_pow_R1; [lra|apply Nat.lt_0_succ]. }
  assert (Hu1 : m <= u1 < 1).
  { unfold u1. destruct (rltb u m) eqn:E; [lra|]. apply rltb_false in E. pose proof (Hr 0%nat). fold u in H. lra. }
  assert (Hln : - (1022 * ln 2) <= ln u1 <= 0).
  { split.
    - replace (- (1022 * ln 2)) with (ln m); [destruct (proj1 Hu1) as [H|H]; [left; apply ln_increasing; lra|rewrite H; right; reflexivity]|].
      unfold m. rewrite ln_Rinv by (apply pow_lt; lra). rewrite <- Rpower_pow by lra. unfold Rpower. rewrite ln_exp. replace (INR 1022) with 1022; [reflexivity|]. rewrite INR_IZR_INZ. reflexivity.
    - rewrite <- ln_1. destruct Hu1 as [Ha Hb]. left. apply ln_increasing; lra. }
  rewrite Rabs_mult, (Rabs_pos_eq (sqrt _)) by apply sqrt_pos. set (c := cos _). assert (Hc : Rabs c <= 1) by (apply Rabs_le; pose proof (COS_bound (2 * PI * shift (rg_real r) 0%nat)); unfold c; cbn [po_two_pi rpoisson] in *; lra).
  rewrite <- (Rmult_1_r (sqrt (2 * (1022 * ln 2)))). apply Rmult_le_compat; [apply sqrt_pos|apply Rabs_pos| |exact Hc].
  apply sqrt_le_1_alt. cbn [pow]. lra.
Qed.

(** The normal sampler is the method of Box and Muller: given the angle 2*pi*u2 of the second draw, the number over the cosine of the angle exceeds t with the probability
    exp(-t^2/2) (the distribution of Rayleigh), for every t that the smallest positive number does not rule out. *)
Theorem C59_normal_radius : forall r u2 t, cos (2 * PI * u2) <> 0 -> 0 <= t -> t * t / 2 < 1022 * ln 2 ->
  volume 1 (fun us => t < fst (standard_normal rops rpoisson (first_draws (us ++ [u2]) r)) / cos (2 * PI * u2)) (exp (- (t * t / 2))).
Proof.
  intros r u2 t Hc Ht Hm. set (L := exp (- (t * t / 2))). assert (HL : 0 < L) by apply exp_pos.
  assert (HL1 : L <= 1). { unfold L. rewrite <- exp_0. assert (0 <= t * t) by nra. destruct (Req_dec (t * t) 0) as [E|E]; [rewrite E; right; f_equal; lra|left; apply exp_increasing; lra]. }
  assert (Hmp : 0 < / 2 ^ 1022 < L).
  { assert (Hp : 0 < 2 ^ 1022) by (apply pow_lt; lra). split; [now apply Rinv_0_lt_compat|]. rewrite <- (exp_ln (/ 2 ^ 1022)) by now apply Rinv_0_lt_compat. unfold L. apply exp_increasing.
    rewrite ln_Rinv by exact Hp. rewrite ln_pow by lra. replace (INR 1022) with 1022 by (rewrite INR_IZR_INZ; reflexivity). lra. }
  assert (Hrad : forall x, 0 < x < 1 -> (t < sqrt (- 2 * ln x) <-> x < L)).
  { intros x Hx. assert (Hln : ln x < 0) by (rewrite <- ln_1; apply ln_increasing; lra). split; intros H.
    - rewrite <- (exp_ln x) by lra. unfold L. apply exp_increasing. assert (t * t < sqrt (- 2 * ln x) * sqrt (- 2 * ln x)) by (apply Rmult_le_0_lt_compat; auto). rewrite sqrt_sqrt in H0 by lra. lra.
    - unfold L in H. rewrite <- (exp_ln x) in H by lra. apply exp_lt_inv in H. rewrite <- (sqrt_square t) by exact Ht. apply sqrt_lt_1; nra. }
  assert (Hset : forall u, 0 < u < 1 -> (t < fst (standard_normal rops rpoisson (first_draws ([u] ++ [u2]) r)) / cos (2 * PI * u2) <-> u < L)).
  { intros u Hu. set (u1 := if Rlt_dec u (/ 2 ^ 1022) then / 2 ^ 1022 else u).
    assert (Ev : fst (standard_normal rops rpoisson (first_draws ([u] ++ [u2]) r)) = sqrt (- 2 * ln u1) * cos (2 * PI * u2)).
    { unfold standard_normal, rng_real. cbn [first_draws rg_real app draws_then fst snd rops fltb fmul fneg rpoisson po_sqrt po_ln po_cos po_two_pi po_min_positive po_dec].
      unfold shift. cbn [draws_then]. unfold u1, rltb. replace (- (IZR 2 / 10 ^ 0)) with (- 2) by (cbn [pow]; field). destruct (Rlt_dec u (/ 2 ^ 1022)); reflexivity. }
    rewrite Ev. replace (sqrt (- 2 * ln u1) * cos (2 * PI * u2) / cos (2 * PI * u2)) with (sqrt (- 2 * ln u1)) by (field; exact Hc).
    assert (Hu1 : 0 < u1 < 1) by (unfold u1; destruct (Rlt_dec u (/ 2 ^ 1022)); lra). rewrite (Hrad u1 Hu1). unfold u1. destruct (Rlt_dec u (/ 2 ^ 1022)); lra. }
  exists (fun u => if Rlt_dec u L then 1 else 0). split.
  - intros u Hu. destruct (Rlt_dec u L) as [Hl|Hl]; [apply volume_all|apply volume_none]; rewrite (Hset u Hu); exact Hl.
  - destruct (Req_dec L 1) as [E|E].
    + replace L with (1 * (1 - 0)) by lra. apply is_RInt_on; [lra|]. intros u Hu. destruct (Rlt_dec u (1 * (1 - 0))) as [|Hn]; [reflexivity|]. lra.
    + assert (HR : is_RInt (fun u => if Rlt_dec u L then 1 else 0) 0 1 (1 * (L - 0) + 0 * (1 - L))) by (apply (is_RInt_piece _ L); [lra| |]; (apply is_RInt_on; [lra|]); intros u Hu; destruct (Rlt_dec u L); lra).
      replace (1 * (L - 0) + 0 * (1 - L)) with L in HR by ring. exact HR.
Qed.

(** ** Cases *)
Example C59_case : (forall fuel, (3 <= fuel)%nat -> exists r', poisson_sample rops rpoisson fuel (mkRng (fun _ => 0%nat) (fun _ => 1 / 2)) 1 = Ok (1%nat, r')).
Proof.
  intros fuel Hf. assert (H : exp (- (1)) < 1 / 2 /\ 1 / 4 <= exp (- (1))).
  { pose proof (exp_ineq1 1 ltac:(lra)). pose proof exp_le_3. rewrite exp_Ropp. split.
    - replace (1 / 2) with (/ 2) by field. apply Rinv_lt_contravar; [|lra]. apply Rmult_lt_0_compat; [lra|apply exp_pos].
    - replace (1 / 4) with (/ 4) by field. apply Rinv_le_contravar; [apply exp_pos|lra]. }
  eexists. apply C59_counts; [lra|]. split; [lia|]. split; [|split; [|reflexivity]].
  - intros n Hn. assert (n = 1)%nat by lia. subst n. cbn [product rg_real]. lra.
  - cbn [product rg_real]. lra.
Qed.
Example C59_volume_case : volume 1 (fun us => exists r', poisson_sample rops rpoisson 5 (first_draws us (mkRng (fun _ => 0%nat) (fun _ => 0))) 2 = Ok (0%nat, r')) (exp (- (2))).
Proof. pose proof (C59_distribution 5 (mkRng (fun _ => 0%nat) (fun _ => 0)) 2 0 ltac:(lra) ltac:(lia)) as V. cbn [pow fact INR] in V. replace (exp (- (2)) * 1 / 1) with (exp (- (2))) in V by field. exact V. Qed.

(** Mean 36, draws 1/2 and 0: 36 is accepted in the first round. *)
Example C59_rejection_case : exists r', poisson_sample rops rpoisson 1 (mkRng (fun _ => 0%nat) (fun n => if Nat.even n then 1 / 2 else 0)) 36 = Ok (36%nat, r').
Proof.
  apply C59_rejection; [lra|]. exists 0%nat. split; [lia|]. split; [|intros i j Hi; lia]. unfold round_u, round_v. cbn [rg_real Nat.mul Nat.add Nat.even].
  assert (Hne : near_end (1 / 2) = 1 / 2) by (unfold near_end; replace (1 / 2 - 1 / 2) with 0 by ring; rewrite Rabs_R0; lra).
  assert (Hs : sqrt 36 = 6) by (replace 36 with (6 * 6) by ring; apply sqrt_square; lra).
  unfold accepts. rewrite Hne. split; [lra|]. split.
  - unfold transformed. replace (INR 36) with 36 by (rewrite INR_IZR_INZ; reflexivity). lra.
  - left. split; [lra|]. unfold ptrs_vr, ptrs_b. rewrite Hs. lra.
Qed.

Print Assumptions C59_no_mean.
Print Assumptions C59_counts.
Print Assumptions C59_distribution.
Print Assumptions C59_stops.
Print Assumptions C59_log_factorial.
Print Assumptions C59_rejection.
Print Assumptions C59_accepts_ratio.
Print Assumptions C59_normal_bounded.
Print Assumptions C59_normal_radius.
