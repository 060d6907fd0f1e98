(** Properties C28, C29, C36: tournament selection, weighted choice, shuffles. *)
From Coq Require Import QArith Lqa Sorted.
From Verif Require Import Base BaseLemmas Node Rng Registry Complexity Member SortProofs Num Instances Selection SelectionProofs PropHof.
Local Open Scope nat_scope.

(** ** C36 *)
Theorem C36_shuffle_is_permutation {A W} (r : rng W) (l : list A) :
  exists l' r', shuffle r l = Ok (l', r') /\ Permutation l l'.
Proof.
  unfold shuffle. destruct (Nat.leb_spec (List.length l) 1).
  - exists l, r. auto.
  - destruct (shuffle_from_spec (List.length l - 1) r l []) as (l' & r' & E & HP); [lia|].
    rewrite !app_nil_r in E. eauto.
Qed.

Theorem C36_every_permutation_reachable {A W} (real : nat -> W) (l l' : list A) : Permutation l l' ->
  exists draws r', shuffle (mkRng draws real) l = Ok (l', r').
Proof.
  intros HP. unfold shuffle. destruct (Nat.leb_spec (List.length l) 1).
  - destruct l as [|x [|y l]]; cbn in *; try lia.
    + apply Permutation_nil in HP as ->. exists (fun _ => 0). eauto.
    + apply Permutation_length_1_inv in HP as ->. exists (fun _ => 0). eauto.
  - destruct (shuffle_from_reach real (List.length l - 1) l l' []) as (f & Hf); [lia|exact HP|].
    destruct (Hf (fun _ => 0)) as (r' & E). rewrite !app_nil_r in E. eauto.
Qed.

(** Of the n! sequences of draws (draw k is uniform in 0..n-k) no two give the same order: with the previous theorem, uniform
    draws give a uniform permutation. *)
Theorem C36_no_bias {A W} (r1 r2 r1' r2' : rng W) (l l' : list A) : NoDup l ->
  shuffle r1 l = Ok (l', r1') -> shuffle r2 l = Ok (l', r2') ->
  forall k, S k < List.length l -> rg_nat r1 k mod (List.length l - k) = rg_nat r2 k mod (List.length l - k).
Proof.
  intros Hnd. unfold shuffle. destruct (Nat.leb_spec (List.length l) 1); [intros; lia|]. intros E1 E2 k Hk.
  pose proof (app_nil_r l) as Hn. rewrite <- Hn in E1 at 2. rewrite <- Hn in E2 at 2.
  pose proof (shuffle_from_inj (List.length l - 1) r1 r2 r1' r2' l [] l' ltac:(lia) Hnd E1 E2 k ltac:(lia)) as H1.
  replace (S (List.length l - 1) - k) with (List.length l - k) in H1 by lia. exact H1.
Qed.

Example C36_case : exists r', shuffle (mkRng (fun k => 5 + k) (fun _ => 0%Z)) [10; 20; 30; 40] = Ok ([30; 40; 10; 20], r').
Proof. eexists. vm_compute. reflexivity. Qed.

(** ** C29 *)
Fixpoint Qsum (l : list Q) : Q := match l with [] => 0%Q | x :: l' => (x + Qsum l')%Q end.

Lemma Qsum_app a b : (Qsum (a ++ b) == Qsum a + Qsum b)%Q.
Proof. induction a as [|x a IH]; cbn [app Qsum]; [lra|]. rewrite IH. lra. Qed.
Lemma Qsum_nonneg l : Forall (fun q => 0 <= q)%Q l -> (0 <= Qsum l)%Q.
Proof. induction 1; cbn [Qsum]; lra. Qed.
Lemma Qsum_pos l : Forall (fun q => 0 <= q)%Q l -> Exists (fun q => 0 < q)%Q l -> (0 < Qsum l)%Q.
Proof.
  intros H1 H2. induction H2 as [x l Hx|x l Hx IH].
  - apply Forall_cons_iff in H1 as [_ H1]. apply Qsum_nonneg in H1. cbn [Qsum]. lra.
  - apply Forall_cons_iff in H1 as [H0 H1]. specialize (IH H1). cbn [Qsum]. lra.
Qed.

(** Whatever the arithmetic: the index is in range; it has a positive weight unless the loop fell through to the last index. *)
Lemma pick_weight_spec {W} (FW : FloatOps W) ws : forall idx target last, exists i, pick_weight FW ws idx target last = i /\
  (i = last \/ (exists w, nth_error ws (i - idx) = Some w /\ idx <= i < idx + List.length ws /\ fleb FW w (fzero FW) = false)).
Proof.
  induction ws as [|w ws IH]; intros idx target last; cbn [pick_weight].
  - eexists. split; [reflexivity|]. auto.
  - assert (Hshift : forall target', exists i, pick_weight FW ws (S idx) target' last = i /\
      (i = last \/ (exists w0, nth_error (w :: ws) (i - idx) = Some w0 /\ idx <= i < idx + List.length (w :: ws) /\ fleb FW w0 (fzero FW) = false))).
    { intros target'. destruct (IH (S idx) target' last) as (i & E & H). exists i. split; auto. destruct H as [H|(w0 & Hn & Hi & Hw)]; [left; exact H|].
      right. exists w0. replace (i - idx) with (S (i - S idx)) by lia. cbn [List.length]. split; [exact Hn|]. split; [lia|exact Hw]. }
    destruct (fleb FW w (fzero FW)) eqn:E0; [apply Hshift|]. destruct (fltb FW target w); [|apply Hshift].
    exists idx. split; auto. right. exists w. rewrite Nat.sub_diag. cbn [List.length]. split; [reflexivity|]. split; [lia|exact E0].
Qed.

Theorem C29_in_range {W} (FW : FloatOps W) (r r' : rng W) ws i : weighted_index FW r ws = Ok (i, r') ->
  exists w, nth_error ws i = Some w /\ (S i = List.length ws \/ fleb FW w (fzero FW) = false).
Proof.
  unfold weighted_index. destruct ws as [|w0 ws]; [discriminate|]. destruct (sum_weights FW (w0 :: ws) (fzero FW)) as [t| |]; try discriminate.
  cbn [bind]. destruct (negb (ffinite FW t) || fleb FW t (fzero FW)); [discriminate|]. unfold rng_real. intros E. injection E as E _.
  destruct (pick_weight_spec FW (w0 :: ws) 0 (fmul FW (rg_real r 0) t) (List.length (w0 :: ws) - 1)) as (i' & E' & H).
  assert (i' = i) as -> by (rewrite <- E'; exact E). clear E'. destruct H as [->|(w & Hn & Hi & Hw)].
  - destruct (nth_error (w0 :: ws) (List.length (w0 :: ws) - 1)) as [w|] eqn:En; [|apply nth_error_None in En; cbn in En; lia].
    exists w. split; auto. left. cbn. lia.
  - rewrite Nat.sub_0_r in Hn. exists w. auto.
Qed.

Section exact.
Context {W : Type} (FW : FloatOps W) (val : W -> Q) (X : ExactLaws FW val).

Definition weight_ok (w : W) : Prop := ffinite FW w = true /\ (0 <= val w)%Q.
Definition vals (ws : list W) : list Q := map val ws.

Lemma vals_nonneg ws : Forall weight_ok ws -> Forall (fun q => 0 <= q)%Q (vals ws).
Proof. induction 1 as [|w ws [_ H]]; cbn; auto. Qed.

Lemma neg_weight w : ffinite FW w = true -> fltb FW w (fzero FW) = true <-> (val w < 0)%Q.
Proof. intros H. rewrite (ex_lt _ _ X) by (auto; apply (proj1 (ex_zero _ _ X))). destruct (ex_zero _ _ X) as [_ ->]. reflexivity. Qed.
Lemma pos_weight w : ffinite FW w = true -> fleb FW w (fzero FW) = false <-> (0 < val w)%Q.
Proof.
  intros H. destruct (ex_zero _ _ X) as [Hz Ez]. unfold fleb. rewrite orb_false_iff.
  rewrite <- !not_true_iff_false, (ex_lt _ _ X), (ex_eq _ _ X), Ez by auto. split; [intros []|split]; lra.
Qed.

Lemma sum_weights_spec ws : forall total, ffinite FW total = true ->
  (Forall weight_ok ws -> exists t, sum_weights FW ws total = Ok t /\ ffinite FW t = true /\ (val t == val total + Qsum (vals ws))%Q) /\
  (~ Forall weight_ok ws -> sum_weights FW ws total = Panic).
Proof.
  induction ws as [|w ws IH]; intros total Ht; cbn [sum_weights].
  - split; [|intros H; exfalso; apply H; constructor]. intros _. exists total. repeat split; auto. cbn [vals map Qsum]. lra.
  - destruct (ffinite FW w) eqn:Ef; cbn [negb orb].
    2: { split; auto. intros H. inversion H as [|? ? [Hf _]]. congruence. }
    destruct (fltb FW w (fzero FW)) eqn:El.
    { apply (neg_weight w Ef) in El. split; auto. intros H. inversion H as [|? ? [_ Hv]]. lra. }
    assert (Hw : weight_ok w). { split; auto. destruct (Qlt_le_dec (val w) 0) as [Hc|]; auto. apply (neg_weight w Ef) in Hc. congruence. }
    destruct (ex_add _ _ X total w Ht Ef) as [Hf Ha]. destruct (IH (fadd FW total w) Hf) as [I1 I2]. split.
    + intros H. apply Forall_cons_iff in H as [_ H]. destruct (I1 H) as (t & E & Htf & Hv). exists t. repeat split; auto.
      rewrite Hv, Ha. cbn [vals map Qsum]. unfold vals. lra.
    + intros H. apply I2. intros Hc. apply H. constructor; auto.
Qed.

Lemma pick_weight_exact ws : forall idx target last, Forall weight_ok ws -> ffinite FW target = true ->
  (0 <= val target < Qsum (vals ws))%Q ->
  exists k, pick_weight FW ws idx target last = idx + k /\ k < List.length ws /\
    (exists w, nth_error ws k = Some w /\ (0 < val w)%Q) /\
    (Qsum (vals (firstn k ws)) <= val target < Qsum (vals (firstn (S k) ws)))%Q.
Proof.
  induction ws as [|w ws IH]; intros idx target last Hw Ht Hv; [cbn [vals map Qsum] in Hv; lra|].
  apply Forall_cons_iff in Hw as [[Hf Hp] Hw]. cbn [pick_weight].
  assert (Hstep : forall target', ffinite FW target' = true -> (val target' == val target - val w)%Q -> (val w <= val target)%Q ->
    exists k, pick_weight FW ws (S idx) target' last = idx + k /\ k < S (List.length ws) /\
    (exists w', nth_error (w :: ws) k = Some w' /\ (0 < val w')%Q) /\
    (Qsum (vals (firstn k (w :: ws))) <= val target < Qsum (vals (firstn (S k) (w :: ws))))%Q).
  { intros t' Hf' Ev Hle. destruct (IH (S idx) t' last Hw Hf') as (k & E & Hk & Hw' & Hr).
    - cbn [vals map Qsum] in Hv. rewrite Ev. unfold vals. lra.
    - exists (S k). split; [rewrite E; lia|]. split; [lia|]. split; [exact Hw'|].
      rewrite Ev in Hr. change (firstn (S k) (w :: ws)) with (w :: firstn k ws).
      change (firstn (S (S k)) (w :: ws)) with (w :: firstn (S k) ws). unfold vals in *. rewrite !map_cons. cbn [Qsum]. lra. }
  destruct (fleb FW w (fzero FW)) eqn:E0.
  - assert (Hz : (val w == 0)%Q). { destruct (Qlt_le_dec 0 (val w)) as [Hc|]; [|lra]. apply (pos_weight w Hf) in Hc. congruence. }
    destruct (Hstep target Ht) as (k & E & Hk & Hw' & Hr); [lra|lra|]. exists k. cbn [List.length]. auto.
  - apply (pos_weight w Hf) in E0. destruct (fltb FW target w) eqn:El.
    + apply (ex_lt _ _ X) in El; auto. exists 0. split; [lia|]. split; [cbn; lia|]. split; [exists w; auto|]. cbn [firstn vals map Qsum]. lra.
    + assert (Hle : (val w <= val target)%Q). { apply Qnot_lt_le. intros Hc. apply (ex_lt _ _ X) in Hc; auto. congruence. }
      destruct (ex_sub _ _ X target w Ht Hf) as [Hfs Hs]. destruct (Hstep _ Hfs Hs Hle) as (k & E & Hk & Hw' & Hr). exists k. cbn [List.length]. auto.
Qed.

(** In exact arithmetic, with a draw 0 <= u < 1: the index is in range, its weight is positive, and it is the one whose share of
    the total the draw falls into. *)
Theorem C29_weighted_index (r : rng W) ws : let u := rg_real r 0 in
  Forall weight_ok ws -> Exists (fun w => 0 < val w)%Q ws -> ffinite FW u = true -> (0 <= val u < 1)%Q ->
  exists i r' w, weighted_index FW r ws = Ok (i, r') /\ nth_error ws i = Some w /\ (0 < val w)%Q /\
    (Qsum (vals (firstn i ws)) <= val u * Qsum (vals ws) < Qsum (vals (firstn i ws)) + val w)%Q.
Proof.
  intros u Hw He Hu Hv. unfold weighted_index. destruct ws as [|w0 ws]; [inversion He|].
  destruct (ex_zero _ _ X) as [Hz Ez]. destruct (sum_weights_spec (w0 :: ws) (fzero FW) Hz) as [H _].
  destruct (H Hw) as (t & Et & Htf & Htv). rewrite Et. cbn [bind].
  assert (Hpos : (0 < Qsum (vals (w0 :: ws)))%Q).
  { apply Qsum_pos; [apply vals_nonneg; exact Hw|]. apply Exists_exists in He as (w & Hin & Hwp). apply Exists_exists. exists (val w). split; auto. apply in_map. exact Hin. }
  assert (Htp : (0 < val t)%Q) by (rewrite Htv, Ez; lra).
  rewrite Htf. apply (pos_weight t Htf) in Htp. rewrite Htp. cbn [negb orb]. unfold rng_real. fold u.
  destruct (ex_mul _ _ X u t Hu Htf) as [Hmf Hmv].
  assert (Hmv' : (val (fmul FW u t) == val u * Qsum (vals (w0 :: ws)))%Q).
  { rewrite Hmv, Htv, Ez. rewrite Qplus_0_l. reflexivity. }
  destruct (pick_weight_exact (w0 :: ws) 0 (fmul FW u t) (List.length (w0 :: ws) - 1) Hw Hmf) as (k & E & Hk & (w & Hn & Hwp) & Hr).
  { rewrite Hmv'. split; [nra|]. nra. }
  exists k. do 2 eexists. split; [rewrite E; reflexivity|]. split; [exact Hn|]. split; [exact Hwp|]. rewrite Hmv' in Hr.
  rewrite (firstn_S_nth_error _ _ _ Hn) in Hr. unfold vals in *. rewrite map_app, Qsum_app in Hr. change (Qsum (map val [w])) with (val w + 0)%Q in Hr. lra.
Qed.

(** It panics exactly on an invalid vector: a weight that is not finite or negative, or no positive weight. *)
Theorem C29_panics_exactly (r : rng W) ws :
  (weighted_index FW r ws = Panic <-> ~ (Forall weight_ok ws /\ Exists (fun w => 0 < val w)%Q ws)) /\ weighted_index FW r ws <> OutOfFuel.
Proof.
  destruct (ex_zero _ _ X) as [Hz Ez]. unfold weighted_index. destruct ws as [|w0 ws].
  - split; [|discriminate]. split; auto. intros _ [_ H]. inversion H.
  - destruct (sum_weights_spec (w0 :: ws) (fzero FW) Hz) as [H1 H2].
    assert (Hdec : Forall weight_ok (w0 :: ws) \/ ~ Forall weight_ok (w0 :: ws)).
    { generalize (w0 :: ws). clear - X. induction l as [|w l IH]; [left; constructor|].
      destruct IH as [IH|IH]; [|right; intros H; inversion H; contradiction].
      destruct (ffinite FW w) eqn:Ef; [|right; intros H; inversion H as [|? ? [? _]]; congruence].
      destruct (Qlt_le_dec (val w) 0); [right; intros H; inversion H as [|? ? [_ ?]]; lra|]. left. constructor; auto. split; auto. }
    destruct Hdec as [Hw|Hw].
    + destruct (H1 Hw) as (t & Et & Htf & Htv). rewrite Et. cbn [bind]. rewrite Htf. cbn [negb orb].
      destruct (fleb FW t (fzero FW)) eqn:E.
      * split; [|discriminate]. split; auto. intros _ [_ He].
        assert (Hpos : (0 < Qsum (vals (w0 :: ws)))%Q).
        { apply Qsum_pos; [apply vals_nonneg; exact Hw|]. apply Exists_exists in He as (w & Hin & Hwp). apply Exists_exists. exists (val w). split; auto. apply in_map. exact Hin. }
        assert (Hc : fleb FW t (fzero FW) = false) by (apply (pos_weight t Htf); rewrite Htv, Ez; lra). congruence.
      * apply (pos_weight t Htf) in E. unfold rng_real. split; [|discriminate]. split; [discriminate|]. intros Hc. exfalso. apply Hc. split; auto.
        rewrite Htv, Ez in E. clear - E Hw. revert E Hw. generalize (w0 :: ws). induction l as [|w l IH]; intros E Hw; [cbn [vals map Qsum] in E; lra|].
        apply Forall_cons_iff in Hw as [[_ Hp] Hw]. destruct (Qlt_le_dec 0 (val w)); [left; auto|]. right. apply IH; auto.
        cbn [vals map Qsum] in E. unfold vals. lra.
    + rewrite (H2 Hw). cbn [bind]. split; [|discriminate]. split; auto. intros _. tauto.
Qed.
End exact.

(** With binary64 arithmetic the claim about zero weights fails: rounding can leave a target that no positive weight covers, and
    the fall-through returns the last index whatever its weight. The draw 1 - 2^-52 is the largest that fastrand's f64() returns. *)
Theorem C29_zero_weight_refuted :
  exists (r : rng SpecFloat.spec_float) ws i r', let u := rg_real r 0 in
    Forall (fun w => ffinite f64ops w = true /\ fltb f64ops w (fzero f64ops) = false) ws /\
    Exists (fun w => fltb f64ops (fzero f64ops) w = true) ws /\
    fltb f64ops u (fzero f64ops) = false /\ fltb f64ops u (fone f64ops) = true /\
    weighted_index f64ops r ws = Ok (i, r') /\ nth_error ws i = Some (fzero f64ops).
Proof.
  exists (mkRng (fun _ => 0) (fun _ => f64lit 4503599627370495 (-52))).
  exists [f64lit 1080863910568919 (-55); f64lit 1170935903116329 (-52); fzero f64ops], 2. eexists. cbn zeta.
  split; [repeat constructor|]. split; [left; reflexivity|]. split; [reflexivity|]. split; [reflexivity|]. split; [vm_compute; reflexivity|reflexivity].
Qed.

Example C29_case : exists r',
  weighted_index xqops (mkRng (fun _ => 0) (fun _ => XF (1 # 2))) [XF 1; XF 0; XF 2; XF (1 # 2)] = Ok (2, r')
  /\ Forall (weight_ok xqops xval) [XF 1; XF 0; XF 2; XF (1 # 2)] /\ Exists (fun w => 0 < xval w)%Q [XF 1; XF 0; XF 2; XF (1 # 2)].
Proof.
  eexists. split; [vm_compute; reflexivity|]. split.
  - repeat constructor; cbn; lra.
  - left. cbn. lra.
Qed.

(** ** C28 *)
Theorem C28_sample {W} fuel (r : rng W) len n :
  sample_indices fuel r len n <> Panic /\
  forall s r', sample_indices fuel r len n = Ok (s, r') ->
    NoDup s /\ Forall (fun i => i < len) s /\ List.length s = Nat.min n len.
Proof.
  unfold sample_indices. destruct (Nat.eqb_spec len 0) as [->|Hlen]; cbn [orb].
  { split; [discriminate|]. intros s r' E. injection E as <- _. repeat constructor. cbn. lia. }
  destruct (Nat.eqb_spec n 0) as [->|Hn].
  { split; [discriminate|]. intros s r' E. injection E as <- _. repeat constructor. }
  destruct (Nat.eqb_spec (Nat.min n len) len) as [He|Hne].
  { split; [discriminate|]. intros s r' E. injection E as <- _. split; [apply seq_NoDup|]. split.
    - apply Forall_forall. intros x Hx. apply in_seq in Hx. lia.
    - rewrite seq_length. auto. }
  destruct (Nat.min n len * Nat.min n len <=? len).
  - destruct (reject_loop_spec len (Nat.min n len) fuel r []) as [H1 H2]; [split; constructor|cbn; lia|lia|].
    split; auto. intros s r' E. destruct (H2 s r' E) as [[? ?] ?]. auto.
  - destruct (partial_shuffle_spec (Nat.min n len) r [] (seq 0 len)) as (v & r1 & E & HP); [rewrite seq_length; lia|].
    cbn [List.length app Nat.add] in E, HP. rewrite seq_length in E. rewrite E. cbn [bind]. split; [discriminate|].
    intros s r' Es. injection Es as <- _. pose proof (Permutation_length HP) as HL. rewrite seq_length in HL.
    assert (Hv : NoDup v) by (rewrite <- HP; apply seq_NoDup).
    rewrite <- (firstn_skipn (Nat.min n len) v) in Hv, HP. split; [|split].
    + clear - Hv. induction (firstn (Nat.min n len) v) as [|x l IH]; [constructor|]. cbn in Hv. apply NoDup_cons_iff in Hv as [H1 H2].
      constructor; auto. intros Hc. apply H1. apply in_or_app. auto.
    + apply Forall_forall. intros x Hx. assert (Hin : In x (seq 0 len)). { rewrite HP. apply in_or_app. auto. } apply in_seq in Hin. lia.
    + rewrite firstn_length. lia.
Qed.

(** The loop ends as soon as the generator has produced enough different indices. *)
Theorem C28_sample_terminates {W} fuel (r : rng W) len n s :
  NoDup s -> Nat.min n len <= List.length s -> (forall x, In x s -> exists k, k < fuel /\ rg_nat r k mod len = x) ->
  exists v r', sample_indices fuel r len n = Ok (v, r').
Proof.
  intros Hs Hl Hin. unfold sample_indices. destruct (Nat.eqb_spec len 0) as [->|Hlen]; cbn [orb]; [eauto|].
  destruct (n =? 0); [eauto|]. destruct (Nat.eqb_spec (Nat.min n len) len); [eauto|].
  destruct (Nat.min n len * Nat.min n len <=? len).
  - apply (reject_loop_terminates len (Nat.min n len) fuel r [] s); auto; try (cbn; lia). split; constructor.
  - destruct (partial_shuffle_spec (Nat.min n len) r [] (seq 0 len)) as (v & r1 & E & HP); [rewrite seq_length; lia|].
    cbn [List.length app Nat.add] in E. rewrite seq_length in E. rewrite E. cbn [bind]. eauto.
Qed.

(** Every set of the right size can be drawn; if it is not the whole population, in every order. *)
Theorem C28_sample_reachable {W} (real : nat -> W) fuel len n s :
  NoDup s -> Forall (fun i => i < len) s -> List.length s = Nat.min n len -> List.length s <= fuel ->
  exists draws s' r', sample_indices fuel (mkRng draws real) len n = Ok (s', r') /\ Permutation s s' /\ (Nat.min n len < len -> s' = s).
Proof.
  intros Hs Hlt Hl Hf. unfold sample_indices. destruct (Nat.eqb_spec len 0) as [->|Hlen]; cbn [orb].
  { assert (s = []) as -> by (destruct s; auto; cbn in Hl; lia). exists (fun _ => 0), [], (mkRng (fun _ => 0) real). auto. }
  destruct (Nat.eqb_spec n 0) as [->|Hn].
  { assert (s = []) as -> by (destruct s; auto; cbn in Hl; lia). exists (fun _ => 0), [], (mkRng (fun _ => 0) real). auto. }
  destruct (Nat.eqb_spec (Nat.min n len) len) as [He|Hne].
  { exists (fun _ => 0), (seq 0 len), (mkRng (fun _ => 0) real). split; auto. split; [|lia].
    apply NoDup_Permutation_bis; auto; [rewrite seq_length; lia|]. intros x Hx. rewrite Forall_forall in Hlt. apply Hlt in Hx. apply in_seq. lia. }
  destruct (Nat.min n len * Nat.min n len <=? len).
  - destruct (reject_loop_reach real len s [] fuel) as (f & r' & E); [lia|split; auto|auto|].
    cbn [List.length app Nat.add] in E. rewrite Hl in E. eauto 6.
  - destruct (partial_shuffle_reach real s [] (seq 0 len) Hs) as (f & r' & tl & E).
    { intros x Hx. rewrite Forall_forall in Hlt. apply Hlt in Hx. apply in_seq. lia. }
    { apply seq_NoDup. }
    cbn [List.length app Nat.add] in E. rewrite Hl, seq_length in E. exists f. rewrite E. cbn [bind]. exists s, r'. split; [|auto].
    rewrite <- Hl, firstn_app, firstn_all, Nat.sub_diag, app_nil_r. reflexivity.
Qed.

(** The cost used for ranking, and "not ranked after". *)
Definition score {T W} (FW : FloatOps W) (to_f64 : T -> option W) (wexp : W -> W) (st : stats W) (o : sel_opts W) (m : member T) : W :=
  let c := match to_f64 (m_cost m) with Some x => x | None => finf FW end in
  if use_frequency_in_tournament o
  then fmul FW c (wexp (fmul FW (adaptive_parsimony_scaling o)
         (if (1 <=? m_complexity m) && (m_complexity m <=? sel_maxsize o) then nth (m_complexity m - 1) (st_norm st) (fzero FW) else fzero FW)))
  else c.

Lemma adjusted_is_score {T W} (FW : FloatOps W) (to_f64 : T -> option W) wexp st o m : sel_maxsize o <= List.length (st_norm st) ->
  adjusted_cost FW to_f64 wexp st o m = Ok (score FW to_f64 wexp st o m).
Proof.
  intros H. unfold adjusted_cost, score. destruct (use_frequency_in_tournament o); auto.
  change (0 <? m_complexity m) with (1 <=? m_complexity m).
  destruct (Nat.leb_spec 1 (m_complexity m)); cbn [andb bind]; auto. destruct (Nat.leb_spec (m_complexity m) (sel_maxsize o)); cbn [bind]; auto.
  unfold index. rewrite (nth_error_nth' _ (fzero FW)) by lia. reflexivity.
Qed.

Lemma geometric_length {W} (FW : FloatOps W) n : forall cur q, List.length (geometric FW n cur q) = n.
Proof. induction n as [|n IH]; intros; cbn; auto. Qed.

Lemma place_range {W} (FW : FloatOps W) (r r' : rng W) n p place : sample_tournament_place FW r n p = Ok (place, r') -> 1 <= place <= Nat.max 1 n.
Proof.
  unfold sample_tournament_place. destruct ((n <=? 1) || fgeb FW p (fone FW)).
  { intros E. injection E as <- _. lia. }
  destruct (fleb FW p (fzero FW)); [discriminate|]. destruct (fleb FW (fsub FW (fone FW) p) (fzero FW)).
  { intros E. injection E as <- _. lia. }
  destruct (weighted_index FW r _) as [[k r1]| |] eqn:E; try discriminate. cbn [bind]. intros E'. injection E' as <- _.
  apply C29_in_range in E as (w & Hn & _). assert (Hk : k < n). { rewrite <- (geometric_length FW n p (fsub FW (fone FW) p)). apply nth_error_Some. congruence. }
  lia.
Qed.

Lemma sample_indices_real {W} fuel (r r' : rng W) len n s : sample_indices fuel r len n = Ok (s, r') -> rg_real r' = rg_real r.
Proof.
  unfold sample_indices. destruct ((len =? 0) || (n =? 0)). { intros E. injection E as _ <-. auto. }
  destruct (Nat.min n len =? len). { intros E. injection E as _ <-. auto. }
  destruct (Nat.min n len * Nat.min n len <=? len).
  - generalize (@nil nat) as out. revert r. induction fuel as [|fuel IH]; intros r out; cbn [reject_loop].
    + destruct (List.length out <? Nat.min n len); [discriminate|]. intros E. injection E as _ <-. auto.
    + destruct (List.length out <? Nat.min n len).
      * destruct (usize_range r 0 len) as [[j r1]| |] eqn:E; try discriminate. cbn [bind]. intros H. apply IH in H. apply usize_range_real in E. congruence.
      * intros E. injection E as _ <-. auto.
  - generalize (seq 0 len) as v0. intros v0. destruct (partial_shuffle (seq 0 (Nat.min n len)) len r v0) as [[v r1]| |] eqn:E; try discriminate.
    cbn [bind]. intros H. injection H as _ <-. revert r v0 E. generalize (seq 0 (Nat.min n len)) as is. induction is as [|i is IH]; intros r v0 E; cbn [partial_shuffle] in E.
    + injection E as _ <-. auto.
    + destruct (usize_range r i len) as [[j r2]| |] eqn:E2; try discriminate. cbn [bind] in E. destruct (swap v0 i j); try discriminate. cbn [bind] in E.
      apply IH in E. apply usize_range_real in E2. congruence.
Qed.

Section C28.
Context {T W : Type} (FW : FloatOps W) (L : OrderLaws FW) (to_f64 : T -> option W) (wexp : W -> W) (st : stats W) (o : sel_opts W).
Hypothesis maxsize_ok : sel_maxsize o <= List.length (st_norm st).
Let sc (m : member T) : W := score FW to_f64 wexp st o m.

(** [a] does not rank after [b]. *)
Definition ranks_le (ms : list (member T)) (i j : nat) : Prop :=
  exists a b, nth_error ms i = Some a /\ nth_error ms j = Some b /\ fltb FW (sc b) (sc a) = false.

Lemma not_lt_trans x y z : num FW x -> num FW y -> num FW z -> fltb FW y x = false -> fltb FW z y = false -> fltb FW z x = false.
Proof.
  intros Hx Hy Hz H1 H2. apply not_true_is_false. intros H.
  destruct (ol_total _ L x y Hx Hy) as [E|[E|E]]; [|rewrite (ol_eq_r _ L _ _ z E) in H; congruence|congruence].
  pose proof (ol_trans _ L _ _ _ H E). congruence.
Qed.

Lemma scored_spec ms s : Forall (fun i => i < List.length ms) s ->
  exists scored, mapM (fun idx => let! m := index ms idx in let! a := adjusted_cost FW to_f64 wexp st o m in Ok (a, idx)) s = Ok scored
    /\ map snd scored = s /\ Forall (fun p => exists m, nth_error ms (snd p) = Some m /\ fst p = sc m) scored.
Proof.
  induction 1 as [|i s Hi Hs IH]; cbn [mapM].
  - exists []. auto.
  - destruct (nth_error ms i) as [m|] eqn:E; [|apply nth_error_None in E; lia].
    unfold index at 1. rewrite E. cbn [bind expect]. rewrite adjusted_is_score by auto. cbn [bind].
    destruct IH as (scored & E' & Hm & Hf). rewrite E'. cbn [bind]. eexists. split; [reflexivity|]. cbn [map snd]. split; [congruence|].
    constructor; auto. exists m. auto.
Qed.

(** The member returned is a member of the sample with exactly [k] sample members placed before it, none of which costs more, and
    none of those placed after it costs less; [k + 1] is the place drawn. *)
Theorem C28_best_of_sample fuel (r r' : rng W) (ms : list (member T)) m :
  Forall (fun m => num FW (sc m)) ms ->
  best_of_sample FW to_f64 wexp fuel r ms st o = Ok (m, r') ->
  exists before chosen after k r1, let sample := before ++ chosen :: after in
    NoDup sample /\ Forall (fun i => i < List.length ms) sample /\ List.length sample = Nat.min (tournament_selection_n o) (List.length ms) /\
    nth_error ms chosen = Some m /\ List.length before = k /\
    rg_real r1 = rg_real r /\ sample_tournament_place FW r1 (List.length sample) (tournament_selection_p o) = Ok (S k, r') /\
    (forall i, In i before -> ranks_le ms i chosen) /\ (forall i, In i after -> ranks_le ms chosen i).
Proof.
  intros Hnum. unfold best_of_sample. set (n := Nat.min (tournament_selection_n o) (List.length ms)).
  destruct (sample_indices fuel r (List.length ms) n) as [[s r1]| |] eqn:Es; try discriminate. cbn [bind].
  pose proof (proj2 (C28_sample fuel r (List.length ms) n) s r1 Es) as (Hnd & Hlt & Hl).
  destruct (scored_spec ms s Hlt) as (scored & Esc & Hsnd & Hsc). rewrite Esc. cbn [bind].
  assert (HL : List.length scored = List.length s) by (rewrite <- Hsnd, map_length; auto).
  destruct (sample_tournament_place FW r1 (List.length scored) _) as [[place r2]| |] eqn:Ep; try discriminate. cbn [bind].
  destruct (Nat.ltb_spec 0 (List.length scored)) as [Hpos|]; [|discriminate]. cbn [assert_ bind].
  pose proof (place_range _ _ _ _ _ _ Ep) as Hplace.
  set (srt := sort_by (fun a b => cmp_or_greater FW (fst a) (fst b)) scored).
  assert (HP : Permutation scored srt) by apply sort_by_perm. pose proof (Permutation_length HP) as HLs.
  replace (Nat.min (place - 1) (List.length scored - 1)) with (place - 1) by lia.
  destruct (nth_error srt (place - 1)) as [[a chosen]|] eqn:En; [|apply nth_error_None in En; lia].
  unfold index at 1. rewrite En. cbn [expect bind]. unfold index. destruct (nth_error ms chosen) as [m'|] eqn:Em; [|discriminate].
  cbn [expect bind]. intros E. injection E as -> <-.
  assert (Hsrt : StronglySorted (fun a b => fltb FW (fst b) (fst a) = false) srt).
  { assert (HS : StronglySorted (not_less (fun a b : W * nat => cmp_or_greater FW (fst a) (fst b))) srt).
    { apply (sort_by_sorted _ (fun p => num FW (fst p))).
      - unfold not_less. intros x y z Hx Hy Hz. rewrite !is_less_cmp. apply not_lt_trans; auto.
      - unfold not_less. intros x y Hx Hy. rewrite !is_less_cmp. intros H. apply not_true_is_false. intros Hc.
        pose proof (ol_trans _ L _ _ _ H Hc) as Hi. rewrite (ol_irr _ L) in Hi. discriminate.
      - rewrite Forall_forall in *. intros p Hp. destruct (Hsc p Hp) as (mm & H1 & ->). apply Hnum. eapply nth_error_In; eauto. }
    clear - HS. induction HS as [|x l HS IH HF]; constructor; auto. rewrite Forall_forall in *. intros y Hy. specialize (HF y Hy).
    unfold not_less in HF. rewrite is_less_cmp in HF. exact HF. }
  destruct (nth_error_split _ _ En) as (l1 & l2 & Hsp & Hl1). rewrite Hsp in Hsrt, HP.
  rewrite HP in Hsc. rewrite Forall_forall in Hsc.
  assert (Hch : sc m = a). { destruct (Hsc (a, chosen)) as (mm & H1 & H2); [apply in_or_app; right; left; reflexivity|]. cbn in *. congruence. }
  destruct (sorted_split _ _ _ Hsrt) as (_ & Hs2 & H12). inversion Hs2 as [|? ? _ Hf2]; subst.
  exists (map snd l1), chosen, (map snd l2), (place - 1), r1. cbn zeta.
  assert (HPs : Permutation (map snd scored) (map snd l1 ++ chosen :: map snd l2)).
  { rewrite HP, map_app. reflexivity. }
  repeat split.
  - rewrite <- HPs. exact Hnd.
  - rewrite <- HPs. exact Hlt.
  - rewrite <- HPs. rewrite Hl. subst n. lia.
  - auto.
  - rewrite map_length. auto.
  - apply sample_indices_real in Es. exact Es.
  - rewrite <- (Permutation_length HPs), map_length. replace (S (place - 1)) with place by lia. exact Ep.
  - intros i Hi. apply in_map_iff in Hi as ((x & i') & <- & Hi). destruct (Hsc (x, i')) as (mm & H1 & H2); [apply in_or_app; auto|].
    exists mm, m. repeat split; auto. cbn in H2. subst x. exact (H12 _ (sc m, chosen) Hi (or_introl eq_refl)).
  - intros i Hi. apply in_map_iff in Hi as ((x & i') & <- & Hi). destruct (Hsc (x, i')) as (mm & H1 & H2); [apply in_or_app; right; right; auto|].
    exists m, mm. repeat split; auto. cbn in H2. subst x. rewrite Forall_forall in Hf2. exact (Hf2 _ Hi).
Qed.
End C28.

(** The place drawn, in exact arithmetic, for probability 0 < p < 1, q = 1 - p and a uniform draw u: place k + 1 is returned exactly
    when u falls in the k-th of [n] consecutive intervals of lengths proportional to p, p q, p q^2, ... *)
Fixpoint Qpow (q : Q) (n : nat) : Q := match n with 0 => 1%Q | S n' => (q * Qpow q n')%Q end.

Section C28_exact.
Context {W : Type} (FW : FloatOps W) (val : W -> Q) (X : ExactLaws FW val).

Lemma geometric_ok n : forall cur q, ffinite FW cur = true -> ffinite FW q = true -> (0 < val cur)%Q -> (0 < val q)%Q ->
  Forall (weight_ok FW val) (geometric FW n cur q) /\
  forall k, k <= n -> (Qsum (vals val (firstn k (geometric FW n cur q))) * (1 - val q) == val cur * (1 - Qpow (val q) k))%Q.
Proof.
  induction n as [|n IH]; intros cur q Hc Hq Pc Pq; cbn [geometric].
  - split; [constructor|]. intros k Hk. assert (k = 0) as -> by lia. cbn [firstn vals map Qsum Qpow]. lra.
  - destruct (ex_mul _ _ X cur q Hc Hq) as [Hm Em]. assert (Pm : (0 < val (fmul FW cur q))%Q) by (rewrite Em; nra).
    destruct (IH _ q Hm Hq Pm Pq) as [H1 H2]. split.
    + constructor; auto. split; auto. lra.
    + intros [|k] Hk; [cbn [firstn vals map Qsum Qpow]; lra|]. cbn [firstn]. unfold vals in *. cbn [map Qsum Qpow]. specialize (H2 k ltac:(lia)).
      rewrite Em in H2. set (S := Qsum (map val (firstn k (geometric FW n (fmul FW cur q) q)))) in *. clearbody S.
      rewrite Qmult_plus_distr_l, H2. ring.
Qed.

Theorem C28_place (r : rng W) n p : let u := rg_real r 0 in let q := (1 - val p)%Q in
  2 <= n -> ffinite FW p = true -> (0 < val p < 1)%Q -> ffinite FW u = true -> (0 <= val u < 1)%Q ->
  exists k r', sample_tournament_place FW r n p = Ok (S k, r') /\ k < n /\
    (1 - Qpow q k <= val u * (1 - Qpow q n) < 1 - Qpow q (S k))%Q.
Proof.
  intros u q Hn Hp Pp Hu Pu. destruct (ex_zero _ _ X) as [Hz Ez]. destruct (ex_one _ _ X) as [Ho Eo].
  unfold sample_tournament_place. destruct (Nat.leb_spec n 1); [lia|]. cbn [orb].
  assert (Hge : fgeb FW p (fone FW) = false).
  { unfold fgeb, fleb. rewrite orb_false_iff, <- !not_true_iff_false. rewrite (ex_lt _ _ X), (ex_eq _ _ X), Eo by auto. split; lra. }
  rewrite Hge. assert (Hle : fleb FW p (fzero FW) = false) by (apply (pos_weight _ _ X); auto; lra). rewrite Hle.
  destruct (ex_sub _ _ X (fone FW) p Ho Hp) as [Hqf Eq]. assert (Eq' : (val (fsub FW (fone FW) p) == q)%Q) by (rewrite Eq, Eo; reflexivity).
  assert (Pq : (0 < val (fsub FW (fone FW) p))%Q) by (rewrite Eq'; unfold q; lra).
  assert (Hle2 : fleb FW (fsub FW (fone FW) p) (fzero FW) = false) by (apply (pos_weight _ _ X); auto). rewrite Hle2.
  destruct (geometric_ok n p (fsub FW (fone FW) p) Hp Hqf ltac:(lra) Pq) as [Hw Hs].
  destruct (C29_weighted_index FW val X r (geometric FW n p (fsub FW (fone FW) p)) Hw) as (i & r' & w & E & Hni & Pw & Hr); auto.
  { destruct n as [|n]; [lia|]. left. lra. }
  assert (Hi : i < n). { rewrite <- (geometric_length FW n p (fsub FW (fone FW) p)). apply nth_error_Some. congruence. }
  exists i, r'. rewrite E. cbn [bind]. split; [rewrite Nat.add_1_r; reflexivity|]. split; auto. fold u in Hr.
  pose proof (Hs i ltac:(lia)) as S0. pose proof (Hs (S i) ltac:(lia)) as S1. pose proof (Hs n ltac:(lia)) as Sn.
  rewrite (firstn_S_nth_error _ _ _ Hni) in S1. unfold vals in *. rewrite map_app, Qsum_app in S1. change (Qsum (map val [w])) with (val w + 0)%Q in S1.
  rewrite (firstn_all2 (geometric FW n p (fsub FW (fone FW) p)) (n := n)) in Sn by (rewrite geometric_length; lia).
  set (A := Qsum (map val (firstn i (geometric FW n p (fsub FW (fone FW) p))))) in *.
  set (B := Qsum (map val (geometric FW n p (fsub FW (fone FW) p)))) in *. clearbody A B.
  assert (Hq1 : (1 - val (fsub FW (fone FW) p) == val p)%Q) by (rewrite Eq'; unfold q; lra).
  assert (Hpow : forall k, (Qpow (val (fsub FW (fone FW) p)) k == Qpow q k)%Q) by (induction k as [|k IHk]; cbn [Qpow]; [lra|rewrite IHk, Eq'; lra]).
  rewrite Hq1 in *. rewrite Hpow in S0, S1, Sn.
  assert (S0' : (A == 1 - Qpow q i)%Q) by (apply (Qmult_inj_r _ _ (val p)); lra).
  assert (S1' : (A + val w == 1 - Qpow q (S i))%Q) by (apply (Qmult_inj_r _ _ (val p)); lra).
  assert (Sn' : (B == 1 - Qpow q n)%Q) by (apply (Qmult_inj_r _ _ (val p)); lra).
  rewrite <- S0', <- S1', <- Sn'. exact Hr.
Qed.

(** p = 1 always returns the first place. *)
Theorem C28_place_first (r : rng W) n p : ffinite FW p = true -> (1 <= val p)%Q -> sample_tournament_place FW r n p = Ok (1, r).
Proof.
  intros Hp Pp. unfold sample_tournament_place. assert (H : fgeb FW p (fone FW) = true); [|rewrite H, orb_true_r; auto].
  destruct (ex_one _ _ X) as [Ho Eo]. unfold fgeb, fleb. apply orb_true_iff. rewrite (ex_lt _ _ X), (ex_eq _ _ X), Eo by auto.
  destruct (Qlt_le_dec 1 (val p)); [auto|]. right. lra.
Qed.

(** No panic for a non-empty population, a positive sample size and a positive probability. *)
Theorem C28_no_panic {T} (to_f64 : T -> option W) wexp st o fuel (r : rng W) (ms : list (member T)) : let u := rg_real r 0 in
  sel_maxsize o <= List.length (st_norm st) -> ms <> [] -> 1 <= tournament_selection_n o ->
  ffinite FW (tournament_selection_p o) = true -> (0 < val (tournament_selection_p o))%Q -> ffinite FW u = true -> (0 <= val u < 1)%Q ->
  best_of_sample FW to_f64 wexp fuel r ms st o <> Panic.
Proof.
  intros u Hmax Hms Hn Hp Pp Hu Pu. unfold best_of_sample. set (n := Nat.min (tournament_selection_n o) (List.length ms)).
  assert (Hlen : 0 < List.length ms) by (destruct ms; [contradiction|cbn; lia]).
  destruct (C28_sample fuel r (List.length ms) n) as [Hnp Hsp].
  destruct (sample_indices fuel r (List.length ms) n) as [[s r1]| |] eqn:Es; [|contradiction|discriminate]. cbn [bind].
  destruct (Hsp s r1 eq_refl) as (Hnd & Hlt & Hl).
  destruct (scored_spec FW to_f64 wexp st o Hmax ms s Hlt) as (scored & Esc & Hsnd & Hsc). rewrite Esc. cbn [bind].
  assert (HL : List.length scored = List.length s) by (rewrite <- Hsnd, map_length; auto).
  assert (Hpl : exists k r', sample_tournament_place FW r1 (List.length scored) (tournament_selection_p o) = Ok (S k, r')).
  { destruct (Qlt_le_dec (val (tournament_selection_p o)) 1) as [H1|H1].
    - destruct (Nat.le_gt_cases 2 (List.length scored)).
      + apply sample_indices_real in Es. destruct (C28_place r1 (List.length scored) (tournament_selection_p o)) as (k & r' & E & _); auto; rewrite ?Es; auto. eauto.
      + exists 0, r1. unfold sample_tournament_place. destruct (Nat.leb_spec (List.length scored) 1); [reflexivity|lia].
    - exists 0, r1. apply C28_place_first; auto. }
  destruct Hpl as (k & r2 & Ep). rewrite Ep. cbn [bind]. destruct (Nat.ltb_spec 0 (List.length scored)); [|lia]. cbn [assert_ bind].
  set (srt := sort_by (fun a b => cmp_or_greater FW (fst a) (fst b)) scored).
  assert (HP : Permutation scored srt) by apply sort_by_perm. pose proof (Permutation_length HP).
  destruct (nth_error srt (Nat.min (S k - 1) (List.length scored - 1))) as [[a c]|] eqn:En; [|apply nth_error_None in En; lia].
  unfold index at 1. rewrite En. cbn [expect bind]. rewrite Forall_forall in Hsc. destruct (Hsc (a, c)) as (m & Hm & _).
  { rewrite HP. eapply nth_error_In; eauto. }
  cbn [snd] in Hm. unfold index. rewrite Hm. discriminate.
Qed.
End C28_exact.

(** Five members, sample of 3, frequencies in use: draws pick members 0, 3, 1 (costs 5, 4, 2), of which the second place is member 3. *)
Example C28_case :
  let ms := [demo_member 1 7 leaf1 5; demo_member 2 3 leaf1 2; demo_member 3 5 leaf1 1; demo_member 4 5 sum3 4; demo_member 5 5 sum3 9] in
  let o := mkSel 3 (f64lit 1 (-1)) true (fone f64ops) 4 in
  let st := mkStats (f64lit 100 0) [fone f64ops; fone f64ops; fone f64ops; fone f64ops] [f64lit 1 (-2); f64lit 1 (-2); f64lit 1 (-2); f64lit 1 (-2)] in
  let wexp := fun x => fadd f64ops (fone f64ops) x in
  let r := mkRng (fun n => match n with 0 => 0 | 1 => 2 | _ => 1 end) (fun _ => f64lit 5 (-3)) in
  match best_of_sample f64ops Some wexp 0 r ms st o with Ok (m, _) => m_id m = 4 | _ => False end
  /\ Forall (fun m => num f64ops (score f64ops Some wexp st o m)) ms /\ sel_maxsize o <= List.length (st_norm st).
Proof. split; [vm_compute; reflexivity|]. split; [repeat constructor|]. cbn. lia. Qed.

Print Assumptions C28_best_of_sample.
Print Assumptions C28_place.
Print Assumptions C28_no_panic.
Print Assumptions C28_sample.
Print Assumptions C29_weighted_index.
Print Assumptions C29_panics_exactly.
Print Assumptions C29_zero_weight_refuted.
Print Assumptions C36_every_permutation_reachable.
Print Assumptions C36_no_bias.
