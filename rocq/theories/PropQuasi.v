(** Property C61: over the real numbers BFGS is the textbook method and stops early only at a stationary point; the same for Newton in exact arithmetic. *)
From Coq Require Import QArith Lqa Reals Lra.
From Verif Require Import Base BaseLemmas Node Compile Eval Num Instances Dataset Optim PropOptim PropOptimTotal RealOps.
Local Open Scope R_scope.

(** ** Specification *)

(** The sum of [f 0], ..., [f (n - 1)]. *)
Fixpoint sigma (n : nat) (f : nat -> R) : R := match n with O => 0 | S n => sigma n f + f n end.
(** Components of a vector and of a matrix stored row by row. *)
Definition comp (v : list R) (i : nat) : R := nth i v 0.
Definition entry (n : nat) (H : list R) (i j : nat) : R := nth (i * n + j) H 0.
(** The product of a matrix and a vector, and the inner product with it. *)
Definition times (n : nat) (H : list R) (x : nat -> R) (i : nat) : R := sigma n (fun j => entry n H i j * x j).
Definition form (n : nat) (H : list R) (x y : nat -> R) : R := sigma n (fun i => x i * times n H y i).
Definition spd (n : nat) (H : list R) : Prop :=
  List.length H = (n * n)%nat
  /\ (forall i j, (i < n)%nat -> (j < n)%nat -> entry n H i j = entry n H j i)
  /\ forall x, (exists i, (i < n)%nat /\ x i <> 0) -> 0 < form n H x x.
Definition delta (i j : nat) : R := if Nat.eqb i j then 1 else 0.
(** The textbook update of the inverse Hessian for the step [s] and the change of gradient [y]:
    (I - rho s y') H (I - rho y s') + rho s s' with rho = 1 / (s' y). *)
Definition textbook (n : nat) (H : list R) (s y : nat -> R) (i j : nat) : R :=
  let rho := / sigma n (fun k => s k * y k) in
  sigma n (fun k => sigma n (fun l => (delta i k - rho * s i * y k) * entry n H k l * (delta l j - rho * y l * s j)))
  + rho * s i * s j.

(** ** Sums *)
Lemma sigma_ext n f g : (forall i, (i < n)%nat -> f i = g i) -> sigma n f = sigma n g.
Proof. induction n as [|n IH]; intros H; cbn; auto. rewrite IH, H; auto. Qed.
Lemma sigma_plus n f g : sigma n (fun i => f i + g i) = sigma n f + sigma n g.
Proof. induction n as [|n IH]; cbn; [lra|]. rewrite IH. lra. Qed.
Lemma sigma_scal n c f : sigma n (fun i => c * f i) = c * sigma n f.
Proof. induction n as [|n IH]; cbn; [lra|]. rewrite IH. lra. Qed.
Lemma sigma_zero n : sigma n (fun _ => 0) = 0.
Proof. induction n as [|n IH]; cbn; lra. Qed.
Lemma sigma_swap n m f : sigma n (fun i => sigma m (fun j => f i j)) = sigma m (fun j => sigma n (fun i => f i j)).
Proof. induction n as [|n IH]; cbn; [now rewrite sigma_zero|]. rewrite IH, sigma_plus. reflexivity. Qed.
Lemma sigma_delta n i f : (i < n)%nat -> sigma n (fun j => delta i j * f j) = f i.
Proof.
  induction n as [|n IH]; [lia|]. intros H. cbn. destruct (Nat.eq_dec i n) as [->|Hne].
  - unfold delta at 2. rewrite Nat.eqb_refl. rewrite (sigma_ext n _ (fun _ => 0)); [rewrite sigma_zero; lra|].
    intros j Hj. unfold delta. destruct (Nat.eqb_spec n j); [lia|lra].
  - rewrite IH by lia. unfold delta. destruct (Nat.eqb_spec i n); [lia|lra].
Qed.
Lemma sigma_nonneg n f : (forall i, (i < n)%nat -> 0 <= f i) -> 0 <= sigma n f.
Proof. induction n as [|n IH]; cbn; intros H; [lra|]. specialize (IH (fun i Hi => H i (Nat.lt_lt_succ_r _ _ Hi))). specialize (H n (Nat.lt_succ_diag_r _)). lra. Qed.
Lemma sigma_pos n f i : (forall i, (i < n)%nat -> 0 <= f i) -> (i < n)%nat -> 0 < f i -> 0 < sigma n f.
Proof.
  induction n as [|n IH]; cbn; intros H Hi Hp; [lia|]. assert (0 <= sigma n f) by (apply sigma_nonneg; auto). assert (0 <= f n) by auto.
  destruct (Nat.eq_dec i n) as [->|Hne]; [lra|]. assert (0 < sigma n f) by (apply IH; auto; lia). lra.
Qed.
Lemma sigma_shift n f : sigma (S n) f = f O + sigma n (fun i => f (S i)).
Proof. induction n as [|n IH]; [cbn; lra|]. change (sigma (S (S n)) f) with (sigma (S n) f + f (S n)). rewrite IH. cbn. lra. Qed.

Lemma some_nonzero (z : nat -> R) : forall n, (exists k, (k < n)%nat /\ z k <> 0) \/ forall k, (k < n)%nat -> z k = 0.
Proof.
  induction n as [|n [(k & Hk & Hz)|IH]]; [right; lia|left; exists k; split; auto|]. destruct (Req_dec (z n) 0) as [Hn|Hn].
  - right. intros k Hk. destruct (Nat.eq_dec k n) as [->|]; auto. apply IH. lia.
  - left. exists n. auto.
Qed.

(** ** The form of a symmetric matrix *)
Lemma form_sym n H x y : (forall i j, (i < n)%nat -> (j < n)%nat -> entry n H i j = entry n H j i) -> form n H x y = form n H y x.
Proof.
  intros HS. unfold form, times. transitivity (sigma n (fun i => sigma n (fun j => x i * (entry n H i j * y j)))).
  - apply sigma_ext. intros i _. now rewrite sigma_scal.
  - rewrite sigma_swap. apply sigma_ext. intros j Hj. rewrite <- sigma_scal. apply sigma_ext. intros i Hi. rewrite (HS i j Hi Hj). ring.
Qed.
Lemma times_lin n H a x b y i : times n H (fun k => a * x k + b * y k) i = a * times n H x i + b * times n H y i.
Proof. unfold times. rewrite <- !sigma_scal, <- sigma_plus. apply sigma_ext. intros. ring. Qed.
Lemma form_lin_r n H x a y b z : form n H x (fun k => a * y k + b * z k) = a * form n H x y + b * form n H x z.
Proof. unfold form. rewrite <- !sigma_scal, <- sigma_plus. apply sigma_ext. intros i _. rewrite times_lin. ring. Qed.
Lemma form_lin_l n H x a y b z : form n H (fun k => a * y k + b * z k) x = a * form n H y x + b * form n H z x.
Proof. unfold form. rewrite <- !sigma_scal, <- sigma_plus. apply sigma_ext. intros i _. ring. Qed.

(** ** The functions of the code *)
Lemma fold_sum : forall l (acc : R), fold_left (fadd rops) l acc = acc + sigma (List.length l) (comp l).
Proof.
  induction l as [|x l IH]; intros acc; cbn [fold_left]; [cbn; lra|]. rewrite IH. cbn [List.length]. rewrite sigma_shift. cbn [fadd rops]. unfold comp. cbn [nth]. fold (comp l). lra.
Qed.
Lemma dot_real a b n : List.length a = n -> List.length b = n -> dot rops a b = Ok (sigma n (fun i => comp a i * comp b i)).
Proof.
  intros Ha Hb. unfold dot. rewrite zip_eq_ok by congruence. cbn [bind]. f_equal. unfold fsum. rewrite fold_sum. cbn [fzero rops].
  rewrite map_length, combine_length, Ha, Hb, Nat.min_id, Rplus_0_l. apply sigma_ext. intros i Hi. unfold comp.
  rewrite (nth_indep _ 0 (fmul rops (fst (0, 0)) (snd (0, 0)))) by (rewrite map_length, combine_length; lia).
  rewrite map_nth with (f := fun p => fmul rops (fst p) (snd p)). rewrite combine_nth by congruence. reflexivity.
Qed.
Lemma mapM_nth_ok {A B} (f : A -> res B) (l : list A) (ys : list B) (d : B) (da : A) : mapM f l = Ok ys ->
  List.length ys = List.length l /\ forall i, (i < List.length l)%nat -> f (nth i l da) = Ok (nth i ys d).
Proof.
  revert ys. induction l as [|a l IH]; intros ys H; cbn [mapM] in H.
  - injection H as <-. split; auto. cbn. lia.
  - apply bind_ok in H as (y & Hy & H). apply bind_ok in H as (ys' & Hys & H). injection H as <-. destruct (IH _ Hys) as [L P].
    cbn [List.length]. split; [congruence|]. intros [|i] Hi; cbn [nth]; auto. apply P. lia.
Qed.
Lemma index_real (l : list R) i : (i < List.length l)%nat -> index l i = Ok (nth i l 0).
Proof. intros H. unfold index. rewrite (nth_error_nth' l 0 H). reflexivity. Qed.
Lemma matvec_real n H x : List.length H = (n * n)%nat -> List.length x = n ->
  exists y, matvec rops H x = Ok y /\ List.length y = n /\ forall i, (i < n)%nat -> comp y i = times n H (comp x) i.
Proof.
  intros HH Hx. destruct (matvec_ok rops n H x HH Hx) as (y & E & Hy). exists y. split; auto. split; auto. intros i Hi.
  unfold matvec in E. cbv zeta in E. rewrite Hx in E. apply (mapM_nth_ok _ _ _ 0 O) in E as [_ E]. rewrite seq_length in E.
  specialize (E i Hi). rewrite seq_nth in E by auto. cbn [Nat.add] in E. apply bind_ok in E as (row & Hr & E).
  unfold slice in Hr. assert (Hle : (i * n + n <= List.length H)%nat) by (rewrite HH; nia). rewrite (proj2 (Nat.leb_le _ _) Hle) in Hr. injection Hr as <-.
  assert (Hrl : List.length (firstn n (skipn (i * n) H)) = n) by (rewrite firstn_length, skipn_length; lia).
  rewrite (dot_real _ _ n Hrl Hx) in E. injection E as E. unfold comp at 1. rewrite <- E. unfold times. apply sigma_ext. intros j Hj.
  f_equal. unfold comp, entry. rewrite <- (firstn_skipn n (skipn (i * n) H)) at 2 || idtac.
  apply nth_error_nth. rewrite nth_error_firstn, nth_error_skipn by auto. apply nth_error_nth'. nia.
Qed.
Lemma grid_nth n i j : (i < n)%nat -> (j < n)%nat ->
  nth (i * n + j) (flat_map (fun i => map (fun j => (i, j)) (seq 0 n)) (seq 0 n)) (O, O) = (i, j).
Proof.
  intros Hi Hj.
  assert (G : forall m a, (i < m)%nat -> nth (i * n + j) (flat_map (fun i => map (fun j => (i, j)) (seq 0 n)) (seq a m)) (O, O) = (a + i, j)%nat).
  { induction i as [|i IH]; intros m a Hm.
    - destruct m as [|m]; [lia|]. cbn [seq flat_map Nat.mul Nat.add]. rewrite app_nth1 by (rewrite map_length, seq_length; auto).
      rewrite (nth_indep _ _ (a, O)) by (rewrite map_length, seq_length; auto). rewrite map_nth with (f := fun j => (a, j)).
      rewrite seq_nth by auto. f_equal; lia.
    - destruct m as [|m]; [lia|]. cbn [seq flat_map]. rewrite app_nth2; rewrite map_length, seq_length; [|nia].
      replace (S i * n + j - n)%nat with (i * n + j)%nat by nia. rewrite IH by lia. f_equal. lia. }
  rewrite G by auto. reflexivity.
Qed.
Lemma identity_spd n : spd n (identity rops n).
Proof.
  assert (E : forall i j, (i < n)%nat -> (j < n)%nat -> entry n (identity rops n) i j = delta i j).
  { intros i j Hi Hj. unfold entry, identity.
    assert (G : forall l : list nat, flat_map (fun i => map (fun j => if Nat.eqb i j then fone rops else fzero rops) (seq 0 n)) l
      = map (fun p => delta (fst p) (snd p)) (flat_map (fun i => map (fun j => (i, j)) (seq 0 n)) l)).
    { induction l as [|a l IH]; cbn [flat_map]; auto. rewrite map_app, IH, map_map. reflexivity. }
    rewrite G. rewrite (nth_indep _ 0 (delta (fst (O, S O)) (snd (O, S O)))) by (rewrite map_length, grid_length; nia).
    rewrite map_nth with (f := fun p => delta (fst p) (snd p)) (d := (O, S O)).
    rewrite (nth_indep _ _ (O, O)) by (rewrite grid_length; nia). rewrite grid_nth by auto. reflexivity. }
  split; [apply identity_length|]. split.
  - intros i j Hi Hj. rewrite !E by auto. unfold delta. rewrite Nat.eqb_sym. reflexivity.
  - intros x (i & Hi & Hx). unfold form. rewrite (sigma_ext n _ (fun i => x i * x i)).
    + apply sigma_pos with i; auto; intros; nra.
    + intros k Hk. f_equal. unfold times. rewrite (sigma_ext n _ (fun j => delta k j * x j)); [now rewrite sigma_delta|]. intros j Hj. now rewrite E.
Qed.

(** ** The update *)
Definition raw (n : nat) (H dx u : list R) (c1 c2 : R) (i j : nat) : R :=
  entry n H i j + (c1 * comp dx i * comp dx j - c2 * (comp u i * comp dx j + comp dx i * comp u j)).
Lemma update_real (OO : OptOps R) n H dx u c1 c2 : oo_half OO = / 2 -> List.length H = (n * n)%nat -> List.length dx = n -> List.length u = n ->
  exists H', bfgs_update rops OO n H dx u c1 c2 = Ok H' /\ List.length H' = (n * n)%nat
    /\ forall i j, (i < n)%nat -> (j < n)%nat -> entry n H' i j = (raw n H dx u c1 c2 i j + raw n H dx u c1 c2 j i) / 2.
Proof.
  intros Hh HH Hx Hu. destruct (bfgs_update_ok rops OO n H dx u c1 c2 HH Hx Hu) as (H' & E & Hl). exists H'. split; auto. split; auto.
  intros i j Hi Hj. unfold bfgs_update in E. apply bind_ok in E as (h & E1 & E2).
  apply (mapM_nth_ok _ _ _ 0 (O, O)) in E1 as [L1 E1]. apply (mapM_nth_ok _ _ _ 0 (O, O)) in E2 as [_ E2]. rewrite grid_length in *.
  assert (Hraw : forall a b, (a < n)%nat -> (b < n)%nat -> nth (a * n + b) h 0 = raw n H dx u c1 c2 a b).
  { intros a b Ha Hb. specialize (E1 (a * n + b)%nat ltac:(nia)). rewrite grid_nth in E1 by auto. rewrite !index_real in E1 by (rewrite ?HH, ?Hx, ?Hu; nia).
    cbn [bind] in E1. injection E1 as E1. rewrite <- E1. reflexivity. }
  specialize (E2 (i * n + j)%nat ltac:(nia)). rewrite grid_nth in E2 by auto. unfold entry at 1. destruct (Nat.eqb_spec i j) as [->|Hne].
  - rewrite index_real in E2 by (rewrite L1; nia). injection E2 as <-. rewrite Hraw by auto. lra.
  - rewrite !index_real in E2 by (rewrite L1; destruct (Nat.min_spec i j) as [[? ->]|[? ->]]; destruct (Nat.max_spec i j) as [[? ->]|[? ->]]; nia).
    cbn [bind] in E2. injection E2 as <-. rewrite Hh. cbn [fmul fadd rops].
    destruct (Nat.min_spec i j) as [[? ->]|[? ->]]; destruct (Nat.max_spec i j) as [[? ->]|[? ->]]; try lia; rewrite !Hraw by auto; lra.
Qed.

(** Over the reals the update is the textbook one; it keeps the matrix symmetric and positive definite and maps the change of gradient to the step. *)
Theorem C61_update : forall (OO : OptOps R) (n : nat) (H dx dg u : list R) (dx_dg dg_u : R),
  oo_half OO = / 2 -> spd n H -> List.length dx = n -> List.length dg = n ->
  dot rops dx dg = Ok dx_dg -> 0 < dx_dg -> matvec rops H dg = Ok u -> dot rops dg u = Ok dg_u ->
  exists H', bfgs_update rops OO n H dx u (fdiv rops (fadd rops dx_dg dg_u) (fmul rops dx_dg dx_dg)) (fdiv rops (fone rops) dx_dg) = Ok H'
    /\ spd n H'
    /\ (forall i j, (i < n)%nat -> (j < n)%nat -> entry n H' i j = textbook n H (comp dx) (comp dg) i j)
    /\ (forall i, (i < n)%nat -> times n H' (comp dg) i = comp dx i).
Proof.
  intros OO n H dx dg u dx_dg dg_u Hh (HH & HS & HP) Hx Hg Hd Hpos Hu Hgu. cbn [fdiv fadd fmul fone rops].
  destruct (matvec_real n H dg HH Hg) as (u' & Eu & Hul & Hui). rewrite Hu in Eu. injection Eu as <-.
  rewrite (dot_real _ _ n Hx Hg) in Hd. injection Hd as Hd. rewrite (dot_real _ _ n Hg Hul) in Hgu. injection Hgu as Hgu.
  assert (Hgu' : form n H (comp dg) (comp dg) = dg_u).
  { rewrite <- Hgu. unfold form. apply sigma_ext. intros i Hi. now rewrite Hui. }
  set (c1 := (dx_dg + dg_u) / (dx_dg * dx_dg)). set (c2 := 1 / dx_dg).
  destruct (update_real OO n H dx u c1 c2 Hh HH Hx Hul) as (H' & E & Hl & He). exists H'. split; auto.
  assert (Hsym : forall i j, (i < n)%nat -> (j < n)%nat -> entry n H' i j = raw n H dx u c1 c2 i j).
  { intros i j Hi Hj. rewrite He by auto. unfold raw. rewrite (HS j i) by auto. lra. }
  assert (Htimes : forall x i, (i < n)%nat -> times n H' x i = times n H x i + c1 * comp dx i * sigma n (fun j => comp dx j * x j)
     - c2 * (comp u i * sigma n (fun j => comp dx j * x j) + comp dx i * sigma n (fun j => comp u j * x j))).
  { intros x i Hi. unfold times. set (a := comp dx i). set (b := comp u i).
    transitivity (sigma n (fun j => (entry n H i j * x j + (c1 * a - c2 * b) * (comp dx j * x j)) + (- (c2 * a)) * (comp u j * x j))).
    - apply sigma_ext. intros j Hj. rewrite Hsym by auto. unfold raw. fold a b. ring.
    - rewrite !sigma_plus, !sigma_scal. ring. }
  assert (Hux : forall x, sigma n (fun j => comp u j * x j) = form n H x (comp dg)).
  { intros x. unfold form. apply sigma_ext. intros i Hi. rewrite Hui by auto. ring. }
  assert (Hform : forall x, form n H' x x = form n H x x + c1 * (sigma n (fun j => comp dx j * x j)) ^ 2
     - 2 * c2 * form n H x (comp dg) * sigma n (fun j => comp dx j * x j)).
  { intros x. set (p := sigma n (fun j => comp dx j * x j)). unfold form at 1.
    transitivity (sigma n (fun i => (x i * times n H x i + (c1 * p - c2 * form n H x (comp dg)) * (comp dx i * x i)) + (- (c2 * p)) * (comp u i * x i))).
    - apply sigma_ext. intros i Hi. rewrite Htimes by auto. rewrite Hux. fold p. ring.
    - rewrite !sigma_plus, !sigma_scal, Hux. fold p. fold (form n H x x). ring. }
  split; [|split].
  - split; auto. split.
    + intros i j Hi Hj. rewrite !Hsym by auto. unfold raw. rewrite (HS j i) by auto. ring.
    + intros x (i & Hi & Hxi). rewrite Hform. set (p := sigma n (fun j => comp dx j * x j)). set (rho := / dx_dg).
      assert (Hrho : 0 < rho) by (apply Rinv_0_lt_compat; auto).
      set (z := fun k => 1 * x k + (- (rho * p)) * comp dg k).
      assert (Ez : form n H z z = form n H x x - 2 * (rho * p) * form n H x (comp dg) + (rho * p) ^ 2 * dg_u).
      { unfold z. rewrite form_lin_l, !form_lin_r. rewrite (form_sym n H (comp dg) x HS), Hgu'. ring. }
      assert (Ek : form n H x x + c1 * p ^ 2 - 2 * c2 * form n H x (comp dg) * p = form n H z z + rho * p ^ 2).
      { rewrite Ez. unfold c1, c2, rho. field. lra. }
      rewrite Ek.
      destruct (Req_dec p 0) as [Hp|Hp].
      * assert (Hz : form n H z z = form n H x x) by (rewrite Ez, Hp; ring). rewrite Hz, Hp. assert (0 < form n H x x) by (apply HP; eauto). nra.
      * assert (0 < rho * p ^ 2) by (apply Rmult_lt_0_compat; [auto|]; pose proof (Rsqr_pos_lt p Hp) as Hq; unfold Rsqr in Hq; nra).
        assert (0 <= form n H z z); [|lra].
        destruct (some_nonzero z n) as [Hex|Hno]; [left; auto|].
        right. unfold form. symmetry. rewrite (sigma_ext n _ (fun _ => 0)); [apply sigma_zero|]. intros k Hk.
        rewrite Hno by auto. ring.
  - intros i j Hi Hj. rewrite Hsym by auto. unfold raw, textbook. cbv zeta. rewrite Hd. set (rho := / dx_dg).
    set (a := comp dx i). set (b := comp dx j).
    transitivity (sigma n (fun k => (delta i k * (entry n H k j - rho * b * comp u k)) + (- (rho * a)) * (comp dg k * entry n H k j) + (rho * a * (rho * b)) * (comp dg k * comp u k)) + rho * a * b).
    + rewrite !sigma_plus, !sigma_scal, (sigma_delta n i (fun k => entry n H k j - rho * b * comp u k)) by auto. rewrite Hgu.
      assert (Euj : sigma n (fun k => comp dg k * entry n H k j) = comp u j).
      { rewrite Hui by auto. unfold times. apply sigma_ext. intros k Hk. rewrite (HS k j) by auto. ring. }
      rewrite Euj. unfold c1, c2, rho. field. lra.
    + f_equal. apply sigma_ext. intros k Hk. symmetry.
      transitivity (sigma n (fun l => (delta i k - rho * a * comp dg k) * (delta j l * entry n H k l) + (- (rho * b) * (delta i k - rho * a * comp dg k)) * (entry n H k l * comp dg l))).
      * apply sigma_ext. intros l Hl'. assert (delta l j = delta j l) as -> by (unfold delta; now rewrite Nat.eqb_sym). ring.
      * rewrite sigma_plus, !sigma_scal, (sigma_delta n j (fun l => entry n H k l)) by auto. rewrite (Hui k) by auto. unfold times. ring.
  - intros i Hi. rewrite Htimes by auto. rewrite Hux, Hgu', Hd, Hui by auto. unfold c1, c2. field. lra.
Qed.

(** ** The loop *)

(** What is assumed of the real functions of the optimiser. *)
Record real_opt (OO : OptOps R) : Prop := {
  ro_half : oo_half OO = / 2;
  ro_abs : forall x, oo_abs OO x = Rabs x;
  ro_max : forall x y, oo_max OO x y = Rmax x y;
  ro_tiny : 0 <= oo_tiny OO }.
(** Gradients have one component per unknown. *)
Definition gradient_fits {St W} (obj : objective St W) (n : nat) : Prop :=
  forall st x st' v g, List.length x = n -> ob_fg obj st x = Ok (st', Some (v, g)) -> List.length g = n.

(** BFGS as in the textbooks: the direction is always minus the matrix times the gradient, and the matrix is replaced by the
    identity when the curvature along the step is not positive enough. *)
Fixpoint plain_bfgs {St} (OO : OptOps R) (obj : objective St R) (opts : optim_options R) (ls : backtracking R) (n k : nat)
    (st : St * nat) (x g H : list R) (fx : R) : res (St * nat * option (optim_result R)) :=
  let finish := Ok (st, Some (mkResult x fx (snd st))) in
  match k with
  | O => finish
  | S k =>
      if (negb (Nat.eqb (oi_f_calls_limit opts) 0) && (Nat.leb (oi_f_calls_limit opts) (snd st)))%bool then finish
      else if fleb rops (inf_norm rops OO g) (oi_g_abstol opts) then finish
      else
        let! hg := matvec rops H g in
        let s := map Ropp hg in
        let! slope := dot rops g s in
        let! (st, r) := linesearch rops OO (budgeted rops obj (oi_f_calls_limit opts)) ls x s 1 fx slope st in
        match r with
        | None => Ok (st, None)
        | Some (_, _, x_new) =>
            let! (s1, v) := ob_fg obj (fst st) x_new in
            let st := (s1, S (snd st)) in
            match v with
            | None => Ok (st, None)
            | Some (fx_new, g_new) =>
                let! dx := sub_vec rops x_new x in
                let! dg := sub_vec rops g_new g in
                let! dx_dg := dot rops dx dg in
                if Rlt_dec (oo_tiny OO) dx_dg then
                  let! u := matvec rops H dg in
                  let! dg_u := dot rops dg u in
                  let! H' := bfgs_update rops OO n H dx u ((dx_dg + dg_u) / (dx_dg * dx_dg)) (1 / dx_dg) in
                  plain_bfgs OO obj opts ls n k st x_new g_new H' fx_new
                else plain_bfgs OO obj opts ls n k st x_new g_new (identity rops n) fx_new
            end
        end
  end.

(** The direction of a symmetric positive definite matrix is a direction of descent. *)
Theorem C61_descent : forall (n : nat) (H g hg : list R) (slope : R), spd n H -> List.length g = n -> (exists i, (i < n)%nat /\ comp g i <> 0) ->
  matvec rops H g = Ok hg -> dot rops g (map Ropp hg) = Ok slope -> slope < 0.
Proof.
  intros n H g hg slope (HH & HS & HP) Hg Hnz Hm Hd. destruct (matvec_real n H g HH Hg) as (y & E & Hy & Hyi). rewrite Hm in E. injection E as <-.
  rewrite (dot_real _ _ n Hg) in Hd by (rewrite map_length; auto). injection Hd as <-.
  rewrite (sigma_ext n _ (fun i => -1 * (comp g i * times n H (comp g) i))).
  - rewrite sigma_scal. fold (form n H (comp g) (comp g)). specialize (HP _ Hnz). lra.
  - intros i Hi. rewrite <- Hyi by auto. unfold comp at 2. rewrite (nth_indep _ 0 (- 0)) by (rewrite map_length; lia). rewrite map_nth. unfold comp. ring.
Qed.

Lemma inf_norm_ge (OO : OptOps R) (RO : real_opt OO) (g : list R) : forall x, In x g -> Rabs x <= inf_norm rops OO g.
Proof.
  unfold inf_norm. intros x Hx. assert (Hx' : In (Rabs x) (map (oo_abs OO) g)) by (rewrite <- (ro_abs OO RO); now apply in_map).
  revert Hx'. generalize (map (oo_abs OO) g). intros l. generalize (fzero rops). revert l. clear -RO.
  assert (Hmono : forall l z, z <= fold_left (oo_max OO) l z).
  { induction l as [|a l IH]; intros z; cbn [fold_left]; [lra|]. eapply Rle_trans; [|apply IH]. rewrite (ro_max OO RO). apply Rmax_l. }
  induction l as [|a l IH]; intros z; [intros []|]. intros [->|Hin]; cbn [fold_left]; [|now apply IH].
  eapply Rle_trans; [|apply Hmono]. rewrite (ro_max OO RO). apply Rmax_r.
Qed.
Lemma inf_norm_zero (OO : OptOps R) (RO : real_opt OO) (g : list R) n : List.length g = n -> (forall i, (i < n)%nat -> comp g i = 0) -> inf_norm rops OO g = 0.
Proof.
  intros Hl Hz. unfold inf_norm. cbn [fzero rops]. assert (Ha : Forall (fun x => x = 0) g).
  { apply Forall_forall. intros x Hx. destruct (In_nth _ _ 0 Hx) as (i & Hi & <-). apply Hz. lia. }
  clear Hl Hz. induction Ha as [|x l -> _ IH]; [reflexivity|]. cbn [map fold_left]. rewrite (ro_abs OO RO), (ro_max OO RO), Rabs_R0, Rmax_left by lra. apply IH.
Qed.
Lemma rleb_iff a b : fleb rops a b = true <-> a <= b.
Proof. unfold fleb. cbn [fltb feqb rops]. rewrite orb_true_iff, rltb_iff, reqb_iff. lra. Qed.
Lemma rgeb_iff a b : fgeb rops a b = true <-> b <= a.
Proof. unfold fgeb. cbn [fltb feqb rops]. rewrite orb_true_iff, rltb_iff, reqb_iff. lra. Qed.

(** Over the reals the safeguards of the implementation never act: it is the textbook method. *)
Theorem C61_textbook_bfgs : forall (St : Type) (OO : OptOps R) (obj : objective St R) (opts : optim_options R) (ls : backtracking R) (st : St) (x0 : list R),
  real_opt OO -> 0 <= oi_g_abstol opts -> gradient_fits obj (List.length x0) ->
  bfgs_minimize rops OO obj opts ls st x0
  = let! (s, v) := ob_fg obj st x0 in
    match v with
    | None => Ok (s, 1%nat, None)
    | Some (fx, g) => plain_bfgs OO obj opts ls (List.length x0) (oi_iterations opts) (s, 1%nat) x0 g (identity rops (List.length x0)) fx
    end.
Proof.
  intros St OO obj opts ls st x0 RO Habs HG. unfold bfgs_minimize. cbv zeta.
  destruct (ob_fg obj st x0) as [[s v]| |] eqn:E0; cbn [bind]; auto. destruct v as [[fx g]|]; auto. cbn [ffinite rops negb].
  assert (Hlg : List.length g = List.length x0) by (eapply HG; eauto). set (n := List.length x0) in *. assert (Hlx : List.length x0 = n) by reflexivity.
  pose proof (identity_spd n) as Hspd. revert Hlg Hlx Hspd. generalize (identity rops n) at 1 2 3. generalize (s, 1%nat). clearbody n. clear E0 s st.
  revert x0 g fx. induction (oi_iterations opts) as [|k IH]; intros x g fx st H Hg Hx Hspd; cbn [bfgs_loop plain_bfgs]; auto.
  destruct (negb (oi_f_calls_limit opts =? 0) && (oi_f_calls_limit opts <=? snd st))%bool; auto. cbn [ffinite rops negb orb].
  destruct (fleb rops (inf_norm rops OO g) (oi_g_abstol opts)) eqn:Ei; auto.
  assert (Hnz : exists i, (i < n)%nat /\ comp g i <> 0).
  { destruct (some_nonzero (comp g) n) as [|Hz]; auto. exfalso. rewrite (inf_norm_zero OO RO g n Hg Hz) in Ei. apply rleb_iff in Habs. congruence. }
  destruct (matvec rops H g) as [hg| |] eqn:Em; cbn [bind]; auto. change (map (fneg rops) hg) with (map Ropp hg).
  destruct (dot rops g (map Ropp hg)) as [d| |] eqn:Ed; cbn [bind]; auto. pose proof (C61_descent n H g hg d Hspd Hg Hnz Em Ed) as Hneg.
  assert (Eg : fgeb rops d (fzero rops) = false) by (apply not_true_is_false; rewrite rgeb_iff; cbn [fzero rops]; lra). rewrite Eg. cbn [bind]. rewrite Eg.
  change (fone rops) with 1.
  destruct (linesearch rops OO (budgeted rops obj (oi_f_calls_limit opts)) ls x (map Ropp hg) 1 fx d st) as [[st1 r]| |] eqn:El; cbn [bind]; auto.
  destruct r as [[[al ph] xn]|]; auto. apply C33_armijo in El as ((Hxn & _ & _) & _). rewrite Hx in Hxn.
  destruct (ob_fg obj (fst st1) xn) as [[s1 v]| |] eqn:Efg; cbn [bind]; auto. destruct v as [[fn gn]|]; auto. pose proof (HG _ _ _ _ _ Hxn Efg) as Hgn.
  destruct (sub_ok rops xn x) as (dx & Edx & Hdx); [congruence|]. destruct (sub_ok rops gn g) as (dg & Edg & Hdg); [congruence|]. rewrite Edx, Edg. cbn [bind].
  rewrite Hxn in Hdx. rewrite Hgn in Hdg. destruct (dot_ok rops dx dg) as (dd & Edd); [congruence|]. rewrite Edd. cbn [bind andb].
  change (fgtb rops dd (oo_tiny OO)) with (rltb (oo_tiny OO) dd). unfold rltb at 1. destruct (Rlt_dec (oo_tiny OO) dd) as [Ht|Ht]; cbn [negb].
  - assert (Hdd : 0 < dd) by (pose proof (ro_tiny OO RO); lra). change (fgtb rops dd (fzero rops)) with (rltb 0 dd). rewrite (proj2 (rltb_iff _ _) Hdd).
    destruct (matvec_ok rops n H dg) as (u & Eu & Hu); [apply Hspd|auto|]. rewrite Eu. cbn [bind].
    destruct (dot_ok rops dg u) as (du & Edu); [congruence|]. rewrite Edu. cbn [bind].
    destruct (C61_update OO n H dx dg u dd du (ro_half OO RO) Hspd Hdx Hdg Edd Hdd Eu Edu) as (H' & EH & Hspd' & _).
    cbn [fdiv fadd fmul fone rops] in EH |- *. rewrite EH. cbn [bind]. apply IH; auto.
  - apply IH; auto. apply identity_spd.
Qed.

(** ** Stopping early *)
Lemma linesearch_calls {St W} (F : FloatOps W) (OO : OptOps W) (obj : objective St W) limit ls x s a0 phi0 d0 st st' r :
  linesearch F OO (budgeted F obj limit) ls x s a0 phi0 d0 st = Ok (st', r) -> (snd st <= snd st')%nat /\ (r <> None -> (S (snd st) <= snd st')%nat).
Proof.
  intros H. assert (HP : forall st1 y st2 v, (snd st <= snd st1)%nat -> budgeted F obj limit st1 y = Ok (st2, v) -> (snd st <= snd st2)%nat).
  { intros [s1 c1] y st2 v Hle Hb. unfold budgeted in Hb. destruct (_ && _)%bool; [injection Hb as <- _; auto|].
    apply bind_ok in Hb as ([s2 w] & _ & Hb). injection Hb as <- _. cbn in *. lia. }
  destruct (linesearch_spec F OO _ (fun q => (snd st <= snd q)%nat) HP ls x s a0 phi0 d0 st st' r (le_n _) H) as [H1 H2]. split; auto.
  intros Hr. destruct r as [[[al ph] xn]|]; [|congruence]. destruct (H2 _ _ _ eq_refl) as (_ & ([s1 c1] & Hc & Hb) & _).
  unfold budgeted in Hb. destruct (_ && _)%bool; [discriminate|]. apply bind_ok in Hb as ([s2 w] & _ & Hb). injection Hb as <- _. cbn in *. lia.
Qed.

(** In any arithmetic: when BFGS returns with calls and iterations left (an iteration makes at least two calls), either the gradient evaluated at the
    returned point is small or not a number, or its own square is not positive in this arithmetic (underflow, overflow), or the value there is not finite. *)
Theorem C61_bfgs_stops : forall (St W : Type) (F : FloatOps W) (OO : OptOps W) (obj : objective St W) opts ls st x0 st' calls r,
  bfgs_minimize F OO obj opts ls st x0 = Ok (st', calls, Some r) ->
  (oi_f_calls_limit opts = O \/ (calls < oi_f_calls_limit opts)%nat) -> (calls <= 2 * oi_iterations opts)%nat ->
  ffinite F (or_minimum r) = false
  \/ exists s1 g, ob_fg obj s1 (or_minimizer r) = Ok (st', Some (or_minimum r, g))
     /\ (ffinite F (inf_norm F OO g) = false \/ fleb F (inf_norm F OO g) (oi_g_abstol opts) = true
         \/ exists d, dot F g (map (fneg F) g) = Ok d /\ (ffinite F d = false \/ fgeb F d (fzero F) = true)).
Proof.
  intros St W F OO obj opts ls st x0 st' calls r H. unfold bfgs_minimize in H. cbv zeta in H.
  apply bind_ok in H as ([s v] & E0 & H). destruct v as [[fx g]|]; [|discriminate]. destruct (ffinite F fx); cbn [negb] in H; [|discriminate].
  remember (List.length x0) as n eqn:Hn. clear Hn. remember (s, 1%nat) as st0 eqn:Est.
  assert (E1 : exists s0, ob_fg obj s0 x0 = Ok (fst st0, Some (fx, g))) by (subst st0; eauto).
  intros Hlim Hit. assert (Hc : (calls < snd st0 + 2 * oi_iterations opts)%nat) by (subst st0; cbn; lia). clear Hit Est E0 s st.
  revert st0 x0 g fx E1 H Hc. generalize (identity F n). induction (oi_iterations opts) as [|k IH]; intros h st x g fx (s0 & E) H Hc; cbn [bfgs_loop] in H; cbv zeta in H.
  - injection H as -> <-. cbn [snd] in Hc. lia.
  - assert (Hdone : forall P : Prop, Ok (st, Some (mkResult x fx (snd st))) = Ok (st', calls, Some r) -> P ->
      exists s1 g', ob_fg obj s1 (or_minimizer r) = Ok (st', Some (or_minimum r, g')) /\ g' = g /\ P).
    { intros P [= -> <-] HP. exists s0, g. cbn [fst or_minimizer or_minimum] in *. auto. }
    destruct (negb (oi_f_calls_limit opts =? 0) && (oi_f_calls_limit opts <=? snd st))%bool eqn:El.
    { exfalso. injection H as -> <-. cbn [snd] in *. apply andb_prop in El as [L1 L2]. apply Nat.leb_le in L2. destruct Hlim as [Hz|Hl]; [rewrite Hz in L1; discriminate|lia]. }
    destruct (ffinite F (inf_norm F OO g)) eqn:Ef; cbn [negb orb] in H; [|right; destruct (Hdone _ H Ef) as (s1 & g' & D1 & -> & D2); exists s1, g; auto].
    destruct (fleb F (inf_norm F OO g) (oi_g_abstol opts)) eqn:Ei; [right; destruct (Hdone _ H Ei) as (s1 & g' & D1 & -> & D2); exists s1, g; auto|].
    apply bind_ok in H as (hg & Em & H). apply bind_ok in H as (d & Ed & H). apply bind_ok in H as ([[h1 sv] dphi0] & Eb & H).
    destruct (negb (ffinite F dphi0) || fgeb F dphi0 (fzero F))%bool eqn:Es.
    { right. destruct (negb (ffinite F d) || fgeb F d (fzero F))%bool eqn:Ebad.
      - apply bind_ok in Eb as (d2 & Ed2 & Eb). injection Eb as <- <- <-.
        assert (HD : exists d, dot F g (map (fneg F) g) = Ok d /\ (ffinite F d = false \/ fgeb F d (fzero F) = true)).
        { exists d2. split; auto. apply orb_prop in Es as [Es|Es]; auto. left. now apply negb_true_iff. }
        destruct (Hdone _ H HD) as (s1 & g' & D1 & -> & D2). exists s1, g. auto.
      - injection Eb as <- <- <-. congruence. }
    apply bind_ok in H as ([st1 lr] & Hls & H). apply linesearch_calls in Hls as [C1 C2]. destruct lr as [[[al ph] xn]|]; [|discriminate]. specialize (C2 ltac:(discriminate)).
    apply bind_ok in H as ([s1 v] & Hfg & H). destruct v as [[fn gn]|]; [|discriminate].
    destruct (ffinite F fn) eqn:En; cbn [negb] in H; [|injection H as _ _ <-; left; exact En].
    assert (Hrec : forall h', bfgs_loop F OO obj opts ls n k (s1, S (snd st1)) xn gn h' fn = Ok (st', calls, Some r) ->
      ffinite F (or_minimum r) = false
      \/ exists s1 g, ob_fg obj s1 (or_minimizer r) = Ok (st', Some (or_minimum r, g))
         /\ (ffinite F (inf_norm F OO g) = false \/ fleb F (inf_norm F OO g) (oi_g_abstol opts) = true
             \/ exists d, dot F g (map (fneg F) g) = Ok d /\ (ffinite F d = false \/ fgeb F d (fzero F) = true))).
    { intros h' H'. eapply IH; [|exact H'|cbn [snd] in *; lia]. cbn [fst]. eauto. }
    apply bind_ok in H as (dx & _ & H). apply bind_ok in H as (dg & _ & H). apply bind_ok in H as (dd & _ & H).
    destruct (negb (ffinite F dd && fgtb F dd (oo_tiny OO)))%bool; [eapply Hrec; eauto|].
    destruct (fgtb F dd (fzero F)); [|eapply Hrec; eauto].
    apply bind_ok in H as (u & _ & H). apply bind_ok in H as (du & _ & H). destruct (ffinite F du); [|eapply Hrec; eauto].
    apply bind_ok in H as (hn & _ & H). eapply Hrec; eauto.
Qed.

(** Over the reals: at a point where every partial derivative is small. *)
Theorem C61_bfgs_stationary : forall (St : Type) (OO : OptOps R) (obj : objective St R) opts ls st x0 st' calls r,
  real_opt OO -> 0 <= oi_g_abstol opts ->
  bfgs_minimize rops OO obj opts ls st x0 = Ok (st', calls, Some r) ->
  (oi_f_calls_limit opts = O \/ (calls < oi_f_calls_limit opts)%nat) -> (calls <= 2 * oi_iterations opts)%nat ->
  exists s1 g, ob_fg obj s1 (or_minimizer r) = Ok (st', Some (or_minimum r, g)) /\ forall d, In d g -> Rabs d <= oi_g_abstol opts.
Proof.
  intros St OO obj opts ls st x0 st' calls r RO Ha H Hl Hi. destruct (C61_bfgs_stops _ _ _ _ _ _ _ _ _ _ _ _ H Hl Hi) as [Hf|(s1 & g & E & Hg)]; [discriminate|].
  exists s1, g. split; auto. intros d Hd. destruct Hg as [Hf|[Hg|(q & Eq & [Hf|Hq])]]; try discriminate.
  - apply rleb_iff in Hg. pose proof (inf_norm_ge OO RO g d Hd). lra.
  - apply rgeb_iff in Hq. cbn [fzero rops] in Hq. rewrite (dot_real _ _ (List.length g)) in Eq by (rewrite ?map_length; auto). injection Eq as Eq.
    assert (Ez : forall i, (i < List.length g)%nat -> comp g i * comp (map (fneg rops) g) i = - (comp g i * comp g i)).
    { intros i Hii. unfold comp at 2. rewrite (nth_indep _ 0 (fneg rops 0)) by (rewrite map_length; auto). rewrite map_nth. cbn [fneg rops]. unfold comp. ring. }
    rewrite (sigma_ext _ _ (fun i => -1 * (comp g i * comp g i))) in Eq by (intros i Hii; rewrite Ez by auto; ring). rewrite sigma_scal in Eq.
    destruct (In_nth _ _ 0 Hd) as (i & Hii & Hid). destruct (Req_dec d 0) as [->|Hne]; [rewrite Rabs_R0; auto|].
    assert (0 < sigma (List.length g) (fun i => comp g i * comp g i)); [|lra].
    apply sigma_pos with i; auto; [intros; nra|]. unfold comp. rewrite Hid. nra.
Qed.

(** Newton in one dimension. *)
Record exact_opt {W} (F : FloatOps W) (val : W -> Q) (OO : OptOps W) : Prop := {
  eo_neg : forall a, ffinite F a = true -> ffinite F (fneg F a) = true /\ (val (fneg F a) == - val a)%Q;
  eo_abs : forall a, ffinite F a = true -> (val a == 0)%Q -> ffinite F (oo_abs OO a) = true /\ (val (oo_abs OO a) == 0)%Q;
  eo_tiny : ffinite F (oo_tiny OO) = true /\ (0 < val (oo_tiny OO))%Q;
  eo_max : forall a, ffinite F (oo_max OO a (oo_tiny OO)) = true -> (0 < val (oo_max OO a (oo_tiny OO)))%Q }.

Theorem C61_newton_stationary : forall (St W : Type) (F : FloatOps W) (val : W -> Q) (OO : OptOps W) (obj : objective St W) Inv f opts ls st x0 st' calls r,
  ExactLaws F val -> exact_opt F val OO -> OrderLaws F -> SignLaws F (oo_half OO) -> repeatable Inv obj f -> Inv st ->
  ffinite F (bt_maxstep ls) = false -> fltb F (fzero F) (bt_c1 ls) = true -> ffinite F (bt_c1 ls) = true ->
  ffinite F (oi_g_abstol opts) = true -> (0 <= val (oi_g_abstol opts))%Q ->
  newton_1d_minimize F OO obj opts ls st x0 = Ok (st', calls, Some r) ->
  (oi_f_calls_limit opts = O \/ (calls < oi_f_calls_limit opts)%nat) -> (calls < 4 * oi_iterations opts)%nat ->
  exists s1 g g', ob_fg obj s1 (or_minimizer r) = Ok (st', Some (or_minimum r, g :: g')) /\ fleb F (oo_abs OO g) (oi_g_abstol opts) = true.
Proof.
  intros St W F val OO obj Inv f opts ls st x0 st' calls r X EO L SL RP HI Hm Hc Hcf Haf Ha H Hlim Hit. unfold newton_1d_minimize in H.
  remember (st, O) as st0 eqn:Est. assert (HI0 : Inv (fst st0)) by (subst; auto). assert (Hc0 : (calls < snd st0 + 4 * oi_iterations opts)%nat) by (subst; cbn; lia).
  clear Est HI Hit st. remember (finf F) as bf eqn:Ebf in H. revert H. generalize x0 at 2. intros bx H.
  assert (HB : bf = finf F \/ ffinite F bf = true /\ exists fx, f [x0] = Some fx /\ fltb F fx bf = true) by auto.
  clear Ebf. revert st0 x0 bx bf HB H HI0 Hc0.
  induction (oi_iterations opts) as [|k IH]; intros st x bx bf HB H HI Hcalls; cbn [newton_loop] in H; cbv zeta in H.
  - injection H as -> <-. cbn [snd] in Hcalls. lia.
  - destruct (negb (oi_f_calls_limit opts =? 0) && (oi_f_calls_limit opts <=? snd st))%bool eqn:El.
    { exfalso. injection H as -> <-. cbn [snd] in *. apply andb_prop in El as [L1 L2]. apply Nat.leb_le in L2. destruct Hlim as [Hz|Hl]; [rewrite Hz in L1; discriminate|lia]. }
    apply bind_ok in H as ([s1 v] & Hfg & H). destruct (rp_fg Inv obj f RP _ _ _ _ HI Hfg) as [HI1 Hv].
    destruct v as [[fv gv]|]; [|discriminate]. pose proof (Hv _ _ eq_refl) as Hfv.
    apply bind_ok in H as (g & Hg & H). destruct (ffinite F fv) eqn:Ef; cbn [negb orb] in H; [|discriminate].
    destruct (ffinite F g) eqn:Eg; cbn [negb] in H; [|discriminate].
    assert (Hlt : fltb F fv bf = true).
    { destruct HB as [->|(_ & fx & E1 & E2)]; [apply (ex_inf F val X); auto|congruence]. }
    rewrite Hlt in H. destruct gv as [|g0 gv]; [discriminate|]. cbn in Hg. injection Hg as ->.
    destruct (fleb F (oo_abs OO g) (oi_g_abstol opts)) eqn:Eabs.
    { injection H as <- _ <-. cbn [or_minimizer or_minimum]. exists (fst st), g, gv. auto. }
    cbn [fst snd] in H. apply bind_ok in H as ([s2 vp] & Hfp & H). destruct (rp_fg Inv obj f RP _ _ _ _ HI1 Hfp) as [HI2 _].
    destruct vp as [[fp gp]|]; [|discriminate]. apply bind_ok in H as (gplus & _ & H).
    cbn [fst snd] in H. apply bind_ok in H as ([s3 vm] & Hfm & H). destruct (rp_fg Inv obj f RP _ _ _ _ HI2 Hfm) as [HI3 _].
    destruct vm as [[fm gm]|]; [|discriminate]. apply bind_ok in H as (gminus & _ & H). cbn [fst snd] in H.
    set (hm := oo_max OO (oo_abs OO (fdiv F (fsub F gplus gminus) _)) (oo_tiny OO)) in H.
    assert (Hh : ffinite F (if ffinite F hm then hm else oo_tiny OO) = true /\ (0 < val (if ffinite F hm then hm else oo_tiny OO))%Q).
    { destruct (ffinite F hm) eqn:E; [split; auto; apply (eo_max F val OO EO); auto|apply (eo_tiny F val OO EO)]. }
    destruct Hh as [Hhf Hhp]. set (hmod := if ffinite F hm then hm else oo_tiny OO) in *.
    destruct (eo_neg F val OO EO g Eg) as [Gn Gv]. destruct (ex_div F val X (fneg F g) hmod Gn Hhf) as [Sf Sv]; [Lqa.lra|].
    destruct (ex_mul F val X g _ Eg Sf) as [Df Dv]. destruct (ex_zero F val X) as [Z1 Z2].
    assert (Hgz : ~ (val g == 0)%Q).
    { intros Hz. destruct (eo_abs F val OO EO g Eg Hz) as [A1 A2].
      assert (fleb F (oo_abs OO g) (oi_g_abstol opts) = true); [|congruence]. unfold fleb. apply orb_true_iff.
      rewrite (ex_lt F val X), (ex_eq F val X) by auto. rewrite A2. apply Qle_lteq in Ha. destruct Ha; auto. }
    assert (Hneg : (val (fmul F g (fdiv F (fneg F g) hmod)) < 0)%Q).
    { rewrite Dv, Sv, Gv. setoid_replace (val g * (- val g / val hmod))%Q with (- ((val g * val g) / val hmod))%Q by (field; Lqa.lra).
      assert (0 < val g * val g / val hmod)%Q; [|Lqa.lra]. apply Qlt_shift_div_l; auto. rewrite Qmult_0_l.
      destruct (Qlt_le_dec (val g) 0) as [Hl|Hl]; [setoid_replace (val g * val g)%Q with (- val g * - val g)%Q by ring; apply Qmult_lt_0_compat; Lqa.lra|].
      apply Qmult_lt_0_compat; apply Qle_lteq in Hl as [|Hl]; auto; exfalso; apply Hgz; now symmetry. }
    assert (Hlt0 : fltb F (fmul F g (fdiv F (fneg F g) hmod)) (fzero F) = true) by (apply (ex_lt F val X); auto; rewrite Z2; auto).
    assert (Hge : fgeb F (fmul F g (fdiv F (fneg F g) hmod)) (fzero F) = false).
    { unfold fgeb. apply orb_false_iff. split; apply not_true_is_false; [rewrite (ex_lt F val X) by auto|rewrite (ex_eq F val X) by auto]; rewrite Z2; Lqa.lra. }
    rewrite Df, Hge in H. cbn [negb orb] in H. rewrite Df, Hge in H. cbn [negb orb] in H.
    apply bind_ok in H as ([st4 lr] & Hls & H). destruct lr as [[[al ph] xn]|]; [|discriminate].
    destruct (ls_spec F OO obj Inv f RP opts ls _ _ _ _ _ (s3, S (S (S (snd st)))) _ _ HI3 Hls) as [HI4 Hl4]. destruct (Hl4 _ _ _ eq_refl) as (_ & (Hxl & _ & Hxs) & Hval & Hphf).
    destruct (C33_step_no_worse W (St * nat) F OO _ ls _ _ _ _ _ _ _ _ _ _ L SL Hm Hc Hcf Ef Hlt0 Df Hls) as (Apos & Afin & _).
    destruct (C33_exact_decrease W (St * nat) F val OO _ ls _ _ _ _ _ _ _ _ _ _ X Afin Apos Hc Hcf Ef Hlt0 Df Hls) as [_ Hdec].
    apply linesearch_calls in Hls as [_ Hcl]. specialize (Hcl ltac:(discriminate)). cbn [snd] in Hcl.
    assert (Hxn : xn = [fadd F x (fmul F al (fdiv F (fneg F g) hmod))]).
    { specialize (Hxs O x _ eq_refl eq_refl). destruct xn as [|q [|]]; try discriminate. cbn in Hxs. congruence. }
    apply (IH st4 (fadd F x (fmul F al (fdiv F (fneg F g) hmod))) x fv); [|exact H|exact HI4|clear -Hcalls Hcl; lia].
    right. split; [exact Ef|]. exists ph. split; [rewrite <- Hxn; exact Hval|]. apply (ex_lt F val X); auto.
Qed.

(** ** Cases *)
Definition real_opt_ops : OptOps R := mkOptOps Rabs sqrt Rmax Rmin 2 3 (/ 2) (/ 1000) (/ 1000) (/ 30) 10.
Lemma real_opt_ok : real_opt real_opt_ops.
Proof. split; cbn; auto. lra. Qed.
(** x^2 / 2, minimised from 3 with at most two iterations: the first step reaches 0, where the second iteration stops. The state counts the calls. *)
Definition parabola : objective nat R :=
  mkObj (fun k p => Ok (S k, match p with [x] => Some (x * x / 2) | _ => None end))
        (fun k p => Ok (S k, match p with [x] => Some (x * x / 2, [x]) | _ => None end)).
Definition parabola_ls : backtracking R := mkBT (/ 10000) (/ 2) (/ 10) 20 3 1000.
Definition parabola_opts : optim_options R := mkOptim 2 0 (/ 100).
Lemma parabola_fits : gradient_fits parabola 1.
Proof. intros st x st' v g Hx H. cbn in H. destruct x as [|x [|]]; try discriminate. injection H as _ _ <-. reflexivity. Qed.
Ltac decide_reals := repeat (match goal with
  | |- context [Rlt_dec ?a ?b] => destruct (Rlt_dec a b); try (exfalso; lra)
  | |- context [Req_EM_T ?a ?b] => destruct (Req_EM_T a b); try (exfalso; lra)
  | |- context [Rle_dec ?a ?b] => destruct (Rle_dec a b); try (exfalso; lra)
  | |- context [Rcase_abs ?a] => destruct (Rcase_abs a); try (exfalso; lra)
  end; cbn [negb orb andb bind]).
Lemma parabola_search x fx slope c k : x * x / 2 = fx -> slope < 0 -> - x * x = slope -> Rabs x <= 1000 -> exists xn v,
  linesearch rops real_opt_ops (budgeted rops parabola 0) parabola_ls [x] [- x] 1 fx slope (c, k) = Ok ((S c, S k), Some (1, v, [xn])) /\ xn = 0 /\ v = 0.
Proof.
  intros Hfx Hs Hsx Hx. unfold linesearch, inf_norm. cbn [ffinite rops negb orb parabola_ls bt_maxstep map fold_left].
  assert (fleb rops 1 (fzero rops) = false) as -> by (apply not_true_is_false; rewrite rleb_iff; cbn [fzero rops]; lra).
  change (oo_max real_opt_ops) with Rmax. change (oo_abs real_opt_ops) with Rabs. change (oo_min real_opt_ops) with Rmin. change (fzero rops) with 0.
  rewrite Rabs_Ropp, Rmax_right by (apply Rabs_pos). change (fgtb rops (Rabs x) 0) with (rltb 0 (Rabs x)).
  assert (Hx0 : 0 < Rabs x) by (apply Rabs_pos_lt; intros ->; lra).
  rewrite (proj2 (rltb_iff _ _) Hx0). assert (Hm : Rmin 1 (fdiv rops 1000 (Rabs x)) = 1).
  { apply Rmin_left. cbn [fdiv rops]. apply Rmult_le_reg_r with (Rabs x); auto. unfold Rdiv. rewrite Rmult_assoc, Rinv_l by lra. lra. }
  cbv zeta. rewrite Hm. change (oo_finite_max real_opt_ops) with 10%nat. change 10%nat with (S 9). generalize 9%nat. intros m1. cbn [halve]. unfold axpy, zip_eq. cbn [List.length Nat.eqb bind combine map fst snd fadd fmul rops].
  unfold budgeted at 1. cbn [Nat.eqb negb andb ob_f parabola bind ffinite rops]. change (bt_iterations _) with (S 19). generalize 19%nat. intros m2. cbn [armijo_loop].
  exists (x + 1 * - x), ((x + 1 * - x) * (x + 1 * - x) / 2). cbn [bt_c1 parabola_ls fadd fmul rops].
  assert (fleb rops ((x + 1 * - x) * (x + 1 * - x) / 2) (fx + / 10000 * 1 * slope) = true) as ->.
  { apply rleb_iff. replace ((x + 1 * - x) * (x + 1 * - x) / 2) with 0 by field. assert (Habs : x * x = 2 * fx) by lra. nra. }
  split; [reflexivity|]. split; [ring|field].
Qed.
(** Two iterations are enough and the second is not used up. *)
Example C61_case : exists x v, bfgs_minimize rops real_opt_ops parabola parabola_opts parabola_ls O [3] = Ok (3%nat, 3%nat, Some (mkResult [x] v 3)) /\ x = 0 /\ v = 0
  /\ real_opt real_opt_ops /\ 0 <= oi_g_abstol parabola_opts /\ gradient_fits parabola 1 /\ oi_f_calls_limit parabola_opts = O /\ (3 <= 2 * oi_iterations parabola_opts)%nat.
Proof.
  assert (G : exists x v, bfgs_minimize rops real_opt_ops parabola parabola_opts parabola_ls O [3] = Ok (3%nat, 3%nat, Some (mkResult [x] v 3)) /\ x = 0 /\ v = 0).
  { rewrite C61_textbook_bfgs; [|apply real_opt_ok|cbn; lra|apply parabola_fits].
    cbn [ob_fg parabola bind List.length]. change (oi_iterations parabola_opts) with (S (S O)). remember (S O) as one eqn:E1. cbn [plain_bfgs]. change (oi_f_calls_limit parabola_opts) with O.
    cbn [Nat.eqb negb andb snd]. change (oi_g_abstol parabola_opts) with (/ 100). unfold inf_norm at 1. cbn [map fold_left]. change (oo_max real_opt_ops) with Rmax. change (oo_abs real_opt_ops) with Rabs. change (fzero rops) with 0.
    rewrite (Rabs_pos_eq 3), Rmax_right by lra.
    assert (fleb rops 3 (/ 100) = false) as -> by (apply not_true_is_false; rewrite rleb_iff; lra).
    destruct (matvec_real 1 (identity rops 1) [3]) as (hg & Em & Hl & Hc); [reflexivity..|]. subst one. rewrite Em. cbn [bind].
    assert (Eh : hg = [3]). { destruct hg as [|h [|]]; try discriminate. specialize (Hc O ltac:(lia)). cbn in Hc. f_equal. lra. }
    subst hg. cbn [map]. rewrite (dot_real [3] [- (3)] 1) by reflexivity. cbn [bind].
    destruct (parabola_search 3 (3 * 3 / 2) (sigma 1 (fun i => comp [3] i * comp [- (3)] i)) 1 1) as (xn & v & Els & Hxn & Hv); [reflexivity|cbn; lra|cbn; lra|rewrite Rabs_pos_eq; lra|].
    rewrite Els. cbn [bind fst snd ob_fg parabola]. subst xn v.
    destruct (sub_ok rops [0] [3] eq_refl) as (dx & Edx & Hdx). rewrite Edx. cbn [bind].
    destruct (dot_ok rops dx dx eq_refl) as (dd & Edd). rewrite Edd. cbn [bind].
    assert (Hfin : forall H, plain_bfgs real_opt_ops parabola parabola_opts parabola_ls 1 1 (3%nat, 3%nat) [0] [0] H (0 * 0 / 2) = Ok (3%nat, 3%nat, Some (mkResult [0] (0 * 0 / 2) 3))).
    { intros H. cbn [plain_bfgs]. change (oi_f_calls_limit parabola_opts) with O. cbn [Nat.eqb negb andb snd]. unfold inf_norm. cbn [map fold_left]. change (oo_max real_opt_ops) with Rmax. change (oo_abs real_opt_ops) with Rabs. change (fzero rops) with 0.
      rewrite Rabs_R0, Rmax_left by lra. assert (fleb rops 0 (oi_g_abstol parabola_opts) = true) as -> by (apply rleb_iff; cbn; lra). reflexivity. }
    exists 0, (0 * 0 / 2). destruct (Rlt_dec (oo_tiny real_opt_ops) dd) as [Ht|Ht].
    - destruct (matvec_ok rops 1 (identity rops 1) dx) as (u & Eu & Hu); [reflexivity|auto|]. rewrite Eu. cbn [bind].
      destruct (dot_ok rops dx u) as (du & Edu); [cbn in *; congruence|]. rewrite Edu. cbn [bind].
      destruct (bfgs_update_ok rops real_opt_ops 1 (identity rops 1) dx u ((dd + du) / (dd * dd)) (1 / dd)) as (H' & EH & _); [reflexivity|auto..|]. rewrite EH. cbn [bind].
      rewrite Hfin. split; [reflexivity|]. split; [reflexivity|field].
    - rewrite Hfin. split; [reflexivity|]. split; [reflexivity|field]. }
  destruct G as (x & v & G & Hx & Hv). exists x, v. split; [exact G|]. split; [exact Hx|]. split; [exact Hv|]. split; [apply real_opt_ok|]. split; [cbn; lra|]. split; [apply parabola_fits|]. split; [reflexivity|]. cbn. lia.
Qed.

(** The update on an example: the identity, a step (1, 0) and a change of gradient (2, 1). *)
Example C61_update_case : spd 2 (identity rops 2) /\ dot rops [1; 0] [2; 1] = Ok (0 + 1 * 2 + 0 * 1) /\ 0 < 0 + 1 * 2 + 0 * 1.
Proof. split; [apply identity_spd|]. split; [rewrite (dot_real _ _ 2) by reflexivity; reflexivity|lra]. Qed.

(** Newton on (x - 1)^2: the second iteration stops at 1. *)
Lemma xq_exact_opt : exact_opt xqops xval xq_opt_ops.
Proof.
  split.
  - intros [a| |]; try discriminate. cbn. intros _. split; auto. reflexivity.
  - intros [a| |]; try discriminate. cbn [ffinite xqops xfin xval]. intros _ Ha. unfold xq_opt_ops, oo_abs, xq_abs. destruct (xlt (XF a) (XF 0)); cbn; split; auto. Lqa.lra.
  - split; [reflexivity|cbn]. Lqa.lra.
  - intros a H. unfold xq_opt_ops, oo_max, oo_tiny in *. destruct (xlt a (XF (1 # 1000000))) eqn:E; [reflexivity|]. destruct a as [a| |]; try discriminate.
    cbn [xlt] in E. apply negb_false_iff, Qle_bool_iff in E. cbn [xval]. apply Qlt_le_trans with (1 # 1000000); [reflexivity|auto].
Qed.
Example C61_newton_case : ExactLaws xqops xval /\ exact_opt xqops xval xq_opt_ops /\ OrderLaws xqops /\ SignLaws xqops (oo_half xq_opt_ops) /\ repeatable (fun _ => True) line_obj line_f
  /\ ffinite xqops (bt_maxstep default_bt) = false /\ fltb xqops (fzero xqops) (bt_c1 default_bt) = true
  /\ exists r, newton_1d_minimize xqops xq_opt_ops line_obj (mkOptim 3 0 (XF (1 # 100000))) default_bt 0%nat (XF 0) = Ok (5%nat, 5%nat, Some r) /\ (5 < 4 * 3)%nat.
Proof.
  split; [apply xq_exact|]. split; [apply xq_exact_opt|]. split; [apply xq_order_laws|]. split; [apply xq_sign_laws|]. split; [|split; [reflexivity|split; [reflexivity|]]].
  - split.
    + intros st x st' v _ [= _ <-]. auto.
    + intros st x st' v _ H. split; auto. cbn in H. injection H as _ <-. intros a g H. unfold line_f. destruct x as [|[x| |] [|]]; try discriminate. injection H as <- _. reflexivity.
  - eexists. split; [vm_compute; reflexivity|]. lia.
Qed.
Print Assumptions C61_update.
Print Assumptions C61_descent.
Print Assumptions C61_textbook_bfgs.
Print Assumptions C61_bfgs_stops.
Print Assumptions C61_bfgs_stationary.
Print Assumptions C61_newton_stationary.
