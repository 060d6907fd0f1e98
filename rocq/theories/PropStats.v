(** Property C30: the adaptive-parsimony statistics. *)
From Coq Require Import QArith Qminmax Lqa.
From Verif Require Import Base BaseLemmas Node Rng Registry Complexity Member SortProofs Num Instances Selection SelectionProofs PropHof PropSelection.
Local Open Scope nat_scope.

Lemma upd_same {A} (l : list A) i x : nth_error l i = Some x -> upd l i x = l.
Proof. revert i. induction l as [|y l IH]; intros [|i] H; try discriminate; cbn in *; [injection H as ->; auto|f_equal; auto]. Qed.

(** A history of calls. *)
Inductive stat_op : Type := Observe (size : nat) | ObserveAll (sizes : list nat) | MoveWindow | Normalize.
Definition stat_step {W} (FW : FloatOps W) (of_nat : nat -> W) (eps : W) (s : stats W) (op : stat_op) : stats W :=
  match op with
  | Observe size => update_frequencies FW s size
  | ObserveAll sizes => update_from_population FW s sizes
  | MoveWindow => move_window FW of_nat eps s
  | Normalize => normalize FW s
  end.
Definition stat_run {W} (FW : FloatOps W) (of_nat : nat -> W) (eps : W) (ops : list stat_op) (s : stats W) : stats W :=
  fold_left (stat_step FW of_nat eps) ops s.

Section exact.
Context {W : Type} (FW : FloatOps W) (val : W -> Q) (X : ExactLaws FW val) (of_nat : nat -> W) (eps : W).
Hypothesis of_nat_exact : forall n, ffinite FW (of_nat n) = true /\ (val (of_nat n) == inject_Z (Z.of_nat n))%Q.
Hypothesis eps_ok : ffinite FW eps = true /\ (0 < val eps)%Q.

(** A frequency is a finite number, at least 1. *)
Definition freq_ok (v : W) : Prop := ffinite FW v = true /\ (1 <= val v)%Q.
Definition stats_ok (n : nat) (s : stats W) : Prop :=
  List.length (st_freq s) = n /\ List.length (st_norm s) = n /\ Forall freq_ok (st_freq s) /\ ffinite FW (st_window s) = true.

Lemma lt_val a b : ffinite FW a = true -> ffinite FW b = true -> fltb FW a b = true <-> (val a < val b)%Q.
Proof. apply (ex_lt _ _ X). Qed.
Lemma lt_val_false a b : ffinite FW a = true -> ffinite FW b = true -> fltb FW a b = false <-> (val b <= val a)%Q.
Proof.
  intros Ha Hb. rewrite <- not_true_iff_false, (lt_val a b Ha Hb). split; [apply Qnot_lt_le|]. intros H Hc. lra.
Qed.
Lemma le_val a b : ffinite FW a = true -> ffinite FW b = true -> fleb FW a b = true <-> (val a <= val b)%Q.
Proof.
  intros Ha Hb. unfold fleb. rewrite orb_true_iff, (ex_lt _ _ X), (ex_eq _ _ X) by auto. split; [intros []; lra|].
  intros H. destruct (Qlt_le_dec (val a) (val b)); auto. right. lra.
Qed.
Lemma fin_num a : ffinite FW a = true -> feqb FW a a = true.
Proof. intros H. apply (ex_eq _ _ X); auto. reflexivity. Qed.

Lemma wmin_val a b : ffinite FW a = true -> ffinite FW b = true ->
  ffinite FW (wmin FW a b) = true /\ (val (wmin FW a b) <= val a)%Q /\ (val (wmin FW a b) <= val b)%Q /\ (wmin FW a b = a \/ wmin FW a b = b).
Proof.
  intros Ha Hb. unfold wmin. rewrite (fin_num a Ha), (fin_num b Hb). cbn [negb]. destruct (fltb FW b a) eqn:E.
  - apply lt_val in E; auto. repeat split; auto; lra.
  - apply lt_val_false in E; auto. repeat split; auto; lra.
Qed.
Lemma wmin_inf b : ffinite FW b = true -> wmin FW (finf FW) b = b.
Proof.
  intros Hb. unfold wmin. destruct (negb (feqb FW (finf FW) (finf FW))); auto. rewrite (fin_num b Hb). cbn [negb].
  destruct (ex_inf _ _ X) as [_ H]. destruct (H b Hb) as [-> _]. reflexivity.
Qed.

Lemma fold_wmin l : forall m, ffinite FW m = true -> Forall (fun v => ffinite FW v = true) l ->
  let z := fold_left (wmin FW) l m in ffinite FW z = true /\ (val z <= val m)%Q /\ Forall (fun v => (val z <= val v)%Q) l /\ (z = m \/ In z l).
Proof.
  induction l as [|a l IH]; intros m Hm Hl; cbn zeta; cbn [fold_left].
  - repeat split; auto. lra.
  - apply Forall_cons_iff in Hl as [Ha Hl]. destruct (wmin_val m a Hm Ha) as (H1 & H2 & H3 & H4).
    destruct (IH _ H1 Hl) as (I1 & I2 & I3 & I4). cbn zeta in *. split; auto. split; [lra|]. split.
    + constructor; auto. lra.
    + destruct I4 as [->|I4]; [|right; right; auto]. destruct H4 as [->| ->]; [left|right; left]; auto.
Qed.

Lemma wsum_val_aux l : forall t, ffinite FW t = true -> Forall (fun v => ffinite FW v = true) l ->
  ffinite FW (fold_left (fadd FW) l t) = true /\ (val (fold_left (fadd FW) l t) == val t + Qsum (vals val l))%Q.
Proof.
  induction l as [|a l IH]; intros t Ht Hl; cbn [fold_left vals map Qsum].
  - split; auto. lra.
  - apply Forall_cons_iff in Hl as [Ha Hl]. destruct (ex_add _ _ X t a Ht Ha) as [Hf Ev]. destruct (IH _ Hf Hl) as [I1 I2]. split; auto.
    rewrite I2, Ev. unfold vals. lra.
Qed.
Lemma wsum_val l : Forall (fun v => ffinite FW v = true) l -> ffinite FW (wsum FW l) = true /\ (val (wsum FW l) == Qsum (vals val l))%Q.
Proof.
  intros H. destruct (ex_zero _ _ X) as [Hz Ez]. destruct (wsum_val_aux l (fzero FW) Hz H) as [H1 H2]. split; auto. unfold wsum. rewrite H2, Ez. lra.
Qed.
Lemma freq_fin l : Forall freq_ok l -> Forall (fun v => ffinite FW v = true) l.
Proof. apply Forall_impl. intros v [H _]. exact H. Qed.

(** ** Initial state and counting *)
Theorem C30_new n window : let s := stats_new FW of_nat n window in
  stats_ok n s /\ Forall (fun v => (val v == 1)%Q) (st_freq s) /\ (val (st_window s) == inject_Z (Z.of_nat window))%Q.
Proof.
  cbn zeta. unfold stats_new. destruct (ex_one _ _ X) as [Ho Eo]. destruct (of_nat_exact window) as [Hw Ew]. cbn [st_freq st_norm st_window].
  assert (HF : forall P : W -> Prop, P (fone FW) -> Forall P (fill n (fone FW))) by (intros P HP; unfold fill; induction n; cbn; auto).
  split; [split; [|split; [|split]]|split]; cbn [st_freq st_norm st_window]; auto.
  - unfold fill. apply repeat_length.
  - rewrite map_length. unfold fill. apply repeat_length.
  - apply HF. split; auto. lra.
Qed.

(** Observing a complexity between 1 and n raises that counter by exactly one; anything else changes nothing. *)
Theorem C30_observe n s size : stats_ok n s ->
  let s' := update_frequencies FW s size in
  stats_ok n s' /\ st_norm s' = st_norm s /\ st_window s' = st_window s /\
  (forall i, S i <> size -> nth_error (st_freq s') i = nth_error (st_freq s) i) /\
  (1 <= size <= n -> exists v v', nth_error (st_freq s) (size - 1) = Some v /\ nth_error (st_freq s') (size - 1) = Some v' /\ (val v' == val v + 1)%Q).
Proof.
  intros (Hl & Hn & Hf & Hw). cbn zeta. unfold update_frequencies. destruct (ex_one _ _ X) as [Ho Eo].
  destruct (Nat.ltb_spec 0 size); cbn [andb]; [|repeat split; auto; lia].
  destruct (Nat.leb_spec size (List.length (st_freq s))); [|repeat split; auto; lia].
  destruct (nth_error (st_freq s) (size - 1)) as [v|] eqn:E; [|apply nth_error_None in E; lia].
  assert (Hv : freq_ok v) by (rewrite Forall_forall in Hf; apply Hf; eapply nth_error_In; eauto).
  destruct Hv as [Hv1 Hv2]. destruct (ex_add _ _ X v (fone FW) Hv1 Ho) as [Ha Ea]. cbn [st_freq st_norm st_window].
  split; [split; [|split; [|split]]|split; [|split; [|split]]]; cbn [st_freq st_norm st_window]; auto.
  - rewrite upd_length. auto.
  - apply Forall_forall. intros x Hx. apply In_nth_error in Hx as (i & Hi). destruct (Nat.eq_dec i (size - 1)) as [->|Hne].
    + rewrite nth_error_upd_same in Hi by lia. injection Hi as <-. split; auto. rewrite Ea, Eo. lra.
    + rewrite nth_error_upd_other in Hi by auto. rewrite Forall_forall in Hf. apply Hf. eapply nth_error_In; eauto.
  - intros i Hi. apply nth_error_upd_other. lia.
  - intros _. exists v, (fadd FW v (fone FW)). split; auto. split; [apply nth_error_upd_same; lia|]. rewrite Ea, Eo. reflexivity.
Qed.

(** ** The moving window *)
(** [f'] is [f] lowered by [c], but not below 1. *)
Definition lowered (c : Q) (f f' : W) : Prop := ffinite FW f' = true /\ (val f' == Qmax 1 (val f - c))%Q.

Lemma lowered_0 l : Forall freq_ok l -> Forall2 (lowered 0) l l.
Proof. induction 1 as [|x l [H1 H2] Hl IH]; constructor; auto. split; auto. destruct (Q.max_spec 1 (val x - 0)) as [[_ ->]|[? ->]]; lra. Qed.
Lemma lowered_ok c f0 f : Forall2 (lowered c) f0 f -> Forall freq_ok f.
Proof. induction 1 as [|a b l l' [H1 H2] Hl IH]; constructor; auto. split; auto. rewrite H2. apply Q.le_max_l. Qed.

Fixpoint count_above (l : list W) : nat := match l with [] => 0 | v :: l' => (if fltb FW (fone FW) v then 1 else 0) + count_above l' end.
Lemma count_above_filter l : List.length (filter (fun v => fltb FW (fone FW) v) l) = count_above l.
Proof. induction l as [|v l IH]; cbn; auto. destruct (fltb FW (fone FW) v); cbn; lia. Qed.
Lemma count_above_le l : count_above l <= List.length l.
Proof. induction l as [|v l IH]; cbn; auto. destruct (fltb FW (fone FW) v); lia. Qed.

Definition take_off (amount : W) (v : W) : W := if fltb FW (fone FW) v then fsub FW v amount else v.

Lemma take_off_lowered c amount f0 f m : ffinite FW amount = true -> (0 <= val amount)%Q ->
  Forall2 (lowered c) f0 f -> (val amount <= m - 1)%Q -> (forall v, In v f -> fltb FW (fone FW) v = true -> (m <= val v)%Q) ->
  Forall2 (lowered (c + val amount)) f0 (map (take_off amount) f).
Proof.
  intros Ha Pa H Hm. destruct (ex_one _ _ X) as [Ho Eo]. induction H as [|a v l l' [H1 H2] Hl IH]; intros Hall; cbn [map]; constructor.
  - unfold take_off. destruct (fltb FW (fone FW) v) eqn:E.
    + destruct (ex_sub _ _ X v amount H1 Ha) as [Hs Es]. split; auto. rewrite Es. pose proof (Hall v (or_introl eq_refl) E).
      apply lt_val in E; auto. rewrite Eo in E.
      destruct (Q.max_spec 1 (val a - c)) as [[? Em]|[? Em]]; rewrite Em in H2; [|lra].
      destruct (Q.max_spec 1 (val a - (c + val amount))) as [[? ->]|[? ->]]; lra.
    + apply lt_val_false in E; auto. rewrite Eo in E. split; auto.
      destruct (Q.max_spec 1 (val a - c)) as [[? Em]|[? Em]]; rewrite Em in H2; [lra|].
      destruct (Q.max_spec 1 (val a - (c + val amount))) as [[? ->]|[? ->]]; lra.
  - apply IH. intros v' Hv'. apply Hall. right. auto.
Qed.

Lemma take_off_sum amount f : ffinite FW amount = true -> Forall freq_ok f ->
  (Qsum (vals val (map (take_off amount) f)) == Qsum (vals val f) - val amount * inject_Z (Z.of_nat (count_above f)))%Q.
Proof.
  intros Ha H. induction H as [|v l [H1 H2] Hl IH]; cbn [map vals Qsum count_above].
  - cbn [Z.of_nat]. change (inject_Z 0) with 0%Q. lra.
  - unfold vals in *. rewrite IH. unfold take_off at 1. rewrite Nat2Z.inj_add, inject_Z_plus. destruct (fltb FW (fone FW) v).
    + destruct (ex_sub _ _ X v amount H1 Ha) as [_ ->]. change (inject_Z (Z.of_nat 1)) with 1%Q. lra.
    + change (inject_Z (Z.of_nat 0)) with 0%Q. lra.
Qed.

Lemma take_off_count amount f m : ffinite FW amount = true -> Forall freq_ok f -> In m f -> fltb FW (fone FW) m = true ->
  (val amount == val m - 1)%Q -> (0 <= val amount)%Q -> count_above (map (take_off amount) f) < count_above f.
Proof.
  intros Ha Hf Hin Hm Eam Pa. destruct (ex_one _ _ X) as [Ho Eo].
  assert (Hle : forall g, Forall freq_ok g -> count_above (map (take_off amount) g) <= count_above g).
  { induction 1 as [|v l [H1 H2] Hl IH]; cbn [map count_above]; auto. unfold take_off at 1. destruct (fltb FW (fone FW) v) eqn:E; [|rewrite E; lia].
    destruct (fltb FW (fone FW) (fsub FW v amount)); lia. }
  induction Hf as [|v l [H1 H2] Hl IH]; [contradiction|]. cbn [map count_above]. destruct Hin as [->|Hin].
  - unfold take_off at 1. rewrite Hm. destruct (ex_sub _ _ X m amount H1 Ha) as [Hs Es].
    assert (E : fltb FW (fone FW) (fsub FW m amount) = false). { apply lt_val_false; auto. rewrite Es, Eo, Eam. lra. }
    rewrite E. specialize (Hle l Hl). lia.
  - specialize (IH Hin). unfold take_off at 1. destruct (fltb FW (fone FW) v) eqn:E; [|rewrite E; lia].
    destruct (fltb FW (fone FW) (fsub FW v amount)); lia.
Qed.

(** Values that differ, differ by at least [eps]. *)
Definition separated (l : list Q) : Prop := forall a b, In a l -> In b l -> (a < b)%Q -> (a + val eps <= b)%Q.

Section loop.
Context (f0 : list W) (win : Q).
Hypothesis f0_ok : Forall freq_ok f0.

Lemma loop_spec turns : forall c f remaining,
  (0 <= c)%Q -> Forall2 (lowered c) f0 f -> ffinite FW remaining = true -> (Qsum (vals val f) == win + val remaining)%Q -> (0 <= val remaining)%Q ->
  let f' := move_window_loop FW of_nat eps turns f remaining in
  exists c', (0 <= c')%Q /\ Forall2 (lowered c') f0 f' /\ (win <= Qsum (vals val f'))%Q /\
    (separated (1%Q :: vals val f0) -> Exists (fun q => q == 1 + c)%Q (1%Q :: vals val f0) -> count_above f <= turns ->
     (Qsum (vals val f') == win)%Q \/ Forall (fun v => (val v == 1)%Q) f').
Proof.
  destruct (ex_one _ _ X) as [Ho Eo]. destruct (ex_zero _ _ X) as [Hz Ez].
  assert (Hones : forall g, Forall freq_ok g -> count_above g = 0 -> Forall (fun v => (val v == 1)%Q) g).
  { induction 1 as [|v l [H1 H2] Hl IH]; cbn [count_above]; intros H; constructor.
    - destruct (fltb FW (fone FW) v) eqn:E; [cbn in H; lia|]. apply lt_val_false in E; auto. rewrite Eo in E. lra.
    - apply IH. lia. }
  induction turns as [|turns IH]; intros c f remaining Pc Hlow Hrem Hsum Prem; cbn zeta; cbn [move_window_loop].
  - exists c. split; auto. split; auto. split; [lra|]. intros _ _ Hc. right. apply Hones; [eapply lowered_ok; eauto|lia].
  - assert (Hok : Forall freq_ok f) by (eapply lowered_ok; eauto).
    destruct (fltb FW (fzero FW) remaining) eqn:Er; cbn [negb].
    2: { apply lt_val_false in Er; auto. rewrite Ez in Er. exists c. split; auto. split; auto. split; [lra|]. intros _ _ _. left. lra. }
    apply lt_val in Er; auto. rewrite Ez in Er.
    destruct (filter (fun v => fltb FW (fone FW) v) f) as [|a0 above] eqn:Ef.
    { exists c. split; auto. split; auto. split; [lra|]. intros _ _ _. right. apply Hones; auto. rewrite <- count_above_filter, Ef. reflexivity. }
    assert (Hcnt : List.length (a0 :: above) = count_above f) by (rewrite <- Ef; apply count_above_filter).
    assert (Hin : forall v, In v (a0 :: above) <-> In v f /\ fltb FW (fone FW) v = true) by (intros v; rewrite <- Ef; apply filter_In).
    rewrite Hcnt. set (N := count_above f) in *. assert (HN : 1 <= N) by (rewrite <- Hcnt; cbn; lia).
    destruct (of_nat_exact N) as [Hnf En]. set (nr := of_nat N) in *.
    assert (PN : (1 <= inject_Z (Z.of_nat N))%Q) by (change 1%Q with (inject_Z 1); rewrite <- Zle_Qle; lia).
    set (q := inject_Z (Z.of_nat N)) in *.
    (* the minimum *)
    assert (Hfin : Forall (fun v => ffinite FW v = true) (a0 :: above)).
    { apply Forall_forall. intros v Hv. apply Hin in Hv as [Hv _]. rewrite Forall_forall in Hok. apply Hok in Hv as [? _]. auto. }
    cbn [fold_left]. apply Forall_cons_iff in Hfin as [Ha0 Habove]. rewrite (wmin_inf a0 Ha0).
    destruct (fold_wmin above a0 Ha0 Habove) as (M1 & M2 & M3 & M4). cbn zeta in *. set (mn := fold_left (wmin FW) above a0) in *.
    assert (Hmin_in : In mn (a0 :: above)) by (destruct M4 as [->|M4]; [left|right]; auto).
    assert (Hmin_le : forall v, In v f -> fltb FW (fone FW) v = true -> (val mn <= val v)%Q).
    { intros v Hv Hv1. assert (Hv' : In v (a0 :: above)) by (apply Hin; auto). destruct Hv' as [<-|Hv']; auto. rewrite Forall_forall in M3. auto. }
    apply Hin in Hmin_in as [Hmn_f Hmn_1]. pose proof Hmn_1 as Hmn_gt. apply lt_val in Hmn_gt; auto. rewrite Eo in Hmn_gt.
    (* the amount *)
    destruct (ex_div _ _ X remaining nr Hrem Hnf) as [Hdf Ed]. { rewrite En. fold q. lra. }
    destruct (ex_sub _ _ X mn (fone FW) M1 Ho) as [Hsf Es].
    destruct (wmin_val (fdiv FW remaining nr) (fsub FW mn (fone FW)) Hdf Hsf) as (A1 & A2 & A3 & A4).
    set (amount := wmin FW (fdiv FW remaining nr) (fsub FW mn (fone FW))) in *.
    assert (Pdiv : (0 < val remaining / q)%Q). { apply Qlt_shift_div_l; lra. }
    assert (Ediv : (val remaining / q * q == val remaining)%Q) by (field; lra).
    rewrite En in Ed. fold q in Ed. rewrite Es, Eo in A3. rewrite Ed in A2.
    assert (Pam : (0 < val amount)%Q). { destruct A4 as [->| ->]; [rewrite Ed; auto|rewrite Es, Eo; lra]. }
    assert (Hpos : fltb FW (fzero FW) amount = true) by (apply lt_val; auto; rewrite Ez; auto). rewrite Hpos. cbn [negb].
    change (map (fun v => if fltb FW (fone FW) v then fsub FW v amount else v) f) with (map (take_off amount) f).
    assert (Hlow' : Forall2 (lowered (c + val amount)) f0 (map (take_off amount) f)).
    { apply (take_off_lowered c amount f0 f (val mn)); auto; lra. }
    pose proof (take_off_sum amount f A1 Hok) as Hsum'. fold N in Hsum'. fold q in Hsum'.
    destruct (ex_mul _ _ X amount nr A1 Hnf) as [Htf Et]. rewrite En in Et. fold q in Et.
    destruct (ex_sub _ _ X remaining (fmul FW amount nr) Hrem Htf) as [Hrf Erm]. rewrite Et in Erm.
    assert (Hle : (val amount * q <= val remaining)%Q). { rewrite <- Ediv. apply Qmult_le_compat_r; lra. }
    assert (Hsum2 : (Qsum (vals val (map (take_off amount) f)) == win + val (fsub FW remaining (fmul FW amount nr)))%Q) by (rewrite Hsum', Hsum, Erm; lra).
    assert (Prem' : (0 <= val (fsub FW remaining (fmul FW amount nr)))%Q) by (rewrite Erm; lra).
    (* the two kinds of turn *)
    assert (Hkind : (val (fsub FW remaining (fmul FW amount nr)) == 0)%Q \/ ((val amount == val mn - 1)%Q /\ count_above (map (take_off amount) f) < N)).
    { destruct A4 as [E4|E4].
      - left. rewrite Erm, E4, Ed, Ediv. lra.
      - right. assert (EA : (val amount == val mn - 1)%Q) by (rewrite E4, Es, Eo; reflexivity). split; auto.
        apply (take_off_count amount f mn); auto. lra. }
    assert (Hlevel : separated (1%Q :: vals val f0) -> Exists (fun q => q == 1 + c)%Q (1%Q :: vals val f0) ->
      (val amount == val mn - 1)%Q -> Exists (fun q => q == 1 + (c + val amount))%Q (1%Q :: vals val f0) /\ (val eps <= val amount)%Q).
    { intros Hsep Hex EA. assert (H0 : exists a, In a f0 /\ (val mn == val a - c)%Q).
      { clear - Hlow Hmn_f Hmn_gt. induction Hlow as [|a b l l' [H1 H2] Hl IH]; [contradiction|]. destruct Hmn_f as [->|Hin].
        - exists a. split; [left; auto|]. destruct (Q.max_spec 1 (val a - c)) as [[? Em]|[? Em]]; rewrite Em in H2; lra.
        - destruct (IH Hin) as (a' & Ha' & Ea'). exists a'. split; [right; auto|auto]. }
      destruct H0 as (a & Hina & Ea). assert (Hina' : In (val a) (1%Q :: vals val f0)) by (right; apply in_map; auto). split.
      - apply Exists_exists. exists (val a). split; auto. rewrite EA, Ea. lra.
      - apply Exists_exists in Hex as (b & Hb & Eb). pose proof (Hsep b (val a) Hb Hina') as H. lra. }
    destruct (fltb FW (fmul FW amount nr) eps) eqn:Eeps.
    + exists (c + val amount)%Q. split; [lra|]. split; auto. split; [lra|]. intros Hsep Hex _.
      destruct Hkind as [Hk|[Hk _]]; [left; lra|]. exfalso. destruct (Hlevel Hsep Hex Hk) as [_ Hge].
      destruct eps_ok as [He1 He2]. apply lt_val in Eeps; auto. rewrite Et in Eeps. nra.
    + destruct (IH (c + val amount)%Q _ _ ltac:(lra) Hlow' Hrf Hsum2 Prem') as (c' & P' & L' & W' & S'). cbn zeta in *.
      exists c'. split; auto. split; auto. split; auto. intros Hsep Hex Hc. destruct Hkind as [Hk|[Hk Hcnt']].
      * (* remaining is now 0: the loop stops *)
        left. destruct turns as [|turns']; cbn [move_window_loop]; [lra|].
        assert (E0 : fltb FW (fzero FW) (fsub FW remaining (fmul FW amount nr)) = false) by (apply lt_val_false; auto; rewrite Ez; lra).
        rewrite E0. cbn [negb]. lra.
      * destruct (Hlevel Hsep Hex Hk) as [Hex' _]. apply S'; auto. apply Nat.lt_succ_r. apply (Nat.lt_le_trans _ _ _ Hcnt' Hc).
Qed.
End loop.

(** Moving the window changes nothing if the total is within the window. Otherwise it lowers every frequency by a common amount, but
    not below 1, and never takes the total below the window; if different frequencies differ by at least [eps] (for instance whole
    numbers), the total is then the window size, or every frequency is 1. *)
Theorem C30_move_window n s : stats_ok n s -> n <= 1001 ->
  let s' := move_window FW of_nat eps s in
  stats_ok n s' /\ st_norm s' = st_norm s /\ st_window s' = st_window s /\
  ((Qsum (vals val (st_freq s)) <= val (st_window s))%Q -> s' = s) /\
  ((val (st_window s) < Qsum (vals val (st_freq s)))%Q ->
    (exists c, (0 <= c)%Q /\ Forall2 (lowered c) (st_freq s) (st_freq s')) /\ (val (st_window s) <= Qsum (vals val (st_freq s')))%Q /\
    (separated (1%Q :: vals val (st_freq s)) ->
      (Qsum (vals val (st_freq s')) == val (st_window s))%Q \/ Forall (fun v => (val v == 1)%Q) (st_freq s'))).
Proof.
  intros Hs Hn. change (n <= max_turns) in Hn. pose proof Hs as (Hl & Hnm & Hf & Hw). cbn zeta. unfold move_window. destruct (wsum_val (st_freq s) (freq_fin _ Hf)) as [Hsf Hsv].
  destruct (fleb FW (wsum FW (st_freq s)) (st_window s)) eqn:E.
  - apply le_val in E; auto. rewrite Hsv in E. repeat split; auto; intros; lra.
  - assert (E' : (val (st_window s) < val (wsum FW (st_freq s)))%Q).
    { apply Qnot_le_lt. intros Hc. apply le_val in Hc; auto. congruence. }
    destruct (ex_sub _ _ X _ _ Hsf Hw) as [Hrf Er].
    destruct (loop_spec (st_freq s) (val (st_window s)) max_turns 0 (st_freq s) (fsub FW (wsum FW (st_freq s)) (st_window s))) as (c & Pc & Hlow & Hge & Hfull); auto.
    + lra.
    + apply lowered_0. auto.
    + rewrite Er, Hsv. lra.
    + rewrite Er. lra.
    + cbn zeta in *. cbn [st_freq st_norm st_window]. rewrite Hsv in E'. split.
      { split; [|split; [|split]]; cbn [st_freq st_norm st_window]; auto.
        - rewrite <- (Forall2_length _ _ _ Hlow). auto.
        - eapply lowered_ok; eauto. }
      split; auto. split; auto. split; [intros; lra|]. intros _. split; [exists c; auto|]. split; auto.
      intros Hsep. apply Hfull; auto.
      * left. lra.
      * rewrite <- Hl in Hn. pose proof (count_above_le (st_freq s)). lia.
Qed.

(** ** Normalisation *)
Lemma Qsum_ge_length l : Forall freq_ok l -> (inject_Z (Z.of_nat (List.length l)) <= Qsum (vals val l))%Q.
Proof.
  induction 1 as [|v l [H1 H2] Hl IH]; cbn [vals map Qsum List.length]; [change (inject_Z (Z.of_nat 0)) with 0%Q; lra|].
  rewrite Nat2Z.inj_succ, <- Z.add_1_r, inject_Z_plus. change (inject_Z 1) with 1%Q. unfold vals in IH. lra.
Qed.

Theorem C30_normalize n s : stats_ok n s ->
  let s' := normalize FW s in
  stats_ok n s' /\ st_freq s' = st_freq s /\ st_window s' = st_window s /\
  (1 <= n ->
    Forall2 (fun f p => ffinite FW p = true /\ (val p == val f / Qsum (vals val (st_freq s)))%Q /\ (0 < val p)%Q) (st_freq s) (st_norm s') /\
    (Qsum (vals val (st_norm s')) == 1)%Q).
Proof.
  intros (Hl & Hnm & Hf & Hw). cbn zeta. unfold normalize. destruct (wsum_val (st_freq s) (freq_fin _ Hf)) as [Hsf Hsv].
  destruct (ex_zero _ _ X) as [Hz Ez]. pose proof (Qsum_ge_length (st_freq s) Hf) as Hge. rewrite Hl in Hge.
  destruct (feqb FW (wsum FW (st_freq s)) (fzero FW)) eqn:E.
  - apply (ex_eq _ _ X) in E; auto. rewrite Hsv, Ez in E. cbn [st_freq st_norm st_window].
    repeat split; auto; cbn [st_norm]; try (rewrite map_length; auto; fail).
    + exfalso. assert (1 <= inject_Z (Z.of_nat n))%Q by (change 1%Q with (inject_Z 1); rewrite <- Zle_Qle; lia). lra.
    + exfalso. assert (1 <= inject_Z (Z.of_nat n))%Q by (change 1%Q with (inject_Z 1); rewrite <- Zle_Qle; lia). lra.
  - assert (Hne : ~ (val (wsum FW (st_freq s)) == 0)%Q).
    { intros Hc. assert (feqb FW (wsum FW (st_freq s)) (fzero FW) = true) by (apply (ex_eq _ _ X); auto; rewrite Ez; auto). congruence. }
    cbn [st_freq st_norm st_window]. split; [split; [|split; [|split]]; cbn [st_freq st_norm st_window]; auto; rewrite map_length; auto|].
    split; auto. split; auto. intros H1. assert (P1 : (1 <= inject_Z (Z.of_nat n))%Q) by (change 1%Q with (inject_Z 1); rewrite <- Zle_Qle; lia).
    set (S := wsum FW (st_freq s)) in *. assert (PS : (0 < val S)%Q) by (rewrite Hsv; lra). rewrite Hsv in Hne.
    assert (Hall : Forall2 (fun f p => ffinite FW p = true /\ (val p == val f / val S)%Q /\ (0 < val p)%Q) (st_freq s) (map (fun v => fdiv FW v S) (st_freq s))).
    { clearbody S. clear - Hf X Hsf PS. induction Hf as [|v l [F1 F2] Hl IH]; cbn [map]; constructor; auto.
      destruct (ex_div _ _ X v S F1 Hsf) as [Hd Ed]; [lra|]. split; auto. split; auto. rewrite Ed. apply Qlt_shift_div_l; lra. }
    split.
    + clearbody S. revert Hall Hsv. generalize (Qsum (vals val (st_freq s))) as Z. intros Z Hall Hsv. clear - Hall Hsv. induction Hall as [|f p l l' (A1 & A2 & A3) Hl IH]; constructor; auto. split; auto. split; auto. rewrite A2, Hsv. reflexivity.
    + assert (Hsum : forall g p, Forall2 (fun f p => ffinite FW p = true /\ (val p == val f / val S)%Q /\ (0 < val p)%Q) g p ->
        (Qsum (vals val p) == Qsum (vals val g) / val S)%Q).
      { induction 1 as [|f q g' l' (A1 & A2 & A3) Hl' IH]; cbn [vals map Qsum]; [field; lra|]. unfold vals in *. rewrite IH, A2. field. lra. }
      rewrite (Hsum _ _ Hall), <- Hsv. field. lra.
Qed.

(** The frequency reported for a complexity: its proportion, or [eps] when that is smaller or the complexity was never counted. *)
Theorem C30_freq n s size : List.length (st_norm s) = n -> Forall (fun v => ffinite FW v = true) (st_norm s) ->
  exists v, freq FW eps s size = Ok v /\ (val eps <= val v)%Q /\
    (1 <= size <= n -> exists p, nth_error (st_norm s) (size - 1) = Some p /\ (val v == Qmax (val p) (val eps))%Q) /\
    (~ 1 <= size <= n -> v = eps).
Proof.
  intros Hn Hf. destruct eps_ok as [He1 He2]. unfold freq. destruct (Nat.eqb_spec size 0); cbn [orb].
  { exists eps. repeat split; auto; [lra|lia]. }
  destruct (Nat.ltb_spec (List.length (st_norm s)) size).
  { exists eps. repeat split; auto; [lra|lia]. }
  destruct (nth_error (st_norm s) (size - 1)) as [p|] eqn:E; [|apply nth_error_None in E; lia].
  assert (Hp : ffinite FW p = true) by (rewrite Forall_forall in Hf; apply Hf; eapply nth_error_In; eauto).
  unfold index. rewrite E. cbn [expect bind]. unfold wmax. rewrite (fin_num p Hp), (fin_num eps He1). cbn [negb].
  eexists. split; [reflexivity|]. destruct (fltb FW p eps) eqn:El.
  - apply lt_val in El; auto. split; [lra|]. split; [|lia]. intros _. exists p. split; auto. destruct (Q.max_spec (val p) (val eps)) as [[? ->]|[? ->]]; lra.
  - apply lt_val_false in El; auto. split; [lra|]. split; [|lia]. intros _. exists p. split; auto. destruct (Q.max_spec (val p) (val eps)) as [[? ->]|[? ->]]; lra.
Qed.

(** ** Any history of calls *)
Theorem C30_history n window ops : n <= 1001 ->
  let s := stat_run FW of_nat eps ops (stats_new FW of_nat n window) in
  stats_ok n s /\ (val (st_window s) == inject_Z (Z.of_nat window))%Q.
Proof.
  intros Hn. cbn zeta. destruct (C30_new n window) as (H0 & _ & Hw). revert H0 Hw. generalize (stats_new FW of_nat n window) as s.
  unfold stat_run. induction ops as [|op ops IH]; intros s Hs Hw; cbn [fold_left]; auto.
  assert (Hstep : stats_ok n (stat_step FW of_nat eps s op) /\ st_window (stat_step FW of_nat eps s op) = st_window s).
  { destruct op as [size|sizes| |]; cbn [stat_step].
    - destruct (C30_observe n s size Hs) as (H1 & _ & H2 & _). auto.
    - unfold update_from_population. clear Hw. revert s Hs. induction sizes as [|z sizes IHs]; intros s Hs; cbn [fold_left]; auto.
      destruct (C30_observe n s z Hs) as (H1 & _ & H2 & _). destruct (IHs _ H1) as [I1 I2]. split; auto. congruence.
    - destruct (C30_move_window n s Hs Hn) as (H1 & _ & H2 & _). auto.
    - destruct (C30_normalize n s Hs) as (H1 & _ & H2 & _). auto. }
  destruct Hstep as [H1 H2]. apply IH; auto. rewrite H2. exact Hw.
Qed.
End exact.

(** In binary64 the window total is not enforced: rounding leaves a frequency a hair above 1, the next turn removes less than 1e-6 in total
    and the loop stops. Three observe/move rounds with 5 complexities and window 7 end with a total of 10, although frequencies above 1
    remain. *)
Definition f64_of_nat (n : nat) : SpecFloat.spec_float := f64lit (Z.of_nat n) 0.
Definition f64_1e_6 : SpecFloat.spec_float := f64lit 4722366482869645 (-72).
Theorem C30_window_refuted :
  let s := stat_run f64ops f64_of_nat f64_1e_6
             [ObserveAll [5; 5; 4; 3]; MoveWindow; Observe 4; MoveWindow; ObserveAll [5; 5; 5]; MoveWindow] (stats_new f64ops f64_of_nat 5 7) in
  feqb f64ops (wsum f64ops (st_freq s)) (f64lit 10 0) = true /\ feqb f64ops (st_window s) (f64lit 7 0) = true /\
  nth_error (st_freq s) 4 = Some (f64lit 5 0).
Proof. vm_compute. auto. Qed.

(** The premises of the exact theorems hold for the extended rationals. *)
Definition xq_of_nat (n : nat) : xq := XF (inject_Z (Z.of_nat n)).
Lemma xq_of_nat_exact n : ffinite xqops (xq_of_nat n) = true /\ (xval (xq_of_nat n) == inject_Z (Z.of_nat n))%Q.
Proof. split; reflexivity. Qed.
Lemma Qmax_small b a : (a <= b)%Q -> (Qmax b a == b)%Q.
Proof. apply Q.max_l. Qed.

(** Counts 1, 3, 4, window 5: two turns lower 3 to 2 ... down to a total of 5. *)
Example C30_case :
  let s := stat_run xqops xq_of_nat (XF (1 # 1000000)) [ObserveAll [2; 2; 3; 9; 3; 0; 3]] (stats_new xqops xq_of_nat 3 5) in
  map xval (st_freq s) = [1; 3; 4]%Q /\ separated xval (XF (1 # 1000000)) (1%Q :: map xval (st_freq s)) /\
  map (fun v => Qred (xval v)) (st_freq (move_window xqops xq_of_nat (XF (1 # 1000000)) s)) = [1; 3 # 2; 5 # 2]%Q.
Proof.
  cbn zeta. split; [vm_compute; reflexivity|]. split; [|vm_compute; reflexivity].
  replace (map xval _) with [1; 3; 4]%Q by (vm_compute; reflexivity).
  unfold separated. cbn [xval]. intros a b Ha Hb Hlt. cbn in Ha, Hb.
  repeat (destruct Ha as [<-|Ha]; [|]); try contradiction; repeat (destruct Hb as [<-|Hb]; [|]); try contradiction; lra.
Qed.

Print Assumptions C30_move_window.
Print Assumptions C30_normalize.
Print Assumptions C30_freq.
Print Assumptions C30_history.
Print Assumptions C30_window_refuted.
